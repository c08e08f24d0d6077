(** Concrete cases meeting the hypotheses of the theorems on maps, site cycles
    and symmetry sectors. *)
From Coq Require Import List Arith Lia QArith Reals Lra ZArith Bool Permutation.
From Verif Require Import Scalars Res Matrix SpecMat SpecPerm ModelGeometry ModelPhase ModelSites ModelSymmetry SpecGeometry
  SpecSites SpecSymmetry MapProofs SiteApi RefuteSites SymBase SymGroup SymGram SymPerm SymTorus9 SymApi SymSpan SymTrans2 CharTable.
Import ListNotations.
Local Open Scope nat_scope.

(** ** C42: the quarter turn about (1, 1) takes (2, 1) to (1, 2). *)
Example ex_quarter : exists f, rotation_map 4 (1, 1)%R = Ok f /\ f (2, 1)%R = (1, 2)%R.
Proof.
  destruct (rotation_ok 4 (1, 1)%R ltac:(discriminate)) as (f & E & _ & _ & _ & _ & H). exists f. split; [exact E|].
  replace (2, 1)%R with (polar (1, 1)%R 1%R 0%R) by (unfold polar; cbn [fst snd]; rewrite cos_0, sin_0; f_equal; lra).
  rewrite H. replace (0 + 2 * PI / 4)%R with (PI / 2)%R by lra. unfold polar. cbn [fst snd]. rewrite cos_PI2, sin_PI2. f_equal; lra.
Qed.

(** ** C43, C44: the quarter turn of a plaquette, and the translation of a ring *)
Definition plaquette : list vec := [(0, 0); (1, 0); (1, 1); (0, 1)]%Q.
Definition quarter (v : vec) : vec := (1 - snd v, fst v)%Q.
Example ex_plaquette : site_cycles None plaquette quarter tol10 = Ok ([[0; 1; 2; 3]], 4).
Proof. vm_compute. reflexivity. Qed.
Definition plaquette_next (i : nat) : nat := nth i [1; 2; 3; 0] 0.
Example ex_plaquette_images :
  (forall i, i < 4 -> plaquette_next i < 4 /\ on_site None (quarter (nth i plaquette vzero)) (nth (plaquette_next i) plaquette vzero)) /\
  (forall i, i < 4 -> iter plaquette_next 4 i = i) /\ usable None.
Proof.
  split; [|split; [|exact I]].
  - intros i Hi. destruct i as [|[|[|[|i]]]]; [| | | |lia]; (split; [cbn; lia|]; split; reflexivity).
  - intros i Hi. destruct i as [|[|[|[|i]]]]; [| | | |lia]; reflexivity.
Qed.
Definition ring3 : lattice := Lat (1, 0)%Q (0, 1)%Q [vzero] (3, 0)%Q (0, 0)%Q (1, 0)%Q (0, 1)%Q 0%Q 0%Q.
Example ex_ring : site_cycles (Some ring3) [(0, 0); (1, 0); (2, 0)]%Q (fun v => (fst v + 1, snd v)%Q) tol10 = Ok ([[0; 1; 2]], 3).
Proof. vm_compute. reflexivity. Qed.
Example ex_ring_reflected : site_cycles (Some ring3) [(0, 0); (1, 0); (2, 0)]%Q (fun v => (- fst v, snd v)%Q) tol10 = Ok ([[0]; [1; 2]], 2).
Proof. vm_compute. reflexivity. Qed.
Example ex_not_symmetric : site_cycles (Some ring3) [(0, 0); (1, 0)]%Q (fun v => (fst v + 1, snd v)%Q) tol10 = Raise GenericException.
Proof. vm_compute. reflexivity. Qed.

(** ** The decomposition asked for exists *)
Example ex_svd : exists svd, forall M, row_basis M (svd M).
Proof. exact (ex_intro _ gram_schmidt gram_schmidt_ok). Qed.

(** ** Rings of [n] states: rotation and reflection *)
Definition ring_turn (n j : nat) : nat := (j + 1) mod n.
Definition ring_back (n j : nat) : nat := (j + (n - 1)) mod n.
Definition ring_flip (n j : nat) : nat := (n - j) mod n.
Definition ring_checks (n : nat) : bool :=
  below_b n (ring_turn n) && below_b n (ring_back n) && below_b n (ring_flip n) &&
  same_b n (fun j => ring_turn n (ring_back n j)) (fun j => j) && same_b n (fun j => ring_back n (ring_turn n j)) (fun j => j) &&
  same_b n (fun j => ring_flip n (ring_flip n j)) (fun j => j) &&
  same_b n (piter (ring_turn n) n) (fun j => j) && same_b n (piter (ring_flip n) 2) (fun j => j) &&
  same_b n (fun j => ring_flip n (ring_turn n j)) (fun j => piter (ring_turn n) (n - 1) (ring_flip n j)).
Lemma ring_pair n : ring_checks n = true -> dihedral_pair n n (perm_mat n (ring_turn n)) (perm_mat n (ring_flip n)).
Proof.
  unfold ring_checks. rewrite !andb_true_iff. intros [[[[[[[[H1 H2] H3] H4] H5] H6] H7] H8] H9].
  pose proof (below_ok _ _ H1) as B1. pose proof (below_ok _ _ H3) as B3.
  split; [|split; [|split; [|split]]].
  - apply (perm_signed n _ (ring_back n)); assumption.
  - apply (perm_signed n _ (ring_flip n)); assumption.
  - etransitivity; [apply perm_pow; exact B1|]. etransitivity; [apply perm_eq; exact H7|apply perm_id].
  - etransitivity; [apply perm_pow; exact B3|]. etransitivity; [apply perm_eq; exact H8|apply perm_id].
  - etransitivity; [apply perm_mul; exact B1|]. symmetry.
    etransitivity; [apply mm; [apply perm_pow; exact B1| |reflexivity]|].
    + destruct (perm_pow n (ring_turn n) (n - 1) B1) as (_ & X & _). rewrite X. reflexivity.
    + etransitivity; [apply perm_mul; exact B3|]. symmetry. apply perm_eq. exact H9.
Qed.
Example ex_pairs : forall n, In n [3; 4; 5; 6] -> dihedral_pair n n (perm_mat n (ring_turn n)) (perm_mat n (ring_flip n)).
Proof. intros n [<-|[<-|[<-|[<-|[]]]]]; apply ring_pair; vm_compute; reflexivity. Qed.
(** The rectangle: half turn and reflection. *)
Example ex_rectangle : dihedral_pair 2 4 (perm_mat 4 (fun j => nth j [3; 2; 1; 0] 0)) (perm_mat 4 (fun j => nth j [1; 0; 3; 2] 0)).
Proof.
  set (a := fun j => nth j [3; 2; 1; 0] 0). set (b := fun j => nth j [1; 0; 3; 2] 0).
  assert (Ba : below 4 a) by (apply below_ok; vm_compute; reflexivity). assert (Bb : below 4 b) by (apply below_ok; vm_compute; reflexivity).
  split; [|split; [|split; [|split]]].
  - apply (perm_signed 4 a a); vm_compute; reflexivity.
  - apply (perm_signed 4 b b); vm_compute; reflexivity.
  - etransitivity; [apply perm_pow; exact Ba|]. etransitivity; [apply (perm_eq _ _ (fun j => j)); vm_compute; reflexivity|apply perm_id].
  - etransitivity; [apply perm_pow; exact Bb|]. etransitivity; [apply (perm_eq _ _ (fun j => j)); vm_compute; reflexivity|apply perm_id].
  - etransitivity; [apply perm_mul; exact Ba|]. symmetry.
    etransitivity; [apply mm; [apply perm_pow; exact Ba| |reflexivity]|].
    + destruct (perm_pow 4 a (2 - 1) Ba) as (_ & X & _). rewrite X. reflexivity.
    + etransitivity; [apply perm_mul; exact Bb|]. symmetry. apply perm_eq. vm_compute. reflexivity.
Qed.

(** ** C45, C48: the ring of three states *)
Example ex_cyclic : moves_states 3 (perm_mat 3 (ring_turn 3)) /\ meq (mpow 3 (perm_mat 3 (ring_turn 3)) 3) (meye 3).
Proof.
  destruct (ex_pairs 3) as ((H1 & _) & _ & H2 & _); [left; reflexivity|]. exact (Coq.Init.Logic.conj H1 H2).
Qed.
Example ex_cyclic_sectors : exists Bs, zn_projectors gram_schmidt (perm_mat 3 (ring_turn 3)) 3 = Ok Bs /\ length Bs = 3 /\
  splits 3 Bs /\ acts_as (nth 1 Bs (mzero 0 0)) (perm_mat 3 (ring_turn 3)) (cexp (- (2 * PI * INR 1 / INR 3))).
Proof.
  destruct (zn_sectors 3 3 (perm_mat 3 (ring_turn 3)) gram_schmidt) as (Bs & E1 & E2 & E3 & E4 & _);
    [lia|exact (proj1 ex_cyclic)|exact (proj2 ex_cyclic)|].
  exists Bs. split; [exact E1|]. split; [exact E2|]. split; [exact E3|]. apply E4. lia.
Qed.

(** ** C46: the sectors of a hexagon and of the 3x3 torus *)
Example ex_hexagon : exists Bs, d6_projectors gram_schmidt (perm_mat 6 (ring_turn 6)) (perm_mat 6 (ring_flip 6)) = Ok Bs /\ length Bs = 6.
Proof.
  destruct (d6_ok 6 (perm_mat 6 (ring_turn 6)) (perm_mat 6 (ring_flip 6)) gram_schmidt gram_schmidt_ok) as (Bs & E & L & _).
  - apply ex_pairs. right; right; right; left; reflexivity.
  - exists Bs. exact (Coq.Init.Logic.conj E L).
Qed.
Example ex_torus : torus_group false 9 (op9 r9) (op9 s9) (op9 x9) (op9 y9) /\ torus_group true 9 (op9 l9) (op9 s9) (op9 x9) (op9 y9).
Proof. exact (Coq.Init.Logic.conj torus9_cw torus9_ccw). Qed.

(** ** C47: the table of the group of two elements; the sign table with a wrong
    entry is rejected *)
Example ex_table : shaped (int_table [[1; 1]; [1; -1]]%Z) [1; 1] /\ divide_order [1; 1] /\
  orthogonal_table (int_table [[1; 1]; [1; -1]]%Z) [1; 1].
Proof.
  split; [|split].
  - split; [reflexivity|]. split; [reflexivity|]. intros s [<-|[<-|[]]]; lia.
  - intros s [<-|[<-|[]]]; reflexivity.
  - intros i j Hi Hj. cbn [length] in Hi, Hj.
    destruct i as [|[|i]]; [| |lia]; destruct j as [|[|j]]; try lia; split; cbn; unfold cr_add, cr_mul, cr_conj, real; cbn; f_equal; lra.
Qed.
Example ex_bad_table : validate_table (int_table [[1; 1]; [1; 1]]%Z) [1; 1] <> Ok true.
Proof.
  intros H. apply (proj1 (validate_integers [[1; 1]; [1; 1]]%Z [1; 1] ltac:(split; [reflexivity|]; split; [reflexivity|]; intros s [<-|[<-|[]]]; lia)
    ltac:(intros s [<-|[<-|[]]]; reflexivity))) in H.
  destruct (H 0 1) as [H1 _]; [cbn; lia|cbn; lia|].
  revert H1. cbn. unfold cr_add, cr_mul, cr_conj, real; cbn. intros H1. injection H1. intros. lra.
Qed.

(** ** C73: the two translations of the 3x3 torus *)
Example ex_two_translations : moves_states 9 (op9 x9) /\ moves_states 9 (op9 y9) /\ meq (mpow 9 (op9 x9) 3) (meye 9) /\
  meq (mpow 9 (op9 y9) 3) (meye 9) /\ meq (mmul (op9 x9) (op9 y9)) (mmul (op9 y9) (op9 x9)).
Proof.
  destruct torus9_cw as (_ & (X1 & _) & (Y1 & _) & X2 & Y2 & XY & _).
  split; [exact X1|]. split; [exact Y1|]. split; [exact X2|]. split; [exact Y2|]. symmetry. exact XY.
Qed.
