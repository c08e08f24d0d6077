(** Concrete non-trivial cases meeting the hypotheses of C01..C22. *)
From Coq Require Import List Arith Lia Bool QArith Qabs Qcanon Sorted.
From Verif Require Import Scalars Res Matrix ModelBase ModelFermions SpecFock SpecMat SpecHubbard SpecPerm
  SwapProofs HamProofs HamSym FermiApi InitProofs RefuteFermions PropertiesOps PropertiesFermions.
Import ListNotations.
Local Open Scope nat_scope.

(** Decidable equality of computed tables. *)
Definition geqb (a b : GQ) : bool := negb (kneb a b).
Fixpoint all2 {A} (f : A -> A -> bool) (l m : list A) : bool :=
  match l, m with [], [] => true | x :: l, y :: m => f x y && all2 f l m | _, _ => false end.
Definition table (A : mat GQ) : list (list GQ) :=
  map (fun i => map (ent A i) (seq 0 (ncol A))) (seq 0 (nrow A)).
Definition zz (z : Z) : GQ := gq_Q (inject_Z z).
Definition is_table (r : res (mat GQ)) (t : list (list Z)) : bool :=
  match r with Ok A => all2 (all2 geqb) (table A) (map (map zz) t) | Raise _ => false end.
Definition same_mat (r r' : res (mat GQ)) : bool :=
  match r, r' with Ok A, Ok B => all2 (all2 geqb) (table A) (table B) | _, _ => false end.

Definition s22 := Sys 2 2 2.

Example C01_ex : map (fun q => spinless2spinful q 3) [0; 2; 3; 5] = [(0, 0); (2, 0); (0, 1); (2, 1)]
  /\ spinful2spinless 2 3 1 = 5.
Proof. split; reflexivity. Qed.
Example C01_hyp : exists i k, spinless2spinful 4 3 = (i, k) /\ i < 3 /\ k < 2 /\ spinful2spinless i 3 k = 4.
Proof. apply (proj2 (C01_logical_index_bijection 3 2 ltac:(lia))). lia. Qed.

(** [c+_1 c_0] of species 0 and the same pair in the other order, one species. *)
Example C02_ex :
  is_table (two_site_op (Sys 2 1 2) 1 0 0 0 cdag_op c_op Fermion)
    [[0;0;0;0]; [0;0;1;0]; [0;0;0;0]; [0;0;0;0]]%Z = true /\
  is_table (two_site_op (Sys 2 1 2) 0 0 1 0 c_op c_op Fermion)
    [[0;0;0;1]; [0;0;0;0]; [0;0;0;0]; [0;0;0;0]]%Z = true /\
  is_table (two_site_op (Sys 2 1 2) 1 0 0 0 c_op c_op Fermion)
    [[0;0;0;-1]; [0;0;0;0]; [0;0;0;0]; [0;0;0;0]]%Z = true.
Proof. vm_compute. auto. Qed.
Example C02_hyp : exists T A B : mat GQ,
  two_site_op s22 1 1 0 0 cdag_op c_op Fermion = Ok T /\ single_site_op s22 1 1 cdag_op Fermion = Ok A /\
  single_site_op s22 0 0 c_op Fermion = Ok B /\ square 16 A /\ square 16 B /\ meq T (mmul A B).
Proof.
  apply (C02_two_site_is_product GQ GQ_StarRing s22 1 1 0 0 cdag_op c_op Fermion); cbn [s22 s_nbasis s_nsites s_nspecies];
    try reflexivity; try discriminate; try lia; split; reflexivity.
Qed.

Example C03_hyp : exists ci ci' cj cj' : mat GQ,
  single_site_op s22 0 1 c_op Fermion = Ok ci /\ single_site_op s22 0 1 cdag_op Fermion = Ok ci' /\
  single_site_op s22 1 0 c_op Fermion = Ok cj /\ single_site_op s22 1 0 cdag_op Fermion = Ok cj' /\
  square 16 ci /\ square 16 ci' /\ meq (anticomm ci cj') (mzero 16 16) /\
  meq (anticomm ci cj) (mzero 16 16) /\ meq (anticomm ci' cj') (mzero 16 16).
Proof.
  apply (C03_anticommutation GQ GQ_StarRing s22 0 1 1 0); cbn [s22 s_nbasis s_nsites s_nspecies]; lia.
Qed.

(** A site operator with a complex entry, and a second one. *)
Definition opA : mat GQ := mlit 2 2 [[k1; ki]; [k0; zz 2]].
Definition opB : mat GQ := mlit 2 2 [[k0; zz 3]; [k1; k0]].
Example C04_ex : same_mat (two_site_op s22 1 0 0 1 opA opB Boson)
    (A <- single_site_op s22 1 0 opA Boson ;; B <- single_site_op s22 0 1 opB Boson ;; cmul B A) = true /\
  same_mat (single_site_op s22 1 0 (meye 2) Boson) (Ok (meye 16)) = true.
Proof. vm_compute. auto. Qed.

(** Half-filled basis state 0110 of two sites and two species. *)
Example C05_ex : map (f_state_label s22 6) (seq 0 4) = [0; 1; 1; 0].
Proof. reflexivity. Qed.
Example C05_product : is_table
  (A <- single_site_op s22 1 0 cdag_op Fermion ;; B <- single_site_op s22 0 1 cdag_op Fermion ;;
   T <- cmul B A ;; Ok (Mat 16 1 (fun a _ => ent T a 0)))
  (map (fun a : nat => [if (a =? 6)%nat then 1%Z else 0%Z]) (seq 0 16)) = true.
Proof. vm_compute. reflexivity. Qed.

Example C06_ex :
  is_table (single_site_op (Sys 2 1 2) 0 0 cdag_op Fermion) [[0;0;0;0]; [0;0;0;0]; [1;0;0;0]; [0;-1;0;0]]%Z = true /\
  is_table (single_site_op (Sys 2 1 2) 1 0 cdag_op Fermion) [[0;0;0;0]; [1;0;0;0]; [0;0;0;0]; [0;0;1;0]]%Z = true.
Proof. vm_compute. auto. Qed.

Example C08_ex : is_table (sum_op (Sys 2 1 2) n_op 0 Boson) [[0;0;0;0]; [0;1;0;0]; [0;0;1;0]; [0;0;0;2]]%Z = true.
Proof. vm_compute. reflexivity. Qed.

Example C09_hyp : diagonal_mat 3 (mdiag 3 (fun k => nth k [zz 5; zz 2; zz 5] k0)).
Proof.
  split; [split; reflexivity|]. intros i j _ _ H. cbn [ent mdiag]. destruct (Nat.eqb_spec i j); [contradiction|reflexivity].
Qed.
Example C09_ex : match subspace_projs true (mdiag 3 (fun k => nth k [zz 5; zz 2; zz 5] k0)) None with
  | Ok (ps, vs) => map (fun P => nrow P) ps = [1; 2] \/ map (fun P => nrow P) ps = [2; 1] | Raise _ => False end.
Proof. vm_compute. auto. Qed.

Example C10_ex :
  match n_projector (K:=GQ) s22 (Some [Some 1; Some 1]) with Ok P => (nrow P, ncol P) = (4, 16) | _ => False end /\
  match n_projector (K:=GQ) s22 (Some [Some 2; None]) with Ok P => (nrow P, ncol P) = (4, 16) | _ => False end /\
  match n_projector (K:=GQ) (Sys 3 1 2) (Some [Some 2]) with Ok P => nrow P = 3 | _ => False end.
Proof. vm_compute. auto. Qed.

(** Hubbard dimer, hopping 1, interaction 4, chemical potential 1, potential 2
    on site 0; and the same lattice model on a ring of three sites. *)
Definition dimer : fermions GQ :=
  Ferm (bond k1 1 0) 2 (fun i j _ => kb (negb (i =? j))) (fun _ => zz 4) (fun _ _ _ => k0) (fun _ => k1)
    (fun i _ => if i =? 0 then zz 2 else k0) (meye 16).
Definition ring3 : fgeom GQ :=
  FGeom 3 (fun i j => negb (i =? j)) (fun _ _ => k1) (fun i j => if i =? j then 0 else 1)%Q (fun _ _ => 0%Q).
Definition trimer : fermions GQ :=
  Ferm ring3 2 (fun i j _ => kb (negb (i =? j))) (fun _ => zz 4) (fun i j _ => if i =? j then k0 else zz 3)
    (fun _ => k1) (fun _ _ => zz 7) (meye 64).

Example dimer_us : us_ok dimer. Proof. left. cbn. lia. Qed.
Example trimer_us : us_ok trimer. Proof. left. cbn. lia. Qed.
Lemma zz_real z : kconj (zz z) = zz z. Proof. exact (kQ_conj (K:=GQ) (inject_Z z)). Qed.
Example dimer_real : real_couplings dimer.
Proof.
  unfold real_couplings, real. cbn [dimer f_ts f_us f_same f_mus f_pot]. OpsProofs.splits; intros.
  - apply kb_conj.
  - apply zz_real.
  - apply kconj_0.
  - apply kconj_1.
  - destruct (_ =? _); [apply zz_real|apply kconj_0].
Qed.

Example C11_hyp : exists H, createH dimer None = Ok H /\ square 16 H /\ meq (madj H) H.
Proof. apply (C11_real_hamiltonian_hermitian GQ GQ_StarRing dimer None); [reflexivity|apply dimer_us|apply dimer_real]. Qed.

(** One species with neighbour interaction 3: the whole space and the
    one-particle sector. *)
Definition dimer1 : fermions GQ :=
  Ferm (bond k1 1 0) 1 (fun i j _ => kb (negb (i =? j))) (fun _ => k0) (fun i j _ => if i =? j then k0 else zz 3)
    (fun _ => k1) (fun i _ => if i =? 0 then zz 2 else k0) (meye 4).
Example C11_ex :
  is_table (createH dimer1 None) [[0;0;0;0]; [0;-1;-1;0]; [0;-1;1;0]; [0;0;0;3]]%Z = true /\
  is_table (P <- n_projector (Sys 2 1 2) (Some [Some 1]) ;; createH dimer1 (Some P)) [[-1;-1]; [-1;1]]%Z = true.
Proof. vm_compute. auto. Qed.

Example C13_hyp : exists H, createH dimer None = Ok H /\ ent H 5 3 = k0.
Proof.
  destruct (C13_number_conservation GQ GQ_StarRing dimer dimer_us) as (H & E & _ & _ & Z).
  exists H. split; [exact E|]. apply (Z 0); vm_compute; lia.
Qed.

Example C14_hyp : exists H, createH dimer None = Ok H /\
  meq H (hubbard_spec 2 2 (f_ts dimer) (f_us dimer) (f_same dimer) (f_mus dimer) (f_pot dimer)).
Proof.
  apply (C14_documented_model_partial GQ GQ_StarRing dimer dimer_us).
  intros i j k Hj Hi Hk _. cbn in Hi. destruct i as [|[|i]]; try lia. destruct j; try lia. reflexivity.
Qed.

(** A twist by half a turn: the bond stores -1. *)
Example C15_ex : match run_init (bond (zz (-1)) 1 0) (scal k1) with
  | Ok f => geqb (f_ts f 1 0 0) (zz (-1)) | Raise _ => false end = true.
Proof. vm_compute. reflexivity. Qed.

(** Three sites, two species: the per-species potential raises. *)
Example C16_ex : match init_pot ring3 2 (vec [k1; zz 2]) with Raise ValueError => True | _ => False end.
Proof. exact I. Qed.

Example C17_ex :
  is_ok (fermions_init ring3 (scal (zz 4)) (vec [k1; zz 2]) None (vec [k1; k0]) (scal k0)
           (Nd [3; 3; 2] (fun _ => zz 3)) 2) = true /\
  is_ok (fermions_init ring3 (vec [zz 4; zz 4]) (scal k1) None (scal k0) (scal k0) (scal k0) 2) = false /\
  is_ok (fermions_init ring3 (scal k0) (scal k1) None (vec [k0; k0; k0]) (scal k0) (scal k0) 2) = false.
Proof. vm_compute. auto. Qed.

Example C18_ex : is_table (f_swap_op (Sys 2 1 2) 0 1 0) [[1;0;0;0]; [0;0;1;0]; [0;1;0;0]; [0;0;0;-1]]%Z = true.
Proof. vm_compute. reflexivity. Qed.

Example cycle3_valid : valid_cycles 3 [[0; 1; 2]].
Proof.
  split; [repeat constructor; cbn; intuition lia|]. cbn. intuition lia.
Qed.
Lemma cycle3_nontrivial : exists c, In c [[0; 1; 2]] /\ 1 < length c.
Proof. exists [0; 1; 2]. cbn. split; [auto|lia]. Qed.

Example C19_hyp : exists T : mat GQ, xform_op (Sys 3 2 2) (f_swap_op (Sys 3 2 2)) [[0; 1; 2]] = Ok (Some T) /\
  unitary_mat 64 T /\ fixes_first 64 T /\ carries (Sys 3 2 2) T (fun _ => cycles_perm [[0; 1; 2]]).
Proof.
  apply (C19_site_permutation GQ GQ_StarRing (Sys 3 2 2)); [reflexivity|cbn; lia|apply cycle3_valid|apply cycle3_nontrivial].
Qed.

Example C20_hyp : forall T1 T3 : mat GQ,
  xform_op (Sys 3 2 2) (f_swap_op (Sys 3 2 2)) [[0; 1; 2]] = Ok (Some T1) ->
  xform_op (Sys 3 2 2) (f_swap_op (Sys 3 2 2)) [[0; 2; 1]] = Ok (Some T3) ->
  meq T3 (mmul T1 T1) /\ meq (mpow 64 T1 3) (meye 64).
Proof.
  intros T1 T3 E1 E3. split.
  - apply (C20_composition GQ GQ_StarRing (Sys 3 2 2) [[0; 1; 2]] [[0; 1; 2]] [[0; 2; 1]]); auto using cycle3_valid, cycle3_nontrivial.
    + cbn. lia.
    + split; [repeat constructor; cbn; intuition lia|]. cbn. intuition lia.
    + exists [0; 2; 1]. cbn. split; [auto|lia].
    + intros x Hx. cbn in Hx. destruct x as [|[|[|x]]]; try lia; reflexivity.
  - apply (C20_order GQ GQ_StarRing (Sys 3 2 2) [[0; 1; 2]] T1 3); auto using cycle3_valid, cycle3_nontrivial; [cbn; lia|].
    intros x Hx. cbn in Hx. destruct x as [|[|[|x]]]; try lia; reflexivity.
Qed.

Example C21_ex : xform_op (K:=GQ) s22 (f_swap_op s22) [[0]; [1]] = Ok None.
Proof. reflexivity. Qed.

Example C22_hyp : exists T H : mat GQ,
  xform_op (f_sys trimer) (f_swap_op (f_sys trimer)) [[0; 1; 2]] = Ok (Some T) /\
  createH trimer None = Ok H /\ meq (mmul T H) (mmul H T).
Proof.
  destruct C19_hyp as (T & ET & _). exists T.
  destruct (C22_symmetry_commutes GQ GQ_StarRing trimer [[0; 1; 2]] T) as (H & EH & C); auto using trimer_us, cycle3_valid.
  - intros i j k Hi Hj _. cbn in Hi, Hj.
    destruct i as [|[|[|i]]]; try lia; destruct j as [|[|[|j]]]; try lia; split; reflexivity.
  - intros i j k Hi Hj _. cbn in Hi, Hj.
    destruct i as [|[|[|i]]]; try lia; destruct j as [|[|[|j]]]; try lia; split; reflexivity.
  - exists H. auto.
Qed.
