(** Concrete cases of the theorems about diagonalisation, evolution, thermal
    averages and response. *)
From Coq Require Import List Arith Lia Reals Lra Bool Permutation.
From Verif Require Import Scalars Res Matrix SpecMat ModelGeometry ModelPhase ModelSymmetry SymBase ModelBase SpecSymmetry
  ModelThermal SpecThermal ThermalBase ThermalSectors ThermalBasis ThermalDiag ThermalResponse ThermalCond ThermalSites RefuteThermal ThermalFacts ThermalBlocks PropertiesThermal.
Import ListNotations.
Local Open Scope R_scope.

(** The Pauli matrix x with its eigenvectors (1, -1) and (1, 1), normalised. *)
Definition h : R := / sqrt 2.
Lemma h2 : h * h = / 2.
Proof. unfold h. rewrite <- Rinv_mult by (apply Rgt_not_eq, sqrt_lt_R0; lra). rewrite sqrt_sqrt by lra. reflexivity. Qed.
Definition VX : cmat := Mat 2 2 (fun i k => if (i =? 1)%nat && (k =? 0)%nat then real (- h) else real h).
Definition EX : list R := [-1; 1].

Ltac two i H := destruct i as [|[|i]]; [| |exfalso; cbn in H; lia].
Lemma cr_eq (a b : CR) : fst a = fst b -> snd a = snd b -> a = b.
Proof. destruct a, b. cbn. intros -> ->. reflexivity. Qed.
Example eigen_X : eigenbasis flip VX EX.
Proof.
  split; [|split].
  - split; [reflexivity|]. split; [reflexivity|]. split; [reflexivity|]. intros i k Hi Hk. cbn [VX nrow ncol] in *.
    two i Hi; two k Hk; unfold apply, col; cbn [ksum flip VX ent Nat.eqb andb nth EX nrow]; apply cr_eq; cbn; ring.
  - intros k l Hk Hl. cbn [VX nrow ncol] in *. pose proof h2.
    two k Hk; two l Hl; unfold inner, col; cbn [ksum VX ent Nat.eqb andb nrow kb]; apply cr_eq; cbn; nra.
  - apply complete_from. intros i j Hi Hj. cbn [VX nrow ncol] in *. pose proof h2.
    two i Hi; two j Hj; cbn [ksum VX ent Nat.eqb andb nrow kb]; apply cr_eq; cbn; nra.
Qed.
Example sorted_X : sorted_list EX.
Proof. intros i j Hij. cbn in Hij. destruct i as [|[|i]], j as [|[|j]]; cbn; try lia; lra. Qed.
Example apart_X : apart gap13 EX.
Proof.
  intros x y Hx Hy. cbn in Hx, Hy. pose proof gap13_small.
  destruct Hx as [<-|[<-|[]]], Hy as [<-|[<-|[]]]; auto; right.
  - rewrite Rabs_left by lra. lra.
  - rewrite Rabs_right by lra. lra.
Qed.

(** C54: the observable x itself has the averages -tanh(1/T) and -1. *)
Example fits_X : fits VX flip EX.
Proof. repeat split. discriminate. Qed.
Lemma levels_X : levels EX VX flip = [(-1, -1); (1, 1)].
Proof.
  unfold levels. cbn [EX length seq map nth]. pose proof h2.
  repeat f_equal; unfold expect, inner, apply, col; cbn [ksum VX flip ent nrow Nat.eqb andb]; cbn; nra.
Qed.
Example average_X T : T <> 0 ->
  exp_vals_thermal VX flip EX T = Ok ((exp (- 1 / T) - exp (1 / T)) / (exp (- 1 / T) + exp (1 / T))).
Proof.
  intros HT. rewrite (C54_boltzmann VX flip EX T fits_X HT), levels_X. unfold boltzmann. rewrite !total_cons, !total_nil. cbn [energy value fst snd].
  replace (- -1 / T) with (1 / T) by (field; exact HT). f_equal. replace (- (1) / T) with (-1 / T) by (field; exact HT). f_equal; ring.
Qed.
Example average_X_0 : exp_vals_thermal VX flip EX 0 = Ok (-1).
Proof.
  rewrite (C54_zero_temperature VX flip EX fits_X sorted_X apart_X), levels_X. unfold average_at. rewrite !total_cons, !total_nil.
  unfold at_energy. cbn [energy value fst snd EX nth]. destruct (Req_EM_T (-1) (-1)); [|congruence]. destruct (Req_EM_T 1 (-1)); [lra|].
  f_equal. field.
Qed.

(** C55: the two levels as two sectors of one state each. *)
Definition one (x : R) : cmat := Mat 1 1 (fun _ _ => real x).
Definition secs_X : list sector := [(one 1, one 1, [1]); (one 1, one (-1), [-1])].
Example sectors_X : secs_X <> [] /\ (forall s, In s secs_X -> sector_ok s) /\ (forall s, In s secs_X -> sorted_list (sE s)) /\
  Permutation (levels EX VX flip) (concat (map sector_levels secs_X)).
Proof.
  split; [discriminate|]. split. { intros s [<-|[<-|[]]]; repeat split; discriminate. }
  split. { intros s [<-|[<-|[]]] i j Hij; cbn in Hij; assert (i = 0 /\ j = 0)%nat as [-> ->] by lia; lra. }
  rewrite levels_X. assert (E : concat (map sector_levels secs_X) = [(1, 1); (-1, -1)]).
  { unfold secs_X, sector_levels, levels. cbn [map concat app sE sV sop fst snd length seq nth].
    repeat f_equal; unfold expect, inner, apply, col; cbn [ksum one ent nrow]; cbn; ring. }
  rewrite E. apply perm_swap.
Qed.

(** C56: the evolution of the upper state oscillates between both. *)
Example oscillation t : exists Ms, quench (OneState 2 (fun i => kb (i =? 0)%nat)) VX EX [t] = Ok Ms /\ length Ms = 1%nat /\
  ent (nth 0 Ms (mzero 0 0)) 0 0 = (cos t, 0) /\ ent (nth 0 Ms (mzero 0 0)) 1 0 = (0, - sin t).
Proof.
  destruct (quench_entries (OneState 2 (fun i => kb (i =? 0)%nat)) VX EX [t] eq_refl eq_refl) as (Ms & H1 & H2 & H3).
  exists Ms. split; [exact H1|]. split; [exact H2|]. cbn [as_columns ncol] in H2. destruct (H3 0%nat ltac:(lia)) as (_ & _ & H4).
  rewrite !H4 by (cbn; lia). unfold evolve, to_eig, col, cexp. cbn [ksum VX ncol nrow ent nth EX as_columns Nat.eqb andb kb]. pose proof h2.
  replace (- (t * -1)) with t by ring. replace (- (t * 1)) with (- t) by ring. rewrite cos_neg, sin_neg.
  split; apply cr_eq; cbn; match goal with |- ?a = ?b => replace a with (h * h * (2 * b)) by ring end; rewrite h2; field.
Qed.

(** C57: a library returning the pairs in decreasing order. *)
Definition eigh_down (H : cmat) : list R * cmat := ([1; -1], Mat 2 2 (fun i k => ent VX i (1 - k))).
Example eigh_pairs : eigenbasis flip (snd (eigh_down flip)) (fst (eigh_down flip)).
Proof.
  cbn [eigh_down fst snd]. split; [|split].
  - split; [reflexivity|]. split; [reflexivity|]. split; [reflexivity|]. intros i k Hi Hk. cbn [nrow ncol] in *.
    two i Hi; two k Hk; unfold apply, col; cbn [ksum flip VX ent Nat.eqb Nat.sub andb nth nrow]; apply cr_eq; cbn; ring.
  - intros k l Hk Hl. cbn [nrow ncol] in *. pose proof h2.
    two k Hk; two l Hl; unfold inner, col; cbn [ksum VX ent Nat.eqb Nat.sub andb nrow kb]; apply cr_eq; cbn; nra.
  - apply complete_from. intros i j Hi Hj. cbn [nrow ncol] in *. pose proof h2.
    two i Hi; two j Hj; cbn [ksum VX ent Nat.eqb Nat.sub andb nrow kb]; apply cr_eq; cbn; nra.
Qed.
Example eigh_sorted : fst (diagH eigh_down (fun _ _ => ([], mzero 0 0)) flip 2 false) = [-1; 1].
Proof.
  destruct (C57_dense eigh_down (fun _ _ => ([], mzero 0 0)) flip 2 eigh_pairs) as (S & _ & P & _).
  set (l := fst _) in *. cbn [eigh_down fst] in P.
  assert (L := Permutation_length P). destruct l as [|a [|b [|c l]]]; try discriminate L.
  specialize (S 0%nat 1%nat ltac:(cbn; lia)). cbn in S.
  assert (A : In a [1; -1]) by (apply (Permutation_in _ P); left; reflexivity).
  assert (B : In b [1; -1]) by (apply (Permutation_in _ P); right; left; reflexivity).
  assert (C : In (-1) [a; b]) by (apply (Permutation_in _ (Permutation_sym P)); right; left; reflexivity).
  assert (D : In 1 [a; b]) by (apply (Permutation_in _ (Permutation_sym P)); left; reflexivity).
  cbn in *. destruct C as [->|[->|[]]].
  - destruct D as [D|[D|[]]]; [lra | subst; reflexivity].
  - destruct D as [D|[D|[]]]; [subst; lra | lra].
Qed.

(** C78: two eigenbases of x, in different order and with different phases. *)
Example two_bases T : T <> 0 -> exp_vals_thermal VX flip EX T = exp_vals_thermal (snd (eigh_down flip)) flip (fst (eigh_down flip)) T.
Proof.
  intros HT. apply (C78_basis_independence flip); [apply flip_herm | apply eigen_X | apply eigh_pairs | reflexivity | apply fits_X | discriminate | left; exact HT].
Qed.

(** C81: z in the state (3, 4) / 5. *)
Definition pauli_z : cmat := mdiag 2 (fun i => if (i =? 0)%nat then real 1 else real (-1)).
Example z_diagonal : diagonal_mat 2 pauli_z.
Proof.
  split; [split; reflexivity|]. intros i j Hi Hj Ne. cbn [pauli_z mdiag ent].
  apply Nat.eqb_neq in Ne. rewrite Ne. reflexivity.
Qed.

(** C82..C85: two levels with distinct energies and x as operator; [flip_herm],
    [unique_01] of RefuteThermal. *)
Example square_01 : square_size flip (length E01). Proof. split; reflexivity. Qed.
Example symmetric_01 n m : abs2 (ent flip n m) = abs2 (ent flip m n).
Proof. cbn [flip ent]. rewrite (Nat.eqb_sym m n). reflexivity. Qed.
Example conductivity_01 : integrate_conductivity 2 flip E01 0 = Ok PI.
Proof.
  unfold integrate_conductivity. rewrite square_of_ok by apply square_01. cbn [negb]. unfold E01 at 1. rewrite is_zero_0. f_equal.
  rewrite sum1_total. change (length E01) with 2%nat. cbn [seq]. rewrite !total_cons, total_nil, !modulus_abs2. cbn [flip ent Nat.eqb].
  rewrite abs2_0, abs2_1. unfold E01. cbn [nth INR]. rewrite (is_zero_false (1 - 0)) by lra. field.
Qed.

(** C87: two states of a chain of three sites, no projector. *)
Example pairs_three : all_pairs 3 = [(0, 0); (1, 0); (2, 0); (1, 1); (2, 1); (2, 2)]%nat. Proof. reflexivity. Qed.

(** C89: x split by the symmetry which exchanges the two states. *)
Definition row2 (a b : R) : cmat := Mat 1 2 (fun _ j => if (j =? 0)%nat then real a else real b).
Definition blocks_X : list block := [(row2 h h, one 1, [1]); (row2 h (- h), one 1, [-1])].
Example blocks_split : splits 2 (map (fun x => fst (fst x)) blocks_X) /\ block_diagonal (map (fun x => fst (fst x)) blocks_X) flip /\
  (forall x, In x blocks_X -> eigenbasis (seen_in (fst (fst x)) flip) (snd (fst x)) (snd x)) /\
  (forall x, In x blocks_X -> (0 < nrow (fst (fst x)))%nat).
Proof.
  pose proof h2. cbn [blocks_X map fst snd].
  assert (O : forall x, orthonormal (one x) <-> x * x = 1).
  { intros x. split.
    - intros Q. specialize (Q 0%nat 0%nat ltac:(cbn; lia) ltac:(cbn; lia)). unfold inner, col in Q. cbn [ksum one ent nrow Nat.eqb kb] in Q.
      apply (f_equal fst) in Q. cbn in Q. lra.
    - intros Q k l Hk Hl. cbn in Hk, Hl. assert (k = 0 /\ l = 0)%nat as [-> ->] by lia. unfold inner, col. cbn [ksum one ent nrow Nat.eqb kb]. apply cr_eq; cbn; nra. }
  assert (C1 : complete_basis (one 1)).
  { apply complete_from. intros i j Hi Hj. cbn in Hi, Hj. assert (i = 0 /\ j = 0)%nat as [-> ->] by lia. cbn [ksum one ent ncol Nat.eqb kb]. apply cr_eq; cbn; ring. }
  split; [split; [|split]|split; [|split]].
  - intros a Ha. cbn [length] in Ha. two a Ha; cbn [nth]; (split; [reflexivity|]); (split; [reflexivity|]); (split; [reflexivity|]);
    intros i j Hi Hj; cbn in Hi, Hj; assert (i = 0 /\ j = 0)%nat as [-> ->] by lia; cbn [mmul madj meye ent ncol row2 ksum Nat.eqb kb]; apply cr_eq; cbn; nra.
  - intros a b Ha Hb Ne. cbn [length] in Ha, Hb. two a Ha; two b Hb; try congruence; cbn [nth]; (split; [reflexivity|]); (split; [reflexivity|]);
    intros i j Hi Hj; cbn in Hi, Hj; assert (i = 0 /\ j = 0)%nat as [-> ->] by lia; cbn [mmul madj mzero ent ncol row2 ksum Nat.eqb kb]; apply cr_eq; cbn; nra.
  - split; [reflexivity|]. split; [reflexivity|]. intros i j Hi Hj. cbn in Hi, Hj.
    two i Hi; two j Hj; cbn [map msum fold_right madd mzero mmul madj meye ent ncol nrow row2 ksum Nat.eqb kb]; apply cr_eq; cbn; nra.
  - intros a b Ha Hb Ne. cbn [length] in Ha, Hb. two a Ha; two b Hb; try congruence; cbn [nth]; (split; [reflexivity|]); (split; [reflexivity|]);
    intros i j Hi Hj; cbn in Hi, Hj; assert (i = 0 /\ j = 0)%nat as [-> ->] by lia; cbn [mmul madj mzero ent ncol nrow row2 flip ksum Nat.eqb kb]; apply cr_eq; cbn; nra.
  - intros x [<-|[<-|[]]]; cbn [fst snd]; (split; [|split; [apply O; ring | exact C1]]); (split; [reflexivity|]); (split; [reflexivity|]); (split; [reflexivity|]);
    intros i k Hi Hk; cbn in Hi, Hk; assert (i = 0 /\ k = 0)%nat as [-> ->] by lia; unfold apply, col;
    cbn [seen_in mmul madj ent ncol nrow row2 one flip ksum Nat.eqb nth]; apply cr_eq; cbn; nra.
  - intros x [<-|[<-|[]]]; cbn; lia.
Qed.
