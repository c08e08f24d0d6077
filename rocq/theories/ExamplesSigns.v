(** Concrete cases that meet the hypotheses of C146. *)
From Coq Require Import List Arith Lia Reals Lra ZArith QArith Bool.
From Verif Require Import Scalars Res Sums Matrix SpecMat ModelBase ModelSpins SpecSpins ModelGeometry ModelPhase ModelSymmetry ModelThermal SpecThermal ThermalBase Spectral
  SymAverage SpecHeat SpecConvex SpecSigns SymBase SpinAlg SpinOps SpinApi Convex ConvexSpins Signs SignsSpins ExamplesConvex PropertiesSigns.
Import ListNotations.
Local Open Scope R_scope.

(** Two neighbouring spins with antiferromagnetic couplings, the second one of the
    second kind, without field and in opposite fields along x. *)
Definition second (i : nat) : bool := (i =? 1)%nat.
Definition staggered (h : R) (c i : nat) : R := if (c =? 0)%nat then (if (i =? 0)%nat then h else - h) else 0.
Lemma root_one : root 1%nat = (k1 : CR). Proof. cbn. rewrite sqrt_1. reflexivity. Qed.
Lemma pair_unfrustrated h : 0 <= h -> unfrustrated second (with_fields spin_pair (staggered h)).
Proof.
  intros Hh. split.
  - intros i j Hij. cbn in Hij. assert (i = 1%nat /\ j = 0%nat) as (-> & ->) by lia. exists 1, 1, 1. repeat split; try reflexivity. cbn. rewrite Rabs_R1. lra.
  - intros i Hi. cbn in Hi. exists (staggered h 0 i), 0. repeat split; try reflexivity. assert (i = 0%nat \/ i = 1%nat) as [->| ->] by lia; cbn; lra.
Qed.
(** Spins of different kinds point in opposite directions along x, more than along y. *)
Example ex_correlation : exists H V E OX OY x y, sp_createH root (with_fields spin_pair (staggered 0)) None = Ok H /\ eigenbasis H V E /\
  two_site_op (sp_sys spin_pair) 0 0 1 0 (sx_op root 1) (sx_op root 1) Boson = Ok OX /\ two_site_op (sp_sys spin_pair) 0 0 1 0 (sy_op root 1) (sy_op root 1) Boson = Ok OY /\
  exp_vals_thermal V OX E 1 = Ok x /\ exp_vals_thermal V OY E 1 = Ok y /\ Rabs y <= - x.
Proof.
  destruct (pair_solved (staggered 0)) as (H & V & E & A & B & R).
  destruct (two_elem (K:=CR) 2 ltac:(lia) 2 0 1 (sx_op root 1) (sx_op root 1) (axis_square root 0) (axis_square root 0) ltac:(lia) ltac:(lia) ltac:(lia)) as (OX & EX & SX & _).
  destruct (two_elem (K:=CR) 2 ltac:(lia) 2 0 1 (sy_op root 1) (sy_op root 1) (axis_square root 1) (axis_square root 1) ltac:(lia) ltac:(lia) ltac:(lia)) as (OY & EY & SY & _).
  change (2 ^ 2)%nat with 4%nat in SX, SY.
  destruct (average_exists H V E 1 OX B ltac:(lia) ltac:(rewrite R; exact SX) (or_introl R1_neq_R0)) as (x & Ex).
  destruct (average_exists H V E 1 OY B ltac:(lia) ltac:(rewrite R; exact SY) (or_introl R1_neq_R0)) as (y & Ey).
  exists H, V, E, OX, OY, x, y. repeat (split; [assumption|]).
  pose proof (C146_correlations root (with_fields spin_pair (staggered 0)) second H V E root_one eq_refl A (pair_unfrustrated 0 (Rle_refl 0)) B 0%nat 1%nat OX OY 1 x y ltac:(cbn; lia) ltac:(cbn; lia) ltac:(lia) EX EY ltac:(lra) (or_introl R1_neq_R0) Ex Ey) as C.
  cbn in C. lra.
Qed.
(** In opposite fields the second spin points against the axis, and the ground state is
    unique. *)
Example ex_staggered : exists H V E O x, sp_createH root (with_fields spin_pair (staggered 1)) None = Ok H /\ eigenbasis H V E /\
  single_site_op (sp_sys spin_pair) 1 0 (sx_op root 1) Boson = Ok O /\ exp_vals_thermal V O E 1 = Ok x /\ x <= 0 /\
  (forall e k j, smallest e E -> (k < length E)%nat -> (j < length E)%nat -> nth k E 0 = e -> nth j E 0 = e -> k = j) /\
  (forall e psi, smallest e E -> state_of 4 H e psi -> (exists a, (a < 4)%nat /\ psi a <> k0) -> psi 1%nat <> k0).
Proof.
  destruct (pair_solved (staggered 1)) as (H & V & E & A & B & R).
  destruct (single_elem (K:=CR) 2 ltac:(lia) 2 1 (sx_op root 1) (axis_square root 0) ltac:(lia) (or_introl eq_refl)) as (O & EO & SO & _). change (2 ^ 2)%nat with 4%nat in SO.
  destruct (average_exists H V E 1 O B ltac:(lia) ltac:(rewrite R; exact SO) (or_introl R1_neq_R0)) as (x & Ex).
  assert (U := pair_unfrustrated 1 Rle_0_1).
  assert (EV : forall i, (i < 2)%nat -> sp_hx (with_fields spin_pair (staggered 1)) i <> (k0 : CR)).
  { intros i Hi Q. apply (f_equal fst) in Q. assert (i = 0%nat \/ i = 1%nat) as [->| ->] by lia; cbn in Q; lra. }
  exists H, V, E, O, x. repeat (split; [assumption|]).
  pose proof (C146_moments root (with_fields spin_pair (staggered 1)) second H V E root_one eq_refl A U B 1%nat O 1 x ltac:(cbn; lia) EO ltac:(lra) (or_introl R1_neq_R0) Ex) as C.
  split; [cbn in C; lra|]. split; [exact (C146_spin_unique root (with_fields spin_pair (staggered 1)) second H V E root_one eq_refl A U B EV)|].
  intros e psi SM ST NZ. destruct (C146_spin_state root (with_fields spin_pair (staggered 1)) second H V E root_one eq_refl A U B EV e psi SM ST NZ) as (z & _ & P). exact (proj1 (P 1%nat (le_S _ _ (le_S _ _ (le_n 2))))) .
Qed.
(** The signs of the configurations of the two spins. *)
Example ex_signs : map (state_sign second 2) [0; 1; 2; 3]%nat = [1; -1; 1; -1] /\ signs 4 (state_sign second 2).
Proof.
  split; [|exact (state_signs second 2)]. assert (D : forall a k, (digit 2 2 1 a =? 0)%nat = k -> state_sign second 2 a = if k then 1 else -1).
  { intros a k <-. unfold state_sign. cbn [seq fold_right second Nat.eqb andb]. destruct (digit 2 2 1 a =? 0)%nat; cbn; ring. }
  cbn [map]. rewrite (D 0%nat true eq_refl), (D 1%nat false eq_refl), (D 2%nat true eq_refl), (D 3%nat false eq_refl). reflexivity.
Qed.
(** One spin in a field along x: its matrix lowers the signs (1, 1), joins both states,
    and the ground state (1, 1) has a positive average of the operator of the field. *)
Definition flipper (x : R) : mat CR := Mat 2 2 (fun a b => if (a =? b)%nat then (0, 0) else (x, 0)).
Example ex_flipper : exists V E, eigenbasis (flipper (-1)) V E /\ nrow V = 2%nat /\ signs 2 (fun _ => 1) /\ lowers 2 (fun _ => 1) (flipper (-1)) /\
  (forall a b, (a < 2)%nat -> (b < 2)%nat -> joined 2 (flipper (-1)) a b) /\ raises 2 (fun _ => 1) (flipper 1) /\
  (forall e k j, smallest e E -> (k < length E)%nat -> (j < length E)%nat -> nth k E 0 = e -> nth j E 0 = e -> k = j) /\
  (forall psi e, smallest e E -> state_of 2 (flipper (-1)) e psi -> (exists c, (c < 2)%nat /\ psi c <> k0) -> 0 < expect 2 (flipper 1) psi) /\
  (forall x, exp_vals_thermal V (flipper 1) E 1 = Ok x -> 0 <= x).
Proof.
  assert (HM : hermitian 2 (flipper (-1))).
  { intros i j _ _. cbn. rewrite (Nat.eqb_sym j i). destruct (i =? j)%nat; apply injective_projections; cbn; ring. }
  destruct (spectral 2 _ HM eq_refl eq_refl) as (V & E & B). exists V, E. assert (R : nrow V = 2%nat) by (destruct B as ((_ & S & _) & _); rewrite <- S; reflexivity).
  assert (S : signs 2 (fun _ => 1)) by (intros a _; left; reflexivity).
  assert (L : lowers 2 (fun _ => 1) (flipper (-1))) by (intros a b _ _ N; cbn; apply Nat.eqb_neq in N; rewrite N; cbn; lra).
  assert (J : forall a b, (a < 2)%nat -> (b < 2)%nat -> joined 2 (flipper (-1)) a b).
  { intros a b Ha Hb. destruct (Nat.eq_dec a b) as [->|N]; [apply joined_here|]. apply (joined_step _ _ _ a); [apply joined_here | exact Ha | exact Hb |]. cbn. apply Nat.eqb_neq in N. rewrite N. intros Q. apply (f_equal fst) in Q. cbn in Q. lra. }
  assert (P : raises 2 (fun _ => 1) (flipper 1)) by (intros a b _ _; cbn; destruct (a =? b)%nat; cbn; lra).
  repeat (split; [assumption|]). split; [exact (C146_unique _ _ _ _ _ B R S L J)|]. split.
  - intros psi e SM ST NZ. apply (C146_positive _ _ _ _ _ B R ltac:(discriminate) S L J psi e (flipper 1) 0%nat 1%nat SM ST NZ P); [lia | lia |]. cbn. intros Q. apply (f_equal fst) in Q. cbn in Q. lra.
  - intros x X. exact (C146_averages _ _ _ _ _ B R ltac:(discriminate) S L 1 (flipper 1) x ltac:(lra) (or_introl R1_neq_R0) eq_refl eq_refl P X).
Qed.
