(** Concrete cases that meet the hypotheses of C188. *)
From Coq Require Import List Arith Lia Reals Lra QArith ZArith Bool.
From Verif Require Import Scalars Res Matrix SpecMat ModelBase ModelFermions ModelSpins SpinAlg SpinApi Spectral ModelGeometry ModelPhase ModelSymmetry ModelThermal SpecThermal SymBase SpecBloch SpecParts PropertiesParts.
Import ListNotations.
Local Open Scope R_scope.

(** Spins 0 and 1 are coupled; spin 2 stands alone in a field [h] along x. *)
Definition trio (h : R) : spins CR :=
  Spins (SGeom 3 (fun i j => (i + j =? 1)%nat) (fun _ _ => c1)) 1 (fun i j => if (i + j =? 1)%nat then c1 else c0) (fun i j => if (i + j =? 1)%nat then c1 else c0) (fun i j => if (i + j =? 1)%nat then real 3 else c0)
    (fun i => if (i =? 2)%nat then real h else c1) (fun _ => c0) (fun _ => c0).
Definition first_two (p : nat) : bool := (p <? 2)%nat.
Lemma trio_real h : real_terms (trio h).
Proof. split; [intros i j _; cbn [trio sp_jx sp_jy sp_jz]; destruct (i + j =? 1)%nat; repeat split; reflexivity | intros i _; cbn [trio sp_hx sp_hy sp_hz]; destruct (i =? 2)%nat; repeat split; reflexivity]. Qed.
Lemma trio_apart h : uncoupled (trio h) first_two.
Proof. intros i j Hij NE. cbn in Hij. cbn [trio sp_jx sp_jy sp_jz]. destruct i as [|[|[|i]]]; try lia; destruct j as [|[|j]]; try lia; cbn in NE |- *; auto; congruence. Qed.
Notation root := (fun k => real (sqrt (INR k))).
Lemma root_1 : root 1%nat = k1. Proof. cbv beta. change (INR 1) with 1. rewrite sqrt_1. reflexivity. Qed.
Lemma trio_solved h : exists H V E, sp_createH root (trio h) None = Ok H /\ eigenbasis H V E.
Proof.
  assert (R1 : roots_ok (K:=CR) root 1).
  { intros i Hi. replace i with 0%nat by lia. change ((0 + 1) * (1 - 0))%nat with 1%nat. rewrite root_1, kofnat_S, kofnat_0. split; apply injective_projections; cbn; ring. }
  destruct (spin_hermitian root (trio h) None eq_refl R1) as (H & EH & (S1 & S2) & HM).
  - intros i j _ _. cbn [trio sp_jx sp_jy sp_jz]. destruct (i + j =? 1)%nat; repeat split; apply injective_projections; cbn; ring.
  - intros i _. cbn [trio sp_hx sp_hy sp_hz]. destruct (i =? 2)%nat; repeat split; apply injective_projections; cbn; ring.
  - left. reflexivity.
  - assert (HH : hermitian (nrow H) H) by (intros i j Hi Hj; destruct HM as (_ & _ & M); rewrite <- (M i j) by (cbn [madj nrow ncol]; congruence || lia); reflexivity).
    destruct (spectral (nrow H) H HH eq_refl ltac:(congruence)) as (V & E & B). exists H, V, E. split; [exact EH | exact B].
Qed.
(** Whatever the fields on spin 2 and the initial state, the z component of spin 0 and its correlation with spin 1 move alike. *)
Example ex_parts : forall h h' st times, exists H V E H' V' E' O T, sp_createH root (trio h) None = Ok H /\ eigenbasis H V E /\ sp_createH root (trio h') None = Ok H' /\ eigenbasis H' V' E' /\
  single_site_op (sp_sys (trio h)) 0 0 (sz_op 1) Boson = Ok O /\ two_site_op (sp_sys (trio h)) 0 0 1 0 (sz_op 1) (sx_op root 1) Boson = Ok T /\
  forall Ms Ms' v v' w w', (0 < ncol (as_columns st))%nat -> quench st V E times = Ok Ms -> quench st V' E' times = Ok Ms' ->
    exp_vals (Columns (nth 0 Ms (mzero 0 0))) O = Ok v -> exp_vals (Columns (nth 0 Ms' (mzero 0 0))) O = Ok v' -> exp_vals (Columns (nth 0 Ms (mzero 0 0))) T = Ok w -> exp_vals (Columns (nth 0 Ms' (mzero 0 0))) T = Ok w' ->
    forall a, (a < length times)%nat -> nth a v 0 = nth a v' 0 /\ nth a w 0 = nth a w' 0.
Proof.
  intros h h' st times. destruct (trio_solved h) as (H & V & E & EH & B). destruct (trio_solved h') as (H' & V' & E' & EH' & B').
  destruct (C188_operators (trio h) first_two 0 1 (sz_op 1) (sx_op root 1) eq_refl ltac:(cbn; lia) ltac:(cbn; lia) ltac:(lia) eq_refl eq_refl ltac:(split; reflexivity) ltac:(split; reflexivity)) as (O & T & EO & (SO1 & SO2) & AO & ET & (ST1 & ST2) & AT).
  exists H, V, E, H', V', E', O, T. do 4 (split; [assumption|]). split; [exact EO|]. split; [exact ET|]. intros Ms Ms' v v' w w' Hk Q Q' X X' Y Y' a Ha.
  assert (SI : same_inside (trio h) (trio h') first_two).
  { split; [intros; repeat split; reflexivity|]. intros i _ Pi. cbn [trio sp_hx sp_hy sp_hz]. destruct (i =? 2)%nat eqn:G; [apply Nat.eqb_eq in G; subst i; discriminate|]. repeat split; reflexivity. }
  pose proof (C188_independent root (trio h) (trio h') first_two root_1 eq_refl eq_refl eq_refl (trio_real h) (trio_real h') (trio_apart h) (trio_apart h') SI H V E H' V' E') as C.
  split; [apply (C O st 0%nat times Ms Ms' v v'); assumption | apply (C T st 0%nat times Ms Ms' w w'); assumption].
Qed.
