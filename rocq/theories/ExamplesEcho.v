(** Concrete cases that meet the hypotheses of C179 and C180. *)
From Coq Require Import List Arith Lia Reals Lra Bool.
From Verif Require Import Scalars Res Matrix ModelBase ModelGeometry ModelPhase ModelSymmetry ModelThermal SpecThermal ThermalBase ThermalFacts Precess SpecLongtime SymBase Longtime RefuteLongtime PropertiesLongtime
  SpecEcho Echo SpecRates Rates PropertiesEcho.
Import ListNotations.
Local Open Scope R_scope.

Lemma weights2 k : (k < 2)%nat -> level_weight v2 (col (as_columns s2) 0) k = / 2.
Proof. pose proof r2_sq as Q. intros Hk. assert (k = 0 \/ k = 1)%nat as [-> | ->] by lia; unfold level_weight, abs2, inner, col; cbn; nra. Qed.
(** Two levels: the first state is found again with probability cos^2 t. *)
Example ex_return : forall times, exists Ms D, quench s2 v2 e2 times = Ok Ms /\ overlaps s2 (Columns (nth 0 Ms (mzero 0 0))) = Ok D /\
  forall a, (a < length times)%nat -> abs2 (ent D 0 a) = cos (nth a times 0) * cos (nth a times 0).
Proof.
  intros times. destruct (quench_entries s2 v2 e2 times eq_refl eq_refl) as (Ms & Q & LM & X). destruct (X 0%nat ltac:(rewrite LM; cbn; lia)) as (R1 & _).
  assert (OV : exists D, overlaps s2 (Columns (nth 0 Ms (mzero 0 0))) = Ok D) by (unfold overlaps; cbn [as_columns]; rewrite R1; eexists; reflexivity). destruct OV as (D & OV). exists Ms, D. split; [exact Q|]. split; [exact OV|].
  intros a Ha. rewrite (C179_return h2 v2 e2 s2 times Ms 0 D a basis2 (le_n 1) Ha Q OV). cbn [length e2 seq total fold_right]. rewrite !weights2 by lia. cbn [nth e2]. set (t := nth a times 0). replace (t * (-1 - -1)) with 0 by ring. replace (t * (1 - 1)) with 0 by ring. replace (t * (-1 - 1)) with (- (2 * t)) by ring. replace (t * (1 - -1)) with (2 * t) by ring. rewrite cos_neg, cos_0, cos_2a_cos. lra.
Qed.
(** The bound from the spread of the energy, here 1, and the floor. *)
Example ex_bounds : norm2 2 (col (as_columns s2) 0) = 1 /\ (exists e, exp_vals s2 h2 = Ok e /\ nth 0 e 0 = 0) /\ (exists e, exp_vals s2 (mmul h2 h2) = Ok e /\ nth 0 e 0 = 1).
Proof.
  split; [unfold norm2, inner, col; cbn; ring|]. split; (eexists; split; [apply exp_vals_of; reflexivity|]; cbn; ring).
Qed.
Example ex_floor : participation v2 e2 (col (as_columns s2) 0) = / 2 /\ length (nodup Req_EM_T e2) = 2%nat.
Proof.
  split.
  - rewrite participation_sum. cbn [length e2 seq total fold_right]. rewrite !weights2 by lia. unfold same. cbn [nth e2]. destruct (Req_EM_T (-1) (-1)); [|lra]. destruct (Req_EM_T (-1) 1); [lra|]. destruct (Req_EM_T 1 (-1)); [lra|]. destruct (Req_EM_T 1 1); [|lra]. lra.
  - unfold e2. cbn [nodup]. destruct (in_dec Req_EM_T (-1) [1]) as [[I|[]]|N]; [lra|]. reflexivity.
Qed.
(** The rate of change of the occupation of the first state is not the zero operator. *)
Example ex_rate : ent (rate_op h2 o2) 0 1 <> c0 /\ (exists v w, forall Ms, quench s2 v2 e2 [1] = Ok Ms ->
  exp_vals (Columns (nth 0 Ms (mzero 0 0))) o2 = Ok v /\ exp_vals (Columns (nth 0 Ms (mzero 0 0))) (rate_op h2 o2) = Ok w).
Proof.
  split; [intros Q; apply (f_equal snd) in Q; cbn in Q; lra|]. destruct (quench_entries s2 v2 e2 [1] eq_refl eq_refl) as (Ms & Q & _). eexists. eexists. intros Ms' Q'. rewrite Q in Q'. injection Q' as <-.
  split; [apply (path_of v2 e2 s2 [1] Ms 0 o2 Q (le_n 1) eq_refl eq_refl) | apply (path_of v2 e2 s2 [1] Ms 0 (rate_op h2 o2) Q (le_n 1) eq_refl eq_refl)].
Qed.
(** The energy commutes with itself, the occupation of the first state does not commute with it. *)
Example ex_commute : commute_on 2 h2 h2 /\ ~ commute_on 2 h2 o2.
Proof.
  split; [apply energy_commutes|]. intros C. pose proof (C 0%nat 1%nat ltac:(lia) ltac:(lia)) as X. apply (f_equal fst) in X. cbn in X. lra.
Qed.
(** The symmetric state has the energy -1. *)
Example ex_stationary : stationary 2 h2 (fun _ => c1) (-1).
Proof. intros i Hi. assert (i = 0 \/ i = 1)%nat as [-> | ->] by lia; apply injective_projections; cbn; ring. Qed.
