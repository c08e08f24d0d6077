(** Mirror images on some sites only change the energies. *)
From Coq Require Import List Arith Lia Reals Lra Bool Permutation.
From Verif Require Import Scalars Res Matrix Sums SqMat SpecMat ModelBase ModelSpins SpecSpins Digits SpinSwap SpinAlg SpinApi SpecPerm ModelGeometry ModelPhase ModelSymmetry SymBase ModelThermal SpecThermal ThermalBase ThermalBasis Spectral
  SpecSigns Signs SignsSpins Sectors SpecSinglet Heis SpecAxes Axes AxesApi.
Import ListNotations.
Local Open Scope R_scope.

Lemma solved rt s : rt 1%nat = k1 -> sp_two s = 1%nat -> real_spins s -> exists F V E, sp_createH rt s None = Ok F /\ eigenbasis F V E.
Proof.
  intros root half (RJ & RH).
  assert (R1 : roots_ok (K:=CR) rt 1).
  { intros i Hi. replace i with 0%nat by lia. change ((0 + 1) * (1 - 0))%nat with 1%nat. rewrite root, kofnat_S, kofnat_0. split; apply injective_projections; cbn; ring. }
  assert (C : forall z : CR, snd z = 0 -> kconj z = z) by (intros z Hz; apply injective_projections; cbn; [reflexivity | rewrite Hz; ring]).
  destruct (spin_hermitian rt s None) as (H & EH & (S1 & S2) & HM).
  - rewrite half. reflexivity.
  - rewrite half. exact R1.
  - intros i j Hi Hj. repeat split; apply C; [apply (RJ i j AX) | apply (RJ i j AY) | apply (RJ i j AZ)]; lia.
  - intros i Hi. repeat split; apply C; [apply (RH i AX) | apply (RH i AY) | apply (RH i AZ)]; lia.
  - left. exact half.
  - assert (HH : hermitian (nrow H) H) by (intros i j Hi Hj; destruct HM as (_ & _ & M); rewrite <- (M i j) by (cbn [madj nrow ncol]; congruence || lia); reflexivity).
    destruct (spectral (nrow H) H HH eq_refl ltac:(congruence)) as (V & E & B). exists H, V, E. auto.
Qed.

(** Two spins with equal couplings. *)
Definition couple (J : R) : spins CR :=
  Spins (SGeom 2 (fun i j => negb (i =? j)%nat) (fun _ _ => c1)) 1 (fun _ _ => (J, 0)) (fun _ _ => (J, 0)) (fun _ _ => (J, 0)) (fun _ => (0, 0)) (fun _ => (0, 0)) (fun _ => (0, 0)).
Lemma couple_iso J : isotropic (couple J) (fun _ _ => J).
Proof. split; [intros i j _ | intros i _]; repeat split; reflexivity. Qed.
Lemma couple_real J : real_spins (couple J).
Proof. split; [intros i j a _ | intros i a _]; destruct a; reflexivity. Qed.
Notation sw a := (pull 2 2 (exchange 1 0) a).
Lemma sw_lt a : (sw a < 4)%nat. Proof. apply (pull_lt 2 2). discriminate. Qed.
Lemma sw_sw a : (a < 4)%nat -> sw (sw a) = a.
Proof. intros H. destruct a as [|[|[|[|a]]]]; [reflexivity | reflexivity | reflexivity | reflexivity | lia]. Qed.
Lemma couple_level rt J F V E k : rt 1%nat = k1 -> sp_createH rt (couple J) None = Ok F -> eigenbasis F V E -> (k < length E)%nat -> (nth k E 0 + J / 2) * (nth k E 0 + J / 2) = J * J.
Proof.
  intros root EF ((B1 & B2 & B3 & B4) & B5 & _) Hk. destruct (spin_ent rt (couple J) F eq_refl EF) as (S1 & _ & _). change (2 ^ sg_nsites (sp_geom (couple J)))%nat with 4%nat in S1.
  assert (RV : nrow V = 4%nat) by congruence. rewrite RV in B4. set (e := nth k E 0). set (v := col V k).
  assert (A : forall a, (a < 4)%nat -> real (e + J / 2) *c v a = real J *c v (sw a)).
  { intros a Ha. specialize (B4 a k Ha ltac:(congruence)). change 4%nat with (2 ^ sg_nsites (sp_geom (couple J)))%nat in B4. rewrite (full_act rt (couple J) (fun _ _ => J) root eq_refl (couple_iso J) F (col V k) a EF Ha) in B4.
    unfold act in B4. change (sg_nsites (sp_geom (couple J))) with 2%nat in B4. cbn [ksum] in B4. fold v in B4. change (ent V a k) with (v a) in B4. fold e in B4. revert B4. generalize (v a), (v (sw a)). intros x y B4.
    pose proof (f_equal fst B4) as F1. pose proof (f_equal snd B4) as F2. cbn in F1, F2. apply injective_projections; cbn; lra. }
  assert (Q : forall a, (a < 4)%nat -> ((e + J / 2) * (e + J / 2) - J * J) * fst (conj (v a) *c v a) = 0).
  { intros a Ha. pose proof (A a Ha) as A1. pose proof (A (sw a) (sw_lt a)) as A2. rewrite (sw_sw a Ha) in A2. revert A1 A2. generalize (v a), (v (sw a)). intros (x1 & x2) (y1 & y2) A1 A2.
    pose proof (f_equal fst A1) as F1. pose proof (f_equal snd A1) as F2. pose proof (f_equal fst A2) as F3. pose proof (f_equal snd A2) as F4. cbn in F1, F2, F3, F4 |- *.
    set (m := e + J / 2) in *. assert (G1 : m * x1 = J * y1) by lra. assert (G2 : m * x2 = J * y2) by lra. assert (G3 : m * y1 = J * x1) by lra. assert (G4 : m * y2 = J * x2) by lra.
    assert (H1 : (m * m - J * J) * x1 = 0) by (transitivity (m * (m * x1) - J * (J * x1)); [ring | rewrite G1, <- G3; ring]). assert (H2 : (m * m - J * J) * x2 = 0) by (transitivity (m * (m * x2) - J * (J * x2)); [ring | rewrite G2, <- G4; ring]).
    transitivity ((m * m - J * J) * x1 * x1 + (m * m - J * J) * x2 * x2); [ring | rewrite H1, H2; ring]. }
  assert (N : inner 4 v v = c1). { rewrite <- RV. unfold v. rewrite (B5 k k ltac:(congruence) ltac:(congruence)), Nat.eqb_refl. reflexivity. }
  apply (f_equal fst) in N. change (fst c1) with 1 in N. unfold inner in N. rewrite fst_ksum in N.
  assert (T : ((e + J / 2) * (e + J / 2) - J * J) * 1 = 0).
  { rewrite <- N. pose proof (Q 0%nat ltac:(lia)). pose proof (Q 1%nat ltac:(lia)). pose proof (Q 2%nat ltac:(lia)). pose proof (Q 3%nat ltac:(lia)). cbn [rsum].
    rewrite !Rmult_plus_distr_l. change (kmul (kconj ?x) ?y) with (conj x *c y). lra. }
  lra.
Qed.
Definition both_signs (i : nat) (a : axis) : R := if (i =? 0)%nat then -1 else 1.
Theorem mixed : exists rt s s' p g F F' V E, rt 1%nat = k1 /\ sp_two s = 1%nat /\ redescribed p g s s' /\ real_spins s /\
  (forall i, (i < sg_nsites (sp_geom s))%nat -> rotation p (g i) \/ mirrored p (g i)) /\
  sp_createH rt s None = Ok F /\ sp_createH rt s' None = Ok F' /\ eigenbasis F V E /\ forall V', ~ eigenbasis F' V' E.
Proof.
  set (rt := fun _ : nat => c1). destruct (solved rt (couple 1) eq_refl eq_refl (couple_real 1)) as (F & V & E & EF & B). destruct (solved rt (couple (-1)) eq_refl eq_refl (couple_real (-1))) as (F' & _ & _ & EF' & _).
  exists rt, (couple 1), (couple (-1)), (fun a => a), both_signs, F, F', V, E. split; [reflexivity|]. split; [reflexivity|]. split.
  { split; [reflexivity|]. split; [reflexivity|]. split.
    - intros i j a Hij. change (sg_nsites (sp_geom (couple 1))) with 2%nat in Hij. replace i with 1%nat by lia. replace j with 0%nat by lia. destruct a; apply injective_projections; cbn; lra.
    - intros i a _. destruct a; apply injective_projections; cbn; ring. }
  split; [exact (couple_real 1)|]. split.
  { intros i _. unfold both_signs. destruct (i =? 0)%nat; [right | left]; (split; [intros a; lra|]); left; (split; [intros a; reflexivity | lra]). }
  split; [exact EF|]. split; [exact EF'|]. split; [exact B|]. intros V' B'.
  assert (NE : (0 < length E)%nat). { apply Nat.neq_0_lt_0. intros Q. apply length_zero_iff_nil in Q. exact (some_level rt (couple 1) F V E eq_refl EF B Q). }
  pose proof (couple_level rt 1 F V E 0%nat eq_refl EF B NE) as L1. pose proof (couple_level rt (-1) F' V' E 0%nat eq_refl EF' B' NE) as L2. nra.
Qed.
