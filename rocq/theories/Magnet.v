(** A uniform field along the axis of symmetry of spins 1/2. *)
From Coq Require Import List Arith Lia Reals Lra ZArith QArith Bool Permutation.
From Verif Require Import Scalars Res Matrix Sums SqMat SpecMat ModelBase ModelSpins SpecSpins Digits SpinAlg SpinOps SpinHam SpinSym SpinApi ModelGeometry ModelPhase ModelSymmetry SymBase
  ModelThermal SpecThermal ThermalBase ThermalFacts ThermalBasis Thermo SpecSigns SpecSectors SignsSpins SignsRun Sectors SectorsRun Precess Mus Shift SpecMagnet.
Import ListNotations.
Local Open Scope R_scope.

Section Magnet.
  Variables (rt : nat -> CR) (s s' : spins CR) (x : R).
  Notation n := (sg_nsites (sp_geom s)).
  Notation D := (2 ^ n)%nat.
  Hypothesis root : rt 1%nat = k1.
  Hypothesis half : sp_two s = 1%nat.
  Hypothesis mg : magnetised x s s'.
  Definition shift (m : nat) : R := - (x * (INR n / 2 - INR m)).
  Notation sh a := (shift (digit_sum 2 n a)).
  Lemma half' : sp_two s' = 1%nat. Proof using half mg. destruct mg as (_ & Q & _). congruence. Qed.
  Lemma same_n : sg_nsites (sp_geom s') = n. Proof using mg. apply mg. Qed.
  Lemma z_total a b : (a < D)%nat -> (b < D)%nat -> ksum n (fun i => site_elem 2 n i (ent (sz_op (K:=CR) 1)) a b) = (if (a =? b)%nat then real (INR n / 2 - INR (digit_sum 2 n a)) else c0).
  Proof using half.
    intros Ha Hb. destruct (Nat.eq_dec n 0) as [Z|NZ].
    - assert (D = 1%nat) as D1 by (rewrite Z; reflexivity). assert (a = 0%nat) as -> by lia. assert (b = 0%nat) as -> by lia. unfold digit_sum. rewrite Z. cbn. apply injective_projections; cbn; lra.
    - destruct (sum_op_half (K:=CR) n (sz_op 1) ltac:(split; reflexivity) NZ) as (T & ET & ST & VT).
      assert (ES : sum_op (sp_sys s) (sz_op 1) 0 Boson = Ok T) by (unfold sp_sys; rewrite half; exact ET). destruct (moment_diagonal s T half NZ ES) as ((_ & DG) & VL). rewrite <- (VT a b Ha Hb). destruct (Nat.eqb_spec a b) as [<-|NE]; [apply VL, Ha | apply DG; assumption].
  Qed.
  Lemma elem_shift a b : (a < D)%nat -> (b < D)%nat -> H_elem rt s' a b = H_elem rt s a b +c (if (a =? b)%nat then real (sh a) else c0).
  Proof using half mg.
    intros Ha Hb. pose proof (z_total a b Ha Hb) as ZT. destruct mg as (Q1 & Q2 & QJ & QH). unfold H_elem, spin_elem. rewrite Q1, Q2, half. cbn [Nat.add].
    match goal with |- ksub ?A ?B = ksub ?A' ?B' +c ?Z => assert (QA : A = A'); [|assert (QB : B = B' -c Z); [|rewrite QA, QB; generalize A' B' Z; intros; ring]] end.
    - apply ksum_ext. intros i Hi. apply ksum_ext. intros j Hj. destruct (QJ i j ltac:(lia)) as (-> & -> & ->). reflexivity.
    - transitivity (ksum n (fun i => k1 *c (sp_hx s i *c site_elem 2 n i (ent (sx_op rt 1)) a b +c sp_hy s i *c site_elem 2 n i (ent (sy_op rt 1)) a b +c sp_hz s i *c site_elem 2 n i (ent (sz_op 1)) a b)) +c (real x *c ksum n (fun i => site_elem 2 n i (ent (sz_op (K:=CR) 1)) a b))).
      + rewrite <- ksum_mul_l, <- ksum_add. apply ksum_ext. intros i Hi. destruct (QH i Hi) as (-> & -> & ->). change ((x, 0) : CR) with (real x). generalize (site_elem 2 n i (ent (sx_op rt 1)) a b), (site_elem 2 n i (ent (sy_op rt 1)) a b), (site_elem 2 n i (ent (sz_op (K:=CR) 1)) a b), (sp_hx s i), (sp_hy s i), (sp_hz s i), (real x). intros. ring.
      + rewrite ZT. match goal with |- ?P +c _ = ?P' -c _ => change P' with P; generalize P end. intros P. unfold shift. destruct (a =? b)%nat; apply injective_projections; cbn; ring.
  Qed.
  Lemma roots : roots_ok rt (sp_two s).
  Proof using root half. rewrite half. intros i Hi. replace i with 0%nat by lia. change ((0 + 1) * (1 - 0))%nat with 1%nat. rewrite root, kofnat_S, kofnat_0. split; apply injective_projections; cbn; ring. Qed.
  Section Ham.
    Hypothesis round : round_axis s.
    Lemma elem_keeps a b : (a < D)%nat -> (b < D)%nat -> sh a <> sh b -> H_elem rt s a b = c0.
    Proof using root half round.
      intros Ha Hb NE. assert (ND : digit_sum 2 n a <> digit_sum 2 n b) by (intros Q; apply NE; rewrite Q; reflexivity). destruct round as (R1 & R2).
      apply H_elem_conserves; [rewrite half; exact Ha | rewrite half; exact Hb | exact roots | | rewrite half; exact ND]. split; [intros i j Hi Hj; apply R1; lia | exact R2].
    Qed.
  End Ham.
  Lemma sx_sq : square 2 (sx_op rt 1). Proof using. split; reflexivity. Qed.
  Lemma axial_keeps O : axial rt s O -> nrow O = D /\ ncol O = D /\ forall a b, (a < D)%nat -> (b < D)%nat -> sh a <> sh b -> ent O a b = c0.
  Proof using root half.
    assert (PZ : forall (A : mat CR) i j a b, (i < n)%nat -> (j < n)%nat -> i <> j -> digit_sum 2 n a <> digit_sum 2 n b -> pair_elem 2 n i j (ent (sz_op (K:=CR) 1)) (ent (sz_op 1)) a b = c0).
    { intros _ i j a b Hi Hj Hij ND. unfold pair_elem. destruct (agree_off 2 n [i; j] a b) eqn:AG; [|reflexivity]. rewrite !(Z_ent (K:=CR) 1). destruct (Nat.eqb_spec (digit 2 n i a) (digit 2 n i b)); [|cbn [kb]; apply injective_projections; cbn; ring].
      destruct (Nat.eqb_spec (digit 2 n j a) (digit 2 n j b)); [|cbn [kb]; apply injective_projections; cbn; ring]. exfalso. apply ND. apply (sum_two 2 n i j); auto; lia. }
    intros [i O' Hi EO | i j O' Hi Hj Hij EO | i j OX OY O' Hi Hj Hij EX EY EO].
    - destruct (site_op s half i (sz_op 1) O' Hi ltac:(split; reflexivity) EO) as (R1 & R2 & W). split; [exact R1|]. split; [exact R2|]. intros a b Ha Hb NE. rewrite W by assumption.
      unfold site_elem. destruct (agree_off 2 n [i] a b) eqn:AG; [|reflexivity]. rewrite (Z_ent (K:=CR) 1). destruct (Nat.eqb_spec (digit 2 n i a) (digit 2 n i b)) as [Q|Q]; [|apply injective_projections; cbn; ring].
      exfalso. apply NE. f_equal. f_equal. apply (digits_ext 2 ltac:(lia) n); auto. intros p Hp. destruct (Nat.eq_dec p i) as [->|Hp']; [exact Q|]. apply (proj1 (agree_off_spec _ _ _ _ _) AG); auto. cbn. intros [->|[]]; congruence.
    - destruct (pair_op s half i j (sz_op 1) (sz_op 1) O' Hi Hj Hij ltac:(split; reflexivity) ltac:(split; reflexivity) EO) as (R1 & R2 & W). split; [exact R1|]. split; [exact R2|]. intros a b Ha Hb NE. rewrite W by assumption. apply (PZ O'); try assumption. intros Q. apply NE. rewrite Q. reflexivity.
    - destruct (pair_op s half i j _ _ OX Hi Hj Hij sx_sq sx_sq EX) as (R1 & R2 & WX). destruct (pair_op s half i j (sy_op rt 1) (sy_op rt 1) OY Hi Hj Hij ltac:(split; reflexivity) ltac:(split; reflexivity) EY) as (R3 & R4 & WY).
      unfold cadd in EO. rewrite R1, R2, R3, R4, !Nat.eqb_refl in EO. cbn [andb] in EO. injection EO as <-. cbn [madd nrow ncol ent]. split; [exact R1|]. split; [exact R2|]. intros a b Ha Hb NE. rewrite WX, WY by assumption.
      pose proof (xy_pair rt s i j a b roots) as XY. rewrite half in XY. cbn [Nat.add] in XY. etransitivity; [exact XY|].
      pose proof (pm_pair_zero rt s i j a b Hi Hj Hij) as PM. rewrite half in PM. cbn [Nat.add] in PM. destruct PM as (P1 & P2); [intros Q; apply NE; rewrite Q; reflexivity|]. rewrite P1, P2. apply injective_projections; cbn; ring.
  Qed.
End Magnet.
