(** The parallel spins of a Heisenberg model. *)
From Coq Require Import List Arith Lia Reals Lra Psatz ZArith QArith Bool.
From Verif Require Echo.
From Verif Require Import Scalars Res Matrix Sums SqMat SpecMat ModelBase ModelFermions ModelSpins SpecSpins Digits SpinAlg SpinOps HamProofs SpinHam SpinApi ModelGeometry ModelPhase
  SignsSpins Sectors Ladder Axes SpecUncertain Uncertain SpecPrecess Precess ModelSymmetry SymBase ModelThermal SpecThermal ThermalBase ThermalBasis Scalar HeisE.
Import ListNotations.
Local Open Scope R_scope.

Section Parallel.
  Variables (rt : nat -> CR) (n : nat) (J : nat -> nat -> R).
  Notation D := (2 ^ n)%nat.
  Hypothesis R1 : rt 1%nat = k1.
  Notation X := (ent (sx_op rt 1)).
  Notation Y := (ent (sy_op rt 1)).
  Notation Z := (ent (sz_op (K:=CR) 1)).
  Notation pair i j A psi := (Axes.st n i A (Axes.st n j A psi)).
  Notation HE := (spin_elem 2 n (kofnat 2) k1 X Y Z (fun i j => real (J i j)) (fun i j => real (J i j)) (fun i j => real (J i j)) (fun _ => c0) (fun _ => c0) (fun _ => c0)).
  Definition up (a : nat) : CR := if (a =? 0)%nat then c1 else c0.
  Lemma digit_0 p : digit 2 n p 0 = 0%nat.
  Proof using. unfold digit. rewrite Nat.div_0_l by (apply Nat.pow_nonzero; discriminate). reflexivity. Qed.
  Lemma fl_not_0 i j a : (i < n)%nat -> (j < n)%nat -> i <> j -> digit 2 n i a <> digit 2 n j a -> fl n j (fl n i a) <> 0%nat.
  Proof using.
    intros Hi Hj N E Z. pose proof (f_equal (digit 2 n i) Z) as A. pose proof (f_equal (digit 2 n j) Z) as B. rewrite !digit_0 in A, B.
    rewrite (dg_other n j _ i Hi) in A by congruence. rewrite dg_same in A by exact Hi. rewrite dg_same, (dg_other n i a j Hj) in B by (exact Hj || congruence). pose proof (bit2 n i a). pose proof (bit2 n j a). lia.
  Qed.
  Lemma exch_up i j a : (i < n)%nat -> (j < n)%nat -> i <> j -> (a < D)%nat -> exch rt n i j up a = up a.
  Proof using R1.
    intros Hi Hj N Ha. rewrite exch_eq by assumption. destruct (Nat.eqb_spec (digit 2 n i a) (digit 2 n j a)) as [|E]; [reflexivity|]. unfold up. rewrite (proj2 (Nat.eqb_neq _ _)) by (apply fl_not_0; assumption).
    destruct (Nat.eqb_spec a 0) as [->|]; [rewrite !digit_0 in E; congruence | reflexivity].
  Qed.
  Lemma up_acts a : (a < D)%nat -> ksum D (fun b => HE a b *c up b) = real (rsum n (fun i => rsum i (fun j => 1 / 2 * J i j))) *c up a.
  Proof using R1.
    intros Ha. rewrite he_acts by exact Ha. rewrite <- (SymBase.ksum_real n), <- ksum_mul_r. apply ksum_ext. intros i Hi. rewrite <- (SymBase.ksum_real i), <- ksum_mul_r. apply ksum_ext. intros j Hj.
    pose proof (exch_up i j a Hi ltac:(lia) ltac:(lia) Ha) as W. unfold exch in W. destruct (_ +c _ +c _) as (u, v). destruct (up a) as (p, q). pose proof (f_equal fst W) as W1. pose proof (f_equal snd W) as W2. cbn in W1, W2. apply injective_projections; cbn; nra.
  Qed.
End Parallel.
Theorem parallel_energy rt (s : spins CR) (J : nat -> nat -> R) (H V : mat CR) E : let n := sg_nsites (sp_geom s) in rt 1%nat = k1 -> sp_two s = 1%nat ->
  (forall i j, (j < i < n)%nat -> sp_jx s i j = real (J i j) /\ sp_jy s i j = real (J i j) /\ sp_jz s i j = real (J i j)) -> (forall i, (i < n)%nat -> sp_hx s i = c0 /\ sp_hy s i = c0 /\ sp_hz s i = c0) ->
  sp_createH rt s None = Ok H -> eigenbasis H V E -> In (rsum n (fun i => rsum i (fun j => 1 / 2 * J i j))) E.
Proof.
  intros n R1 half HJ HF EH B. unfold n in *. pose proof B as ((L & N1 & N2 & EV) & ON & CB).
  destruct (any_spin rt s) as (H' & EH' & (M1 & M2 & M)); [intros i Hi; apply HF; lia|]. rewrite EH in EH'. injection EH' as <-. cbn [spin_hamiltonian nrow ncol ent] in M1, M2, M. rewrite half in M1, M2, M. change (1 + 1)%nat with 2%nat in *.
  set (m := sg_nsites (sp_geom s)) in *. assert (NV : nrow V = (2 ^ m)%nat) by congruence. set (e := rsum m _).
  assert (A : forall a, (a < nrow V)%nat -> apply (nrow V) H up a = real e *c up a).
  { intros a Ha. rewrite NV in *. unfold e. rewrite <- (up_acts rt m J R1 a Ha). unfold apply. apply ksum_ext. intros b Hb. rewrite (M a b) by (rewrite ?M1, ?M2; assumption). f_equal.
    unfold spin_elem. f_equal; apply ksum_ext; intros i Hi; [apply ksum_ext; intros j Hj; destruct (HJ i j ltac:(lia)) as (-> & -> & ->); reflexivity | destruct (HF i Hi) as (-> & -> & ->); reflexivity]. }
  destruct (In_dec Req_EM_T e E) as [|NI]; [assumption|]. exfalso.
  assert (ZO : forall k, (k < ncol V)%nat -> inner (nrow V) (col V k) up = c0).
  { intros k Hk. pose proof (Echo.eig_apply H V E B k up ltac:(congruence)) as G. rewrite (inner_ext _ _ (col V k) _ (fun a => real e *c up a)) in G by (reflexivity || exact A). rewrite inner_scale in G.
    assert (NE : e <> nth k E 0) by (intros Q; apply NI; rewrite Q; apply nth_In; congruence). destruct (inner (nrow V) (col V k) up) as (p, q). pose proof (f_equal fst G) as G1. pose proof (f_equal snd G) as G2. cbn in G1, G2.
    apply injective_projections; cbn; apply (Rmult_eq_reg_l (e - nth k E 0)); lra. }
  assert (P : (0 < nrow V)%nat) by (rewrite NV; pose proof (Nat.pow_nonzero 2 m ltac:(lia)); lia).
  pose proof (CB up 0%nat P) as G. rewrite ksum_zero in G by (intros k Hk; rewrite ZO by exact Hk; change (@k0 CR _) with c0; ring). apply (f_equal fst) in G. cbn in G. lra.
Qed.
Theorem ferromagnet rt (s : spins CR) (J : nat -> nat -> R) (H V : mat CR) E e : let n := sg_nsites (sp_geom s) in rt 1%nat = k1 -> sp_two s = 1%nat ->
  (forall i j, (j < i < n)%nat -> sp_jx s i j = real (J i j) /\ sp_jy s i j = real (J i j) /\ sp_jz s i j = real (J i j)) -> (forall i, (i < n)%nat -> sp_hx s i = c0 /\ sp_hy s i = c0 /\ sp_hz s i = c0) ->
  sp_createH rt s None = Ok H -> eigenbasis H V E -> In e E ->
  ((forall i j, (j < i < n)%nat -> J i j <= 0) -> rsum n (fun i => rsum i (fun j => 1 / 2 * J i j)) <= e) /\ ((forall i j, (j < i < n)%nat -> 0 <= J i j) -> e <= rsum n (fun i => rsum i (fun j => 1 / 2 * J i j))).
Proof.
  intros n R1 half HJ HF EH B He. destruct (In_nth E e 0 He) as (k & Hk & <-). pose proof (heisenberg_energies rt s J H V E k R1 half HJ HF EH B Hk) as (LO & HI). fold n in LO, HI. split; intros S.
  - erewrite (rsum_ext n); [exact LO|]. intros i Hi. apply rsum_ext. intros j Hj. specialize (S i j ltac:(lia)). cbv beta. rewrite Rmin_right by lra. reflexivity.
  - erewrite (rsum_ext n); [exact HI|]. intros i Hi. apply rsum_ext. intros j Hj. specialize (S i j ltac:(lia)). cbv beta. rewrite Rmax_right by lra. reflexivity.
Qed.
