(** Sectors joined by operators that raise and lower a total spin. *)
From Coq Require Import List Arith Lia Reals Lra Bool Permutation.
From Verif Require Import Scalars Matrix Sums SpecMat SpecSpins Digits SpinSwap SpecPerm ModelGeometry ModelPhase ModelSymmetry SymBase ModelThermal SpecThermal Thermo ThermalBase ThermalBasis SpecSigns Signs SignsSpins Sectors Ladder Heis Singlet.
Import ListNotations.
Local Open Scope R_scope.

Lemma zero_product (z q : CR) : z *c q = c0 -> q <> c0 -> z = c0.
Proof.
  intros I1 I2. destruct z as (x, y), q as (u, v). apply pair_equal_spec in I1 as (A & B). cbn in A, B.
  assert (N : u * u + v * v <> 0) by (intros N; apply I2; apply injective_projections; cbn; nra).
  assert (U : x * (u * u + v * v) = 0) by (replace (x * (u * u + v * v)) with (u * (x * u - y * v) + v * (x * v + y * u)) by ring; rewrite A, B; ring).
  assert (V : y * (u * u + v * v) = 0) by (replace (y * (u * u + v * v)) with (u * (x * v + y * u) - v * (x * u - y * v)) by ring; rewrite A, B; ring).
  apply Rmult_integral in U as [U|U]; [|contradiction]. apply Rmult_integral in V as [V|V]; [|contradiction]. subst. reflexivity.
Qed.
Section Chain.
  Variables (d n : nat).
  Notation D := (2 ^ d)%nat.
  Variable U : nat -> nat -> CR.
  Definition dn (psi : nat -> CR) (a : nat) : CR := ksum D (fun b => U a b *c psi b).
  Definition up (psi : nat -> CR) (a : nat) : CR := ksum D (fun b => conj (U b a) *c psi b).
  Variable lives : nat -> (nat -> CR) -> Prop.
  Variable eig : R -> (nat -> CR) -> Prop.
  Definition some (psi : nat -> CR) : Prop := exists a, (a < D)%nat /\ psi a <> c0.
  Definition least (m : nat) (e : R) : Prop := (exists psi, lives m psi /\ eig e psi /\ some psi) /\ forall e' psi, lives m psi -> eig e' psi -> some psi -> e <= e'.
  Definition ground (m : nat) (e : R) (psi : nat -> CR) : Prop := least m e /\ lives m psi /\ eig e psi /\ some psi.
  Hypothesis up_lives : forall m psi, lives (S m) psi -> lives m (up psi).
  Hypothesis up_top : forall psi, lives 0 psi -> vanishes d (up psi).
  Hypothesis dn_lives : forall m psi, lives m psi -> lives (S m) (dn psi).
  Hypothesis up_eig : forall e psi, eig e psi -> eig e (up psi).
  Hypothesis dn_eig : forall e psi, eig e psi -> eig e (dn psi).
  Hypothesis comm : forall m psi a, (m <= n)%nat -> lives m psi -> (a < D)%nat -> up (dn psi) a = dn (up psi) a +c real (INR n - 2 * INR m) *c psi a.
  Hypothesis mult : forall m e psi phi, ground m e psi -> lives m phi -> eig e phi -> exists z, forall a, (a < D)%nat -> phi a = z *c psi a.
  Hypothesis low_ex : forall m, (m <= n)%nat -> exists e, least m e.
  Hypothesis lives_le : forall m psi, lives m psi -> some psi -> (m <= n)%nat.
  Definition blocked (m : nat) : Prop := exists T, vanishes d (up T) /\ forall e psi, ground m e psi -> inner D T psi <> c0.
  Definition reached (m : nat) : Prop := exists Q, forall e psi, ground m e psi -> inner D (dn Q) psi <> c0.

  Lemma up_ext psi phi a : (forall b, (b < D)%nat -> psi b = phi b) -> up psi a = up phi a. Proof using. clear. intros X. apply ksum_ext. intros b Hb. rewrite X by exact Hb. reflexivity. Qed.
  Lemma dn_ext psi phi a : (forall b, (b < D)%nat -> psi b = phi b) -> dn psi a = dn phi a. Proof using. clear. intros X. apply ksum_ext. intros b Hb. rewrite X by exact Hb. reflexivity. Qed.
  Lemma up_scale (z : CR) psi a : up (fun b => z *c psi b) a = z *c up psi a. Proof using. clear. unfold up. rewrite <- ksum_mul_l. apply ksum_ext. intros b _. ring. Qed.
  Lemma dn_scale (z : CR) psi a : dn (fun b => z *c psi b) a = z *c dn psi a. Proof using. clear. unfold dn. rewrite <- ksum_mul_l. apply ksum_ext. intros b _. ring. Qed.
  Lemma up_zero psi a : vanishes d psi -> up psi a = c0. Proof using. clear. intros X. apply ksum_zero. intros b Hb. rewrite X by exact Hb. ring. Qed.
  Lemma dn_zero psi a : vanishes d psi -> dn psi a = c0. Proof using. clear. intros X. apply ksum_zero. intros b Hb. rewrite X by exact Hb. ring. Qed.
  Lemma dn_adj phi psi : inner D (dn phi) psi = inner D phi (up psi).
  Proof using.
    clear. unfold inner. transitivity (ksum D (fun a => ksum D (fun b => conj (phi b) *c (conj (U a b) *c psi a)))).
    - apply ksum_ext. intros a _. unfold dn. rewrite ksum_conj, <- ksum_mul_r. apply ksum_ext. intros b _. rewrite kconj_mul. ring.
    - rewrite ksum_swap. apply ksum_ext. intros b _. unfold up. apply ksum_mul_l.
  Qed.
  Lemma up_adj phi psi : inner D (up phi) psi = inner D phi (dn psi).
  Proof using. clear. rewrite <- inner_conj, <- dn_adj, inner_conj. reflexivity. Qed.
  Lemma some_dec psi : some psi \/ vanishes d psi.
  Proof using.
    clear. assert (AL : forall t, (exists a, (a < t)%nat /\ psi a <> c0) \/ forall a, (a < t)%nat -> psi a = c0).
    { induction t as [|t IH]; [right; intros; lia|]. destruct IH as [(a & Ha & NA)|IH]; [left; exists a; split; [lia | exact NA]|]. destruct (CR_eq_dec (psi t) c0) as [Z|Z]; [right | left; exists t; split; [lia | exact Z]].
      intros a Ha. destruct (Nat.eq_dec a t) as [->|]; [exact Z | apply IH; lia]. }
    destruct (AL D) as [X|X]; [left; exact X | right; exact X].
  Qed.
  Lemma norm_pos psi : 0 <= fst (inner D psi psi).
  Proof using. clear. unfold inner. rewrite fst_ksum, rsum_total. apply total_ge0. intros i _. cbn. nra. Qed.
  Lemma dn_keeps m psi : (m <= n)%nat -> lives m psi -> (2 * m < n)%nat -> vanishes d (dn psi) -> vanishes d psi.
  Proof using comm.
    intros Mn L Hm Z. apply norm_zero. assert (X : inner D psi (up (dn psi)) = inner D (up psi) (up psi) +c real (INR n - 2 * INR m) *c inner D psi psi).
    { rewrite up_adj. unfold inner. rewrite <- ksum_mul_l, <- ksum_add. apply ksum_ext. intros a Ha. rewrite (comm m psi a Mn L Ha). change (@kmul CR CR_StarRing) with (fun x y : CR => x *c y). cbn beta. ring. }
    rewrite inner_zero_r in X by (intros a Ha; apply up_zero, Z). apply (f_equal fst) in X. cbn [fst kadd kmul CR_StarRing] in X. pose proof (norm_pos (up psi)). pose proof (norm_pos psi).
    assert (0 < INR n - 2 * INR m) by (apply lt_INR in Hm; rewrite mult_INR in Hm; cbn in Hm; lra). cbn in X. nra.
  Qed.
  Theorem highest m e psi : blocked m -> ground m e psi -> vanishes d (up psi).
  Proof using up_lives up_top dn_lives up_eig dn_eig mult.
    intros (T & TU & TM) G. pose proof G as (LW & L & X & Pp). destruct m as [|m']; [apply up_top, L|]. set (m := S m') in *.
    assert (LC : lives m (dn (up psi))) by (apply dn_lives, up_lives, L). assert (XC : eig e (dn (up psi))) by (apply dn_eig, up_eig, X).
    destruct (mult m e psi _ G LC XC) as (z & Z). pose proof (TM e psi G) as I2.
    assert (Z0 : z = c0).
    { apply (zero_product z (inner D T psi)); [|exact I2]. rewrite <- inner_scale. rewrite <- (inner_ext_r d T (dn (up psi)) (fun a => z *c psi a) Z). rewrite <- up_adj. apply inner_zero_l. exact TU. }
    apply norm_zero. rewrite up_adj, inner_zero_r; [reflexivity|]. intros a Ha. rewrite (Z a Ha), Z0. apply injective_projections; cbn; ring.
  Qed.
  Fixpoint low (k : nat) (psi : nat -> CR) : nat -> CR := match k with O => psi | S k => dn (low k psi) end.
  Lemma low_all m e psi k : lives m psi -> eig e psi -> some psi -> (2 * (m + k) < n + 2)%nat -> lives (m + k) (low k psi) /\ eig e (low k psi) /\ some (low k psi).
  Proof using comm dn_lives dn_eig.
    intros L X Pp. induction k as [|k IH]; intros Hk; [rewrite Nat.add_0_r; auto|]. destruct IH as (L1 & X1 & P1); [lia|]. cbn [low]. rewrite Nat.add_succ_r. split; [apply dn_lives, L1|]. split; [apply dn_eig, X1|].
    destruct (some_dec (dn (low k psi))) as [Y|Y]; [exact Y|]. exfalso. destruct P1 as (a & Ha & NA). apply NA. exact (dn_keeps (m + k) (low k psi) ltac:(lia) L1 ltac:(lia) Y a Ha).
  Qed.
  Lemma least_unique m e e' : least m e -> least m e' -> e = e'.
  Proof using. clear. intros ((p & L & X & Pp) & A) ((p' & L' & X' & Pp') & A'). apply Rle_antisym; [apply (A e' p') | apply (A' e p)]; assumption. Qed.
  Theorem strict m m' e e' : blocked m' -> (m < m')%nat -> (2 * m' <= n)%nat -> least m e -> least m' e' -> e' < e.
  Proof using up_lives up_top dn_lives up_eig dn_eig mult comm.
    intros BL Hm NN ((psi & L & X & Pp) & _) LW.
    destruct (low_all m e psi (m' - m) L X Pp ltac:(lia)) as (L1 & X1 & P1). replace (m + (m' - m))%nat with m' in L1 by lia. destruct (Rlt_dec e' e) as [Q|Q]; [exact Q|]. exfalso.
    assert (e = e') by (destruct LW as (_ & M); pose proof (M e _ L1 X1 P1); lra). subst e'. pose proof (highest m' e _ BL ltac:(split; [exact LW | split; [exact L1 | split; [exact X1 | exact P1]]])) as HW.
    destruct P1 as (a & Ha & NA). apply NA. replace (m' - m)%nat with (S (m' - m - 1)) in * by lia. cbn [low] in *. set (chi := low (m' - m - 1) psi) in *.
    revert a Ha NA. assert (V : vanishes d (dn chi)); [|intros a Ha _; apply V, Ha]. apply norm_zero. rewrite dn_adj. rewrite inner_zero_r; [reflexivity | exact HW].
  Qed.
  Lemma reached_some m e psi : reached m -> ground m e psi -> some (up psi).
  Proof using.
    clear. intros (Q & QM) G. destruct (some_dec (up psi)) as [Y|Y]; [exact Y|]. exfalso. apply (QM e psi G). rewrite dn_adj. apply inner_zero_r, Y.
  Qed.
  Section Level.
    Variable k : nat.
    Hypothesis k2 : (2 * k <= n)%nat.
    Hypothesis bl : blocked k.
    Hypothesis re : forall m, (k < m)%nat -> (m + k <= n)%nat -> reached m.
    Lemma raised psi j a : lives k psi -> vanishes d (up psi) -> (2 * k + j <= n)%nat -> (a < D)%nat -> up (low (S j) psi) a = real (INR (S j) * (INR n - 2 * INR k - INR j)) *c low j psi a.
    Proof using comm dn_lives k2.
      clear re. intros L Z Hj Ha. revert a Ha. assert (LV : forall t, lives (k + t) (low t psi)) by (induction t as [|i IH]; [rewrite Nat.add_0_r; exact L | rewrite Nat.add_succ_r; apply dn_lives, IH]).
      induction j as [|j IH]; intros a Ha; cbn [low].
      - rewrite (comm k psi a ltac:(lia) L Ha). rewrite (dn_zero _ a Z). apply injective_projections; cbn; ring.
      - change (dn (low j psi)) with (low (S j) psi). rewrite (comm (k + S j) (low (S j) psi) a ltac:(lia) (LV (S j)) Ha). rewrite (dn_ext (up (low (S j) psi)) (fun b => real (INR (S j) * (INR n - 2 * INR k - INR j)) *c low j psi b)) by (apply IH; lia). rewrite dn_scale. change (dn (low j psi)) with (low (S j) psi).
        rewrite plus_INR, !S_INR. apply injective_projections; cbn; ring.
    Qed.
    Lemma lowered e psi j : lives k psi -> eig e psi -> some psi -> vanishes d (up psi) -> (2 * k + j <= n)%nat -> lives (k + j) (low j psi) /\ eig e (low j psi) /\ some (low j psi).
    Proof using comm dn_lives dn_eig k2.
      clear re. intros L X Pp Z. induction j as [|j IH]; intros Hj; [rewrite Nat.add_0_r; auto|]. destruct IH as (L1 & X1 & P1); [lia|]. split; [rewrite Nat.add_succ_r; apply dn_lives, L1|]. split; [apply dn_eig, X1|].
      destruct (some_dec (low (S j) psi)) as [Y|Y]; [exact Y|]. exfalso. destruct P1 as (a & Ha & NA). apply NA. pose proof (raised psi j a L Z ltac:(lia) Ha) as Q. rewrite (up_zero _ a Y) in Q.
      assert (C : 0 < INR (S j) * (INR n - 2 * INR k - INR j)). { apply Rmult_lt_0_compat; [apply lt_0_INR; lia|]. assert (W : INR (2 * k + j) < INR n) by (apply lt_INR; lia). rewrite plus_INR, mult_INR in W. cbn in W. lra. }
      set (c := INR (S j) * _) in *. symmetry in Q. apply (zero_product _ (real c)); [etransitivity; [|exact Q]; ring|]. intros W. apply (f_equal fst) in W. cbn in W. lra.
    Qed.
    Theorem level e j : least k e -> (2 * k + j <= n)%nat -> least (k + j) e.
    Proof using All.
      intros LK. destruct LK as ((psi & L & X & Pp) & MK) eqn:EK. clear EK. assert (G : ground k e psi) by (split; [exact LK | auto]). pose proof (highest k e psi bl G) as HW.
      induction j as [|j IH]; intros Hj; [rewrite Nat.add_0_r; exact LK|]. specialize (IH ltac:(lia)). destruct (lowered e psi (S j) L X Pp HW Hj) as (L1 & X1 & P1).
      destruct (low_ex (k + S j) ltac:(lia)) as (e2 & LW). assert (e2 = e) as <-; [|exact LW]. apply Rle_antisym; [destruct LW as (_ & M); exact (M e _ L1 X1 P1)|].
      destruct LW as ((psi2 & L2 & X2 & P2) & M2) eqn:EW. clear EW. pose proof (reached_some (k + S j) e2 psi2 (re (k + S j)%nat ltac:(lia) ltac:(lia)) ltac:(split; [exact LW | auto])) as RP.
      destruct IH as (_ & M). apply (M e2 (up psi2)); [rewrite Nat.add_succ_r in L2; apply up_lives, L2 | apply up_eig, X2 | exact RP].
    Qed.
    Theorem level_moves e j psi : (2 * k + j <= n)%nat -> ground (k + j) e psi -> forall a, (a < D)%nat -> dn (up psi) a = real (INR j * (INR n - 2 * INR k - INR j + 1)) *c psi a.
    Proof using All.
      intros Hj Gp a Ha. destruct (low_ex k ltac:(lia)) as (e0 & LK). pose proof (level e0 j LK Hj) as LW. pose proof Gp as (LWp & Lp & Xp & Pp). pose proof (least_unique _ _ _ LW LWp) as ->.
      destruct LK as ((chi & L & X & Pc) & MK) eqn:EK. clear EK. pose proof (highest k e chi bl ltac:(split; [exact LK | auto])) as HW. destruct (lowered e chi j L X Pc HW Hj) as (L1 & X1 & P1).
      destruct (mult (k + j) e (low j chi) psi ltac:(split; [exact LW | auto]) Lp Xp) as (z & Z).
      rewrite (dn_ext _ (fun b => z *c up (low j chi) b)) by (intros b Hb; rewrite <- up_scale; apply up_ext, Z). rewrite dn_scale, (Z a Ha). transitivity (z *c (real (INR j * (INR n - 2 * INR k - INR j + 1)) *c low j chi a)); [|ring]. f_equal.
      destruct j as [|j].
      - cbn [low]. rewrite (dn_zero _ a HW). apply injective_projections; cbn; ring.
      - rewrite (dn_ext _ (fun b => real (INR (S j) * (INR n - 2 * INR k - INR j)) *c low j chi b)) by (intros b Hb; apply (raised chi j b L HW ltac:(lia) Hb)). rewrite dn_scale. change (dn (low j chi)) with (low (S j) chi). f_equal. f_equal. rewrite !S_INR. ring.
    Qed.
  End Level.
End Chain.
