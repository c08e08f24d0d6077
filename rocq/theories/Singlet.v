(** Total spin of the ground states of antiferromagnets on two kinds of sites. *)
From Coq Require Import List Arith Lia Reals Lra ZArith QArith Bool Permutation.
From Verif Require Import Scalars Res Matrix Sums SqMat SpecMat ModelBase ModelSpins SpecSpins Digits SpinOps SpinAlg SpinHam SpinApi SpinSwap HamProofs SpecPerm
  ModelGeometry ModelPhase ModelSymmetry SymBase ModelThermal SpecThermal ThermalBase ThermalFacts ThermalBasis Spectral Thermo SpecHeat SpecConvex Convex SpecSigns Signs SignsHeat SignsSpins SpecSectors Perron Sectors SectorsRun Ladder SpecSinglet Dimers Heis.
From Verif Require SwapProofs.
Import ListNotations.
Local Open Scope R_scope.

Lemma inner_ext_l n phi phi' psi : (forall a, (a < n)%nat -> phi a = phi' a) -> inner n phi psi = inner n phi' psi.
Proof. intros X. apply ksum_ext. intros a Ha. rewrite X by exact Ha. reflexivity. Qed.
Lemma inner_zero_l n phi psi : (forall a, (a < n)%nat -> phi a = c0) -> inner n phi psi = c0.
Proof. intros X. apply ksum_zero. intros a Ha. rewrite X by exact Ha. apply injective_projections; cbn; ring. Qed.
Lemma inner_zero_r n phi psi : (forall a, (a < n)%nat -> psi a = c0) -> inner n phi psi = c0.
Proof. intros X. apply ksum_zero. intros a Ha. rewrite X by exact Ha. apply injective_projections; cbn; ring. Qed.
Lemma mv_real n v (G : nat -> R) a : mv n v (fun b => real (G b)) a = real (total (fun p => if (digit 2 n p a =? v)%nat then G (fl n p a) else 0) (seq 0 n)).
Proof. rewrite <- ksum_reals. apply ksum_ext. intros i _. destruct (digit 2 n i a =? v)%nat; reflexivity. Qed.
Section Kinds.
  Variables (rt : nat -> CR) (s : spins CR) (J : nat -> nat -> R) (part : nat -> bool).
  Hypothesis root : rt 1%nat = k1.
  Hypothesis half : sp_two s = 1%nat.
  Notation n := (sg_nsites (sp_geom s)).
  Notation D := (2 ^ n)%nat.
  Notation dg p a := (digit 2 n p a).
  Notation eps := (state_sign part n).
  Notation eig := (eig s J).
  Notation lowest := (lowest s J).
  Notation present := (present s).
  Hypothesis iso : isotropic s J.
  Hypothesis kinds : two_kinds part n J.
  Hypothesis conn : connected_spins s.
  Lemma kinds_unf : unfrustrated part s.
  Proof using iso kinds.
    clear conn root half. destruct iso as (AJ & AH). split.
    - intros i j Hij. destruct (AJ i j Hij) as (J1 & J2 & J3). exists (J i j), (J i j), (J i j). split; [exact J1|]. split; [exact J2|]. split; [exact J3|]. specialize (kinds i j Hij). unfold side in *. destruct (part i), (part j); unfold Rabs; destruct (Rcase_abs (J i j)); lra.
    - intros i Hi. destruct (AH i Hi) as (H1 & H2 & H3). exists 0, 0. unfold side. repeat split; try assumption. lra.
  Qed.
  Lemma kinds_round : round_axis s.
  Proof using iso. clear - iso. destruct iso as (AJ & AH). split; [intros i j Hij; destruct (AJ i j Hij) as (-> & -> & _); reflexivity | intros i Hi; destruct (AH i Hi) as (-> & -> & _); auto]. Qed.
  Lemma lives_le m psi : lives n m psi -> present psi -> (m <= n)%nat.
  Proof using.
    clear. intros L (a & Ha & NA). destruct (Nat.eq_dec (digit_sum 2 n a) m) as [Q|Q]; [rewrite <- Q; apply sum_le | exfalso; apply NA, L; assumption].
  Qed.
  Lemma ground_state m e psi : lowest m e -> lives n m psi -> eig e psi -> present psi -> exists z, abs2 z = 1 /\ forall a, (a < D)%nat -> digit_sum 2 n a = m -> psi a <> c0 /\ psi a = z *c real (eps a * sqrt (abs2 (psi a))).
  Proof using All.
    intros LW L X Pp. destruct (sector_solved rt s J root half iso m) as (P & idx & H & V & E & SF & EH & B). pose proof (lowest_smallest rt s J root half iso m P idx H V E e SF EH B (lives_le m psi L Pp) LW) as SM.
    destruct (sector_state rt s part m P idx H V E root half kinds_unf kinds_round conn SF EH B e (fun p => psi (nth p idx 0%nat)) SM (eig_state rt s J root half iso m P idx H SF EH e psi L X)) as (z & Z & Q).
    - destruct Pp as (a & Ha & NA). destruct (Nat.eq_dec (digit_sum 2 n a) m) as [Q|Q]; [|exfalso; apply NA, L; assumption]. destruct (at_find s m P idx SF a Ha Q) as (p & Hp & <-). exists p. auto.
    - exists z. split; [exact Z|]. intros a Ha Sa. destruct (at_find s m P idx SF a Ha Sa) as (p & Hp & <-). exact (Q p Hp).
  Qed.
  Lemma ground_parallel m e psi phi a b : lowest m e -> lives n m psi -> eig e psi -> lives n m phi -> eig e phi -> (m <= n)%nat -> (a < D)%nat -> (b < D)%nat -> phi a *c psi b = psi a *c phi b.
  Proof using All.
    intros LW L X L' X' Hm Ha Hb. destruct (sector_solved rt s J root half iso m) as (P & idx & H & V & E & SF & EH & B). pose proof (lowest_smallest rt s J root half iso m P idx H V E e SF EH B Hm LW) as SM.
    destruct (Nat.eq_dec (digit_sum 2 n a) m) as [Q|Q]; [|rewrite (L a Ha Q), (L' a Ha Q); apply injective_projections; cbn; ring]. destruct (Nat.eq_dec (digit_sum 2 n b) m) as [Q'|Q']; [|rewrite (L b Hb Q'), (L' b Hb Q'); apply injective_projections; cbn; ring].
    destruct (at_find s m P idx SF a Ha Q) as (p & Hp & <-). destruct (at_find s m P idx SF b Hb Q') as (q & Hq & <-).
    exact (parallel H V E _ _ B (sector_rows rt s m P idx H V E half SF EH B) (sector_signs s part m P idx SF) (sector_lowers rt s part m P idx H root half kinds_unf SF EH)
      (sector_joined rt s part m P idx H root half kinds_unf SF EH kinds_round conn) (fun p => psi (nth p idx 0%nat)) (fun p => phi (nth p idx 0%nat)) e p q SM
      (eig_state rt s J root half iso m P idx H SF EH e psi L X) (eig_state rt s J root half iso m P idx H SF EH e phi L' X') Hp Hq).
  Qed.
  Lemma ground_multiple m e psi phi : lowest m e -> lives n m psi -> eig e psi -> present psi -> lives n m phi -> eig e phi -> exists z, forall a, (a < D)%nat -> phi a = z *c psi a.
  Proof using All.
    intros LW L X Pp L' X'. pose proof (lives_le m psi L Pp) as Hm. destruct Pp as (b & Hb & NB).
    assert (IV : exists w, w *c psi b = c1).
    { clear - NB. destruct (psi b) as (x, y). set (q := x * x + y * y). assert (q <> 0). { intros Z. apply NB. unfold q in Z. apply injective_projections; cbn; nra. }
      exists (x / q, - y / q). apply injective_projections; cbn; unfold q in *; field; assumption. }
    destruct IV as (w & W). exists (phi b *c w). intros a Ha. pose proof (ground_parallel m e psi phi a b LW L X L' X' Hm Ha Hb) as Q.
    transitivity (phi a *c (w *c psi b)); [rewrite W; apply injective_projections; cbn; ring|]. transitivity (w *c (phi a *c psi b)); [ring|]. rewrite Q. ring.
  Qed.
  (** Ground states are not orthogonal to functions with the signs. *)
  Lemma ground_meets m e psi (G : nat -> R) (w : R) a0 : lowest m e -> lives n m psi -> eig e psi -> present psi -> (forall a, (a < D)%nat -> 0 <= w * (eps a * G a)) -> (a0 < D)%nat -> digit_sum 2 n a0 = m -> 0 < w * (eps a0 * G a0) ->
    inner D (fun a => real (G a)) psi <> c0.
  Proof using All.
    intros LW L X Pp PG H0 S0 P0. destruct (ground_state m e psi LW L X Pp) as (z & Z & Q).
    assert (V : forall a, (a < D)%nat -> psi a = z *c real (eps a * sqrt (abs2 (psi a)))).
    { intros a Ha. destruct (Nat.eq_dec (digit_sum 2 n a) m) as [Y|Y]; [apply Q; assumption|]. rewrite (L a Ha Y). assert (A0 : abs2 c0 = 0) by (unfold abs2; cbn; ring). rewrite A0, sqrt_0. apply injective_projections; cbn; ring. }
    assert (I : inner D (fun a => real (G a)) psi = z *c real (total (fun a => eps a * G a * sqrt (abs2 (psi a))) (seq 0 D))).
    { rewrite <- ksum_reals, <- ksum_mul_l. apply ksum_ext. intros a Ha. rewrite (V a Ha) at 1. apply injective_projections; cbn; ring. }
    rewrite I. intros Y. assert (T : 0 < w * total (fun a => eps a * G a * sqrt (abs2 (psi a))) (seq 0 D)).
    { rewrite <- total_scale. apply (total_positive _ _ a0); [|apply in_seq; lia|].
      - intros a Ha. apply in_seq in Ha. pose proof (PG a ltac:(lia)). pose proof (sqrt_pos (abs2 (psi a))). replace (w * (eps a * G a * sqrt (abs2 (psi a)))) with (w * (eps a * G a) * sqrt (abs2 (psi a))) by ring. apply Rmult_le_pos; assumption.
      - replace (w * (eps a0 * G a0 * sqrt (abs2 (psi a0)))) with (w * (eps a0 * G a0) * sqrt (abs2 (psi a0))) by ring. apply Rmult_lt_0_compat; [exact P0|]. apply sqrt_lt_R0. destruct (Q a0 H0 S0) as (NA & _). unfold abs2. destruct (psi a0) as (x, y). cbn. destruct (Req_dec x 0) as [->|]; [|nra]. destruct (Req_dec y 0) as [->|]; [exfalso; apply NA; reflexivity | nra]. }
    set (t := total _ _) in *. assert (T0 : t <> 0) by (intros Q0; rewrite Q0 in T; lra). apply T0. apply pair_equal_spec in Y as (Y1 & Y2). unfold abs2 in Z. cbn in Y1, Y2. clear - Y1 Y2 Z. destruct z as (x, y). cbn in *. assert (A : x * t = 0) by lra. assert (B : y * t = 0) by lra. transitivity ((x * x + y * y) * t); [rewrite Z; ring|]. replace ((x * x + y * y) * t) with (x * (x * t) + y * (y * t)) by ring. rewrite A, B. ring.
  Qed.
  Lemma up_norm psi : inner D (mv n 0 psi) (mv n 0 psi) = inner D psi (mv n 1 (mv n 0 psi)).
  Proof using. clear. rewrite (mv_adj n 0) by lia. reflexivity. Qed.
  (** With as many pairs as flipped spins, ground states cannot be raised. *)
  Theorem highest m e psi l r : pairing part n l r -> length l = m -> lowest m e -> lives n m psi -> eig e psi -> present psi -> vanishes n (mv n 0 psi).
  Proof using All.
    intros PR LL LW L X Pp. destruct m as [|m']; [intros a Ha; apply (raise_top n psi L a Ha)|]. set (m := S m') in *.
    set (chi := mv n 1 (mv n 0 psi)). assert (LC : lives n m chi) by (apply lower_lives, raise_lives, L). assert (XC : eig e chi) by (apply eig_mv, eig_mv, X).
    destruct (ground_multiple m e psi chi LW L X Pp LC XC) as (z & Z). set (G := phi n l r (fun _ => 0%nat)).
    assert (I1 : inner D (fun a => real (G a)) chi = c0).
    { unfold chi. pose proof (mv_adj n 0 (fun a => real (G a)) (mv n 0 psi) ltac:(lia)) as A. change (1 - 0)%nat with 1%nat in A. rewrite <- A. apply inner_zero_l. intros a Ha. rewrite mv_real. unfold G. rewrite (phi_still part n l r PR 0 ltac:(lia)). reflexivity. }
    assert (I2 : inner D (fun a => real (G a)) psi <> c0).
    { pose proof (shown_lt n l (fun _ => 0%nat) ltac:(intros; cbn beta; auto with arith)) as SL. pose proof (shown_phi part n l r PR (fun _ => 0%nat) ltac:(intros; cbn beta; auto with arith)) as SP. apply (ground_meets m e psi G (rest_sign part r (fun _ => 0%nat)) (shown n l (fun _ => 0%nat)) LW L X Pp).
      - intros a Ha. apply (phi_sign part n l r PR).
      - exact SL.
      - rewrite (phi_lives part n l r PR (fun _ => 0%nat) _ SL) by (rewrite SP; lra). rewrite LL. assert (Y : forall q : list nat, list_sum (map (fun _ => 0%nat) q) = 0%nat) by (induction q as [|x q IH]; [reflexivity | exact IH]). rewrite Y. lia.
      - pose proof (phi_sign part n l r PR (fun _ => 0%nat) (shown n l (fun _ => 0%nat))) as Y. unfold G. rewrite SP in *. destruct (rest_square part r (fun _ => 0%nat)) as [Q|Q]; rewrite Q in *; destruct (state_signs part n _ SL) as [Q2|Q2]; rewrite Q2 in *; lra. }
    assert (Z0 : z = c0).
    { rewrite (inner_ext_r n _ chi (fun a => z *c psi a) Z) in I1. assert (Y : inner D (fun a => real (G a)) (fun a => z *c psi a) = z *c inner D (fun a => real (G a)) psi) by (unfold inner; rewrite <- ksum_mul_l; apply ksum_ext; intros a Ha; change (@kmul CR CR_StarRing) with (fun x y : CR => x *c y); cbn beta; ring).
      rewrite Y in I1. revert I1 I2. generalize (inner D (fun a => real (G a)) psi). clear. intros q I1 I2. destruct (CR_eq_dec z c0) as [Q|Q]; [exact Q|]. exfalso. apply I2. destruct z as (x, y), q as (u, v). apply pair_equal_spec in I1 as (A & B). cbn in A, B.
      assert (N : x * x + y * y <> 0) by (intros N; apply Q; apply injective_projections; cbn; nra). assert (U : u * (x * x + y * y) = 0) by (replace (u * (x * x + y * y)) with (x * (x * u - y * v) + y * (x * v + y * u)) by ring; rewrite A, B; ring). assert (V : v * (x * x + y * y) = 0) by (replace (v * (x * x + y * y)) with (x * (x * v + y * u) - y * (x * u - y * v)) by ring; rewrite A, B; ring). apply Rmult_integral in U as [U|U]; [|contradiction]. apply Rmult_integral in V as [V|V]; [|contradiction]. subst. reflexivity. }
    apply norm_zero. rewrite up_norm. fold chi. rewrite inner_zero_r; [reflexivity|]. intros a Ha. rewrite (Z a Ha), Z0. apply injective_projections; cbn; ring.
  Qed.
  (** Fewer flipped spins cost energy. *)
  Theorem strict m m' e e' psi l r : pairing part n l r -> length l = m' -> (m < m')%nat -> lives n m psi -> eig e psi -> present psi -> lowest m' e' -> e' < e.
  Proof using All.
    intros PR LL Hm L X Pp LW. assert (NN : (2 * m' <= n)%nat).
    { destruct PR as (_ & PM). apply Permutation_length in PM. rewrite app_length, seq_length in PM. assert (F : length (flat_pairs l) = (2 * length l)%nat) by (clear; unfold flat_pairs; induction l as [|p l IH]; [reflexivity | cbn [flat_map app length] in *; lia]). lia. }
    destruct (lower_all s J m e psi (m' - m) L X Pp ltac:(lia)) as (L1 & X1 & P1). replace (m + (m' - m))%nat with m' in L1 by lia. destruct (Rlt_dec e' e) as [Q|Q]; [exact Q|]. exfalso.
    assert (e = e') by (destruct LW as (_ & M); pose proof (M e _ L1 X1 P1); lra). subst e'. pose proof (highest m' e _ l r PR LL LW L1 X1 P1) as HW.
    destruct P1 as (a & Ha & NA). apply NA. replace (m' - m)%nat with (S (m' - m - 1)) in * by lia. cbn [lower] in *. set (chi := lower s (m' - m - 1) psi) in *.
    revert a Ha NA. assert (V : vanishes n (mv n 1 chi)); [|intros a Ha _; apply V, Ha]. apply norm_zero. rewrite (mv_adj n 1) by lia. change (1 - 1)%nat with 0%nat. rewrite inner_zero_r; [reflexivity | exact HW].
  Qed.
  (** ** All other sites of one kind *)
  Lemma raised k psi j a : lives n k psi -> vanishes n (mv n 0 psi) -> (a < D)%nat -> mv n 0 (lower s (S j) psi) a = real (INR (S j) * (INR n - 2 * INR k - INR j)) *c lower s j psi a.
  Proof using.
    clear. intros L Z Ha. revert a Ha. assert (LV : forall t, lives n (k + t) (lower s t psi)) by (induction t as [|i IH]; [rewrite Nat.add_0_r; exact L | rewrite Nat.add_succ_r; apply lower_lives, IH]).
    induction j as [|j IH]; intros a Ha; cbn [lower]; rewrite (mv_comm n) by exact Ha.
    - rewrite (mv_ext n 1 (mv n 0 psi) (fun _ => c0 *c c0)) by (intros b Hb; rewrite (Z b Hb); apply injective_projections; cbn; ring). rewrite mv_scale. destruct (Nat.eq_dec (digit_sum 2 n a) k) as [Q|Q]; [rewrite Q; apply injective_projections; cbn; ring | rewrite (L a Ha Q); apply injective_projections; cbn; ring].
    - fold (lower s (S j) psi). rewrite (mv_ext n 1 (mv n 0 (lower s (S j) psi)) (fun b => real (INR (S j) * (INR n - 2 * INR k - INR j)) *c lower s j psi b)) by exact IH. rewrite mv_scale. change (mv n 1 (lower s j psi)) with (lower s (S j) psi).
      destruct (Nat.eq_dec (digit_sum 2 n a) (k + S j)) as [Q|Q]; [rewrite Q, plus_INR, !S_INR; apply injective_projections; cbn; ring | rewrite (LV (S j) a Ha Q); apply injective_projections; cbn; ring].
  Qed.
  Lemma lowered k e psi j : lives n k psi -> eig e psi -> present psi -> vanishes n (mv n 0 psi) -> (2 * k + j <= n)%nat -> lives n (k + j) (lower s j psi) /\ eig e (lower s j psi) /\ present (lower s j psi).
  Proof using.
    clear. intros L X Pp Z. induction j as [|j IH]; intros Hj; [rewrite Nat.add_0_r; auto|]. destruct IH as (L1 & X1 & P1); [lia|]. split; [rewrite Nat.add_succ_r; apply lower_lives, L1|]. split; [apply eig_mv, X1|].
    destruct (present_dec s (lower s (S j) psi)) as [Y|Y]; [exact Y|]. exfalso. destruct P1 as (a & Ha & NA). apply NA. pose proof (raised k psi j a L Z Ha) as Q. rewrite (mv_ext n 0 _ (fun _ => c0 *c c0)) in Q by (intros b Hb; rewrite (Y b Hb); apply injective_projections; cbn; ring). rewrite mv_scale in Q.
    assert (C : 0 < INR (S j) * (INR n - 2 * INR k - INR j)). { apply Rmult_lt_0_compat; [apply lt_0_INR; lia|]. assert (INR (2 * k + j) < INR n) by (apply lt_INR; lia). rewrite plus_INR, mult_INR in H. cbn in H. lra. }
    set (c := INR (S j) * _) in *. apply pair_equal_spec in Q as (Q1 & Q2). cbn in Q1, Q2. apply injective_projections; cbn; nra.
  Qed.
End Kinds.
