(** Signs of thermal averages. *)
From Coq Require Import List Arith Lia Reals Lra Bool.
From Verif Require Import Scalars Res Sums Matrix ModelGeometry ModelPhase ModelSymmetry SymBase ModelBase ModelThermal SpecThermal ThermalBase ThermalFacts ThermalBasis Spectral Thermo SpecHeat HeatCore SpecConvex Convex SpecSigns Signs.
From Verif Require SymAverage.
Import ListNotations.
Local Open Scope R_scope.

(** A sum of exponentials is the limit of the sums of their polynomials. *)
Definition taylor (N : nat) (x : R) : R := sum_f_R0 (fun i => / INR (fact i) * x ^ i) N.
Lemma taylor_exp x : Un_cv (fun N => taylor N x) (exp x).
Proof.
  unfold exp. destruct (exist_exp x) as (y & Hy). cbn. intros e He. destruct (Hy e He) as (N & HN). exists N. intros m Hm. unfold taylor. apply HN. exact Hm.
Qed.
Lemma const_cv c : Un_cv (fun _ => c) c.
Proof. intros e He. exists 0%nat. intros. unfold R_dist. rewrite Rminus_diag_eq by reflexivity. rewrite Rabs_R0. exact He. Qed.
Lemma taylor_total {A} (w x : A -> R) l : Un_cv (fun N => total (fun k => w k * taylor N (x k)) l) (total (fun k => w k * exp (x k)) l).
Proof.
  induction l as [|k l IH]; [exact (const_cv 0)|].
  apply (CV_plus (fun N => w k * taylor N (x k)) (fun N => total (fun k => w k * taylor N (x k)) l) _ _); [|exact IH]. apply (CV_mult (fun _ => w k) (fun N => taylor N (x k))); [apply const_cv | apply taylor_exp].
Qed.
Lemma positive_limit u x : Un_cv u x -> (forall N, 0 <= u N) -> 0 <= x.
Proof.
  intros C P. destruct (Rle_dec 0 x) as [|N]; [assumption|]. destruct (C (- x) ltac:(lra)) as (m & Hm). specialize (Hm m (le_n m)). specialize (P m). unfold R_dist in Hm. rewrite Rabs_right in Hm by lra. lra.
Qed.
Lemma sum_f_total {A} (f : nat -> A -> R) N l : total (fun k => sum_f_R0 (fun i => f i k) N) l = sum_f_R0 (fun i => total (f i) l) N.
Proof. induction N as [|N IH]; [reflexivity|]. cbn [sum_f_R0]. rewrite total_add, IH. reflexivity. Qed.
Lemma bound_above n (f : nat -> R) : exists c, forall a, (a < n)%nat -> f a <= c.
Proof.
  induction n as [|n (c & IH)]; [exists 0; intros; lia|]. exists (Rmax c (f n)). intros a Ha. destruct (Nat.eq_dec a n) as [->|]; [apply Rmax_r|]. apply Rle_trans with c; [apply IH; lia | apply Rmax_l].
Qed.

Lemma ksum_sign w (F : nat -> CR) n : (forall d, (d < n)%nat -> snd (F d) = 0 /\ 0 <= w * fst (F d)) -> snd (ksum n F) = 0 /\ 0 <= w * fst (ksum n F).
Proof.
  induction n as [|p IH]; intros T; [cbn; split; [reflexivity | rewrite Rmult_0_r; lra]|].
  cbn [ksum]. destruct (IH ltac:(intros; apply T; lia)) as (A1 & A2). destruct (T p ltac:(lia)) as (B1 & B2).
  change (fst (ksum p F +c F p)) with (fst (ksum p F) + fst (F p)). change (snd (ksum p F +c F p)) with (snd (ksum p F) + snd (F p)). rewrite Rmult_plus_distr_l. split; lra.
Qed.
Section Heat.
  Variables (H V : mat CR) (E : list R) (n : nat) (eps : nat -> R).
  Hypothesis basis : eigenbasis H V E.
  Hypothesis rows : nrow V = n.
  Hypothesis some : n <> 0%nat.
  Hypothesis sgn : signs n eps.
  Hypothesis low : lowers n eps H.
  Notation l := (seq 0 (length E)).
  Notation ev O k := (expect n O (col V k)).
  Definition kernel (w : nat -> R) (b a : nat) : CR := ksum (length E) (fun k => real (w k) *c (ent V b k *c conj (ent V a k))).
  Lemma weighted w O : total (fun k => w k * ev O k) l = total (fun a => total (fun b => fst (ent O a b *c kernel w b a)) (seq 0 n)) (seq 0 n).
  Proof using.
    unfold kernel. rewrite (total_ext _ (fun k => total (fun a => total (fun b => fst (ent O a b *c (real (w k) *c (ent V b k *c conj (ent V a k))))) (seq 0 n)) (seq 0 n))).
    - rewrite total_swap. apply total_ext. intros a _. rewrite total_swap. apply total_ext. intros b _. rewrite <- ksum_mul_l, fst_ksum, rsum_total. reflexivity.
    - intros k _. unfold expect, inner, apply. rewrite fst_ksum, rsum_total, <- total_scale. apply total_ext. intros a _. rewrite <- ksum_mul_l, fst_ksum, rsum_total, <- total_scale. apply total_ext. intros b _. unfold col. destruct (ent O a b), (ent V a k), (ent V b k). cbn. ring.
  Qed.
  Lemma kernel_zero b a : (a < n)%nat -> (b < n)%nat -> kernel (fun _ => 1) b a = kb (b =? a)%nat.
  Proof using basis rows.
    clear some sgn low. intros Ha Hb. destruct basis as ((L & _) & _ & C). rewrite (C (fun i => kb (i =? a)%nat) b ltac:(lia)). unfold kernel. rewrite L. apply ksum_ext. intros k _. rewrite rows.
    assert (X : inner n (col V k) (fun i => kb (i =? a)%nat) = conj (ent V a k)).
    { unfold inner, col. rewrite (ksum_single n a); [rewrite Nat.eqb_refl; cbn [kb]; ring | exact Ha |]. intros i Hi Ne. rewrite (proj2 (Nat.eqb_neq i a)) by exact Ne. cbn [kb]. ring. }
    rewrite X. apply injective_projections; cbn; ring.
  Qed.
  Lemma kernel_step c m b a : (b < n)%nat -> kernel (fun k => (c - nth k E 0) ^ S m) b a = ksum n (fun d => (real (if (b =? d)%nat then c else 0) -c ent H b d) *c kernel (fun k => (c - nth k E 0) ^ m) d a).
  Proof using basis rows.
    clear some sgn low. intros Hb. destruct basis as ((L & S1 & S2 & EV) & _). rewrite rows in EV.
    rewrite (ksum_ext n _ (fun d => (real (if (b =? d)%nat then c else 0) *c kernel (fun k => (c - nth k E 0) ^ m) d a) -c (ent H b d *c kernel (fun k => (c - nth k E 0) ^ m) d a))) by (intros; ring).
    rewrite ksum_minus. rewrite (ksum_single n b) by (try exact Hb; intros d Hd Ne; rewrite (proj2 (Nat.eqb_neq b d)) by congruence; apply injective_projections; cbn; ring). rewrite Nat.eqb_refl.
    assert (X : ksum n (fun d => ent H b d *c kernel (fun k => (c - nth k E 0) ^ m) d a) = ksum (length E) (fun k => real (nth k E 0) *c (real ((c - nth k E 0) ^ m) *c (ent V b k *c conj (ent V a k))))).
    { unfold kernel. rewrite (ksum_ext n _ (fun d => ksum (length E) (fun k => (ent H b d *c ent V d k) *c (real ((c - nth k E 0) ^ m) *c conj (ent V a k))))) by (intros; rewrite <- ksum_mul_l; apply ksum_ext; intros; ring).
      rewrite ksum_swap. apply ksum_ext. intros k Hk. rewrite ksum_mul_r. pose proof (EV b k Hb ltac:(lia)) as Y. unfold apply, col in Y. rewrite Y. change (nth k E 0, 0) with (real (nth k E 0)). change (@kmul CR _ (real (nth k E 0)) (ent V b k)) with (real (nth k E 0) *c ent V b k). ring. }
    rewrite X. unfold kernel. rewrite <- ksum_mul_l, <- ksum_minus. apply ksum_ext. intros k _. destruct (ent V b k), (ent V a k). apply injective_projections; cbn; ring.
  Qed.
  Lemma kernel_sign c m b a : (forall d, (d < n)%nat -> fst (ent H d d) <= c) -> (a < n)%nat -> (b < n)%nat ->
    snd (kernel (fun k => (c - nth k E 0) ^ m) b a) = 0 /\ 0 <= eps b * eps a * fst (kernel (fun k => (c - nth k E 0) ^ m) b a).
  Proof using basis rows sgn low.
    clear some. intros BD Ha. revert b. induction m as [|m IH]; intros b Hb.
    - change (fun k => (c - nth k E 0) ^ 0) with (fun _ : nat => 1). rewrite kernel_zero by assumption. destruct (Nat.eqb_spec b a) as [->|N]; cbn [kb]; cbn; [|lra]. rewrite (sign_sq n eps a sgn Ha). lra.
    - rewrite kernel_step by exact Hb.
      assert (T : forall d, (d < n)%nat -> snd ((real (if (b =? d)%nat then c else 0) -c ent H b d) *c kernel (fun k => (c - nth k E 0) ^ m) d a) = 0 /\
        0 <= eps b * eps a * fst ((real (if (b =? d)%nat then c else 0) -c ent H b d) *c kernel (fun k => (c - nth k E 0) ^ m) d a)).
      { intros d Hd. destruct (IH d Hd) as (K1 & K2). set (K := kernel _ d a) in *.
        assert (HS : snd (ent H b d) = 0) by (destruct (Nat.eq_dec b d) as [->|N]; [apply (H_diag H V E n basis rows); exact Hd | apply low; assumption]).
        assert (HF : 0 <= eps b * eps d * ((if (b =? d)%nat then c else 0) - fst (ent H b d))).
        { destruct (Nat.eqb_spec b d) as [->|N]; [rewrite (sign_sq n eps d sgn Hd); specialize (BD d Hd); lra|]. destruct (low b d Hb Hd N) as (_ & Q). lra. }
        split; [cbn; rewrite HS, K1; ring|].
        replace (fst ((real (if (b =? d)%nat then c else 0) -c ent H b d) *c K)) with (((if (b =? d)%nat then c else 0) - fst (ent H b d)) * fst K) by (cbn; rewrite HS, K1; ring).
        pose proof (sign_sq n eps d sgn Hd) as SQ.
        replace (eps b * eps a * (((if (b =? d)%nat then c else 0) - fst (ent H b d)) * fst K)) with ((eps d * eps d) * (eps b * eps a * (((if (b =? d)%nat then c else 0) - fst (ent H b d)) * fst K))) by (rewrite SQ; ring).
        pose proof (Rmult_le_pos _ _ HF K2) as X. lra. }
      apply ksum_sign. exact T.
  Qed.
  Lemma powers_positive c m O : (forall d, (d < n)%nat -> fst (ent H d d) <= c) -> raises n eps O -> 0 <= total (fun k => (c - nth k E 0) ^ m * ev O k) l.
  Proof using basis rows sgn low.
    clear some. intros BD RA. rewrite weighted. apply total_ge0. intros a Ha. apply total_ge0. intros b Hb. apply in_seq in Ha, Hb.
    destruct (RA a b ltac:(lia) ltac:(lia)) as (Q1 & Q2). destruct (kernel_sign c m b a BD ltac:(lia) ltac:(lia)) as (K1 & K2). set (K := kernel _ b a) in *.
    replace (fst (ent O a b *c K)) with (fst (ent O a b) * fst K) by (cbn; rewrite Q1; ring).
    destruct (sgn a ltac:(lia)) as [Ea|Ea], (sgn b ltac:(lia)) as [Eb|Eb]; rewrite Ea, Eb in *; nra.
  Qed.
  Lemma weights_positive T O : 0 < T -> raises n eps O -> 0 <= total (fun k => exp (- nth k E 0 / T) * ev O k) l.
  Proof using basis rows sgn low.
    intros TP RA. destruct (bound_above n (fun d => fst (ent H d d))) as (c & BD).
    rewrite (total_ext _ (fun k => exp (- c / T) * (ev O k * exp ((c - nth k E 0) / T)))).
    - rewrite total_scale. apply Rmult_le_pos; [apply Rlt_le, exp_pos|].
      apply (positive_limit _ _ (taylor_total (fun k => ev O k) (fun k => (c - nth k E 0) / T) l)). intros N. unfold taylor.
      rewrite (total_ext _ (fun k => sum_f_R0 (fun i => ev O k * (/ INR (fact i) * ((c - nth k E 0) / T) ^ i)) N)) by (intros k _; rewrite scal_sum; apply sum_eq; intros; ring).
      rewrite sum_f_total. apply cond_pos_sum. intros i.
      rewrite (total_ext _ (fun k => (/ INR (fact i) * / T ^ i) * ((c - nth k E 0) ^ i * ev O k))).
      + rewrite total_scale. apply Rmult_le_pos; [|apply powers_positive; assumption]. apply Rmult_le_pos; apply Rlt_le, Rinv_0_lt_compat; [apply INR_fact_lt_0 | apply pow_lt; exact TP].
      + intros k _. unfold Rdiv. rewrite Rpow_mult_distr, pow_inv. ring.
    - intros k _. replace (- nth k E 0 / T) with (- c / T + (c - nth k E 0) / T) by (field; lra). rewrite exp_plus. ring.
  Qed.
  (** Averages of operators with the signs of the states are not negative. *)
  Theorem average_sign T O x : 0 <= T -> allowed T E -> nrow O = n -> ncol O = n -> raises n eps O -> exp_vals_thermal V O E T = Ok x -> 0 <= x.
  Proof using All.
    intros TP AL S1 S2 RA EX. assert (NE : E <> []) by (apply (E_some H V E basis); lia).
    assert (F : fits V O E) by (split; [lia|]; split; [lia|]; split; [apply basis | exact NE]).
    assert (PS : forall t, 0 < t -> 0 <= boltzmann t (levels E V O)).
    { intros t Ht. unfold boltzmann, levels. rewrite !total_map. unfold energy, value. cbn [fst snd]. rewrite rows. apply Rmult_le_pos; [apply weights_positive; assumption|].
      apply Rlt_le, Rinv_0_lt_compat. rewrite <- (total_nth (fun e => exp (- e / t))). apply z_pos. exact NE. }
    destruct (Req_EM_T T 0) as [->|N].
    - destruct AL as [AL|(SO & AP)]; [tauto|]. destruct (thermal_limit V O E F SO AP) as (r & E0 & TL). rewrite E0 in EX. injection EX as <-.
      destruct (Rle_dec 0 r) as [|NR]; [assumption|]. destruct (TL (- r) ltac:(lra)) as (d & Hd & X). specialize (X (d / 2) ltac:(lra)). rewrite thermal_finite in X by (exact F || lra).
      specialize (PS (d / 2) ltac:(lra)). rewrite Rabs_right in X by lra. lra.
    - rewrite thermal_finite in EX by assumption. injection EX as <-. apply PS. lra.
  Qed.
End Heat.
