(** Optical conductivity at one frequency: proofs. *)
From Coq Require Import List Arith Lia Reals Lra Bool.
From Verif Require Import Scalars Res Matrix SpecMat ModelGeometry ModelPhase ModelSymmetry SymBase ModelBase
  ModelThermal SpecThermal ThermalBase ThermalSectors ThermalBasis ThermalResponse ThermalCond SpecOptical.
Import ListNotations.
Local Open Scope R_scope.

Lemma seen_iff z : not_tiny z = if Rlt_dec (/ 10 ^ 32) (abs2 z) then true else false.
Proof.
  unfold not_tiny, rlt_b. pose proof (modulus_ge z) as G. pose proof (modulus_abs2 z) as A.
  assert (P : 0 < / 10 ^ 16) by (apply Rinv_0_lt_compat, pow_lt; lra).
  assert (S : (/ 10 ^ 16) ^ 2 = / 10 ^ 32) by (rewrite <- pow_inv, <- pow_mult, pow_inv; reflexivity).
  rewrite <- A, <- S. set (t := / 10 ^ 16) in *. clearbody t.
  destruct (Rlt_dec t (modulus z)) as [L|L], (Rlt_dec (t ^ 2) (modulus z ^ 2)) as [M|M]; try reflexivity; exfalso.
  - apply M. cbn [pow]. nra.
  - apply L. cbn [pow] in M. nra.
Qed.

Lemma weights_pos T E : E <> [] -> 0 < total (fun e => exp (- e / T)) E.
Proof.
  intros NE. destruct E as [|e t]; [congruence|]. rewrite total_cons. pose proof (exp_pos (- e / T)).
  assert (0 <= total (fun e => exp (- e / T)) t) by (apply total_ge0; intros; left; apply exp_pos). lra.
Qed.
Lemma prob_le T E n : (n < length E)%nat -> prob T E n <= 1.
Proof.
  intros Hn. assert (NE : E <> []) by (intros ->; cbn in Hn; lia). pose proof (weights_pos T E NE) as Z.
  unfold prob. apply (Rmult_le_reg_r (total (fun e => exp (- e / T)) E)); [exact Z|].
  unfold Rdiv at 1. rewrite Rmult_assoc, Rinv_l, Rmult_1_r, Rmult_1_l by lra.
  pose proof (nth_In E 0 Hn) as I. clear Hn NE Z. revert I. generalize (nth n E 0) as x. intros x I.
  induction E as [|e t IH]; [destruct I|]. rewrite total_cons. pose proof (exp_pos (- e / T)).
  destruct I as [->|I].
  - assert (0 <= total (fun e => exp (- e / T)) t) by (apply total_ge0; intros; left; apply exp_pos). lra.
  - specialize (IH I). lra.
Qed.
Lemma lorentz_le eta x : 0 < eta -> lorentz eta x <= / (PI * eta).
Proof.
  intros He. pose proof pi_pos. pose proof (lorentz_mono eta 0 x He) as M.
  assert (0 ^ 2 <= x ^ 2) by (cbn [pow]; nra). specialize (M H0).
  replace (/ (PI * eta)) with (lorentz eta 0); [exact M|]. unfold lorentz. field. split; lra.
Qed.
Lemma sum_nm_le N f g : (forall n m, (n < N)%nat -> (m < N)%nat -> f n m <= g n m) -> sum_nm N f <= sum_nm N g.
Proof.
  intros H. assert (0 <= sum_nm N (fun n m => g n m + -1 * f n m)) as P.
  { apply sum_nm_ge0. intros n m Hn Hm. specialize (H n m Hn Hm). lra. }
  rewrite sum_nm_add, sum_nm_scale in P. lra.
Qed.
Lemma sum_nm_const N c : sum_nm N (fun _ _ => c) = INR N ^ 2 * c.
Proof.
  assert (X : forall s M (d : R), total (fun _ : nat => d) (seq s M) = INR M * d).
  { intros s M. revert s. induction M as [|M IH]; intros s d; [cbn; ring|].
    cbn [seq]. rewrite total_cons, IH, S_INR. ring. }
  unfold sum_nm. rewrite (total_ext _ (fun _ => INR N * c)) by (intros; apply X). rewrite X. ring.
Qed.

Section Value.
  Variables (nsites : nat) (J : cmat) (E : list R).
  Hypothesis SJ : square_size J (length E).
  Hypothesis NE : E <> [].
  Hypothesis HS : (0 < nsites)%nat.

  Lemma optical_visible T w eta : T <> 0 -> w <> 0 ->
    optical_cond nsites J E T w eta = Ok (kubo_visible nsites J E T w eta).
  Proof using SJ NE HS.
    intros HT Hw. rewrite (optical_finite nsites J E SJ NE HS T w eta HT Hw). f_equal. unfold kubo_visible. f_equal.
    apply sum_nm_ext. intros n m _ _. rewrite seen_iff. destruct (Rlt_dec _ _); reflexivity.
  Qed.

  Lemma kubo_close T w eta : w <> 0 -> 0 < eta ->
    Rabs (kubo_visible nsites J E T w eta - kubo_at nsites J E T w eta) <= INR (length E) ^ 2 / (INR nsites * eta * Rabs w * 10 ^ 32).
  Proof using NE HS.
    intros Hw He. pose proof pi_pos as Pp. assert (PS : 0 < INR nsites) by (apply lt_0_INR; exact HS).
    pose proof (Rabs_pos_lt w Hw) as Aw. assert (P10 : 0 < 10 ^ 32) by (apply pow_lt; lra).
    set (c := / 10 ^ 32 * / (PI * eta) / Rabs w).
    assert (C : 0 < c).
    { unfold c. apply Rmult_lt_0_compat; [apply Rmult_lt_0_compat|]; apply Rinv_0_lt_compat; try assumption. apply Rmult_lt_0_compat; assumption. }
    assert (T1 : forall n m, (n < length E)%nat -> (m < length E)%nat ->
      Rabs (if Rlt_dec (/ 10 ^ 32) (abs2 (ent J n m)) then 0 else kubo_term J E T w eta n m) <= c).
    { intros n m Hn Hm. destruct (Rlt_dec _ _) as [L|L]; [rewrite Rabs_R0; lra|]. apply Rnot_lt_le in L.
      unfold kubo_term, c. unfold Rdiv. rewrite !Rabs_mult, Rabs_inv.
      apply Rmult_le_compat_r; [left; apply Rinv_0_lt_compat, Aw|].
      pose proof (abs2_ge (ent J n m)) as G. rewrite (Rabs_right (abs2 _)) by lra.
      pose proof (lorentz_pos eta (nth n E 0 - nth m E 0 - w) He) as LP. rewrite (Rabs_right (lorentz _ _)) by lra.
      apply Rmult_le_compat; [apply Rmult_le_pos; [exact G|apply Rabs_pos] | lra | | apply lorentz_le, He].
      rewrite <- (Rmult_1_r (/ 10 ^ 32)). apply Rmult_le_compat; [exact G|apply Rabs_pos|exact L|].
      pose proof (prob_ge T E n). pose proof (prob_ge T E m). pose proof (prob_le T E n Hn). pose proof (prob_le T E m Hm).
      apply Rabs_le. lra. }
    unfold kubo_visible, kubo_at.
    replace (PI / INR nsites * sum_nm (length E) (fun n m => if Rlt_dec (/ 10 ^ 32) (abs2 (ent J n m)) then kubo_term J E T w eta n m else 0)
        - PI / INR nsites * sum_nm (length E) (kubo_term J E T w eta))
      with (PI / INR nsites * (-1 * sum_nm (length E) (fun n m => if Rlt_dec (/ 10 ^ 32) (abs2 (ent J n m)) then 0 else kubo_term J E T w eta n m))).
    2:{ rewrite <- Rmult_minus_distr_l. f_equal. rewrite <- sum_nm_scale.
        unfold Rminus. rewrite <- (Rmult_1_l (sum_nm (length E) (kubo_term J E T w eta))), Ropp_mult_distr_l, <- sum_nm_scale, <- sum_nm_add.
        apply sum_nm_ext. intros n m _ _. destruct (Rlt_dec _ _); ring. }
    set (d := fun n m => if Rlt_dec (/ 10 ^ 32) (abs2 (ent J n m)) then 0 else kubo_term J E T w eta n m) in *.
    rewrite !Rabs_mult, (Rabs_left (-1)), (Ropp_involutive 1 : - -1 = 1), Rmult_1_l, (Rabs_right (PI / INR nsites)) by (try lra; left; apply Rdiv_lt_0_compat; assumption).
    assert (B : Rabs (sum_nm (length E) d) <= INR (length E) ^ 2 * c).
    { apply Rabs_le. rewrite <- sum_nm_const. split.
      - replace (- sum_nm (length E) (fun _ _ => c)) with (-1 * sum_nm (length E) (fun _ _ => c)) by ring. rewrite <- sum_nm_scale.
        apply sum_nm_le. intros n m Hn Hm. pose proof (T1 n m Hn Hm) as X. fold (d n m) in X.
        pose proof (Rle_abs (- d n m)) as Y. rewrite Rabs_Ropp in Y. lra.
      - apply sum_nm_le. intros n m Hn Hm. pose proof (T1 n m Hn Hm) as X. fold (d n m) in X. pose proof (Rle_abs (d n m)). lra. }
    apply Rle_trans with (PI / INR nsites * (INR (length E) ^ 2 * c)).
    { apply Rmult_le_compat_l; [left; apply Rdiv_lt_0_compat; assumption | exact B]. }
    right. unfold c. field. repeat split; lra.
  Qed.

  Lemma optical_close T w eta : T <> 0 -> w <> 0 -> 0 < eta ->
    exists r, optical_cond nsites J E T w eta = Ok r /\
      Rabs (r - kubo_at nsites J E T w eta) <= INR (length E) ^ 2 / (INR nsites * eta * Rabs w * 10 ^ 32).
  Proof using SJ NE HS.
    intros HT Hw He. eexists. split; [apply optical_visible; assumption|]. apply kubo_close; assumption.
  Qed.

  Lemma optical_exact T w eta : T <> 0 -> w <> 0 ->
    (forall n m, (n < length E)%nat -> (m < length E)%nat -> ent J n m = k0 \/ visible J n m) ->
    optical_cond nsites J E T w eta = Ok (kubo_at nsites J E T w eta).
  Proof using SJ NE HS.
    intros HT Hw V. rewrite optical_visible by assumption. f_equal. unfold kubo_visible, kubo_at. f_equal.
    apply sum_nm_ext. intros n m Hn Hm. destruct (Rlt_dec _ _) as [L|L]; [reflexivity|].
    destruct (V n m Hn Hm) as [Z|Z]; [|contradiction]. unfold kubo_term. rewrite Z. unfold abs2. cbn. unfold Rdiv. ring.
  Qed.

  Lemma optical_cold w eta : optical_cond nsites J E 0 w eta = Ok (cold_at nsites J E w eta).
  Proof using SJ NE.
    unfold optical_cond. rewrite square_of_ok by assumption. cbn [negb].
    destruct (ne_cons E NE) as (e0 & t & EE). rewrite EE at 1. rewrite is_zero_0. cbv zeta. f_equal. unfold cold_at.
    assert (E0 : nth 0 E 0 = e0) by (rewrite EE; reflexivity).
    replace (PI / 1 / INR nsites) with (PI / INR nsites) by (unfold Rdiv; rewrite Rinv_1; ring). f_equal.
    rewrite sum1_total. apply total_ext. intros n _. rewrite seen_iff, E0. destruct (Rlt_dec _ _); [|reflexivity].
    unfold is_zero. destruct (Req_EM_T (nth n E 0 - e0) 0) as [D|D], (Req_EM_T (nth n E 0) e0) as [D'|D']; try lra.
    rewrite modulus_abs2, lor_lorentz. unfold Rdiv. ring.
  Qed.
End Value.

(** The value at zero temperature is not the limit of the values at low temperature. *)
Definition Jx : cmat := Mat 2 2 (fun i j => if (i =? j)%nat then k0 else k1).
Definition Ex : list R := [0; 1].
Lemma tiny_lt_1 : / 10 ^ 32 < 1.
Proof. replace 1 with (/ 1) by apply Rinv_1. apply Rinv_lt_contravar; [rewrite Rmult_1_l; apply pow_lt; lra|]. apply Rlt_pow_R1; [lra|lia]. Qed.
Lemma Jx_visible n m : (n < 2)%nat -> (m < 2)%nat -> ent Jx n m = k0 \/ visible Jx n m.
Proof.
  pose proof tiny_lt_1. intros Hn Hm. unfold visible, abs2.
  destruct n as [|[|n]], m as [|[|m]]; try lia; cbn; (left; reflexivity) || (right; cbn in *; lra).
Qed.
Lemma cold_not_limit : exists J E w eta r,
  square_size J (length E) /\ unique_ground E /\ hermitian (length E) J /\ w <> 0 /\ 0 < eta /\
  (forall n m, (n < length E)%nat -> (m < length E)%nat -> ent J n m = k0 \/ visible J n m) /\
  optical_cond 1 J E 0 w eta = Ok r /\
  (forall T, 0 < T -> optical_cond 1 J E T w eta = Ok (kubo_at 1 J E T w eta)) /\
  ~ tends_at_0 (fun T => kubo_at 1 J E T w eta) r.
Proof.
  assert (SJ : square_size Jx (length Ex)) by (split; reflexivity).
  assert (NE : Ex <> []) by discriminate.
  assert (U : unique_ground Ex).
  { split; [exact NE|]. intros k Hk. cbn in Hk. assert (k = 1)%nat as -> by lia. cbn. lra. }
  exists Jx, Ex, 2, 1, (cold_at 1 Jx Ex 2 1). split; [exact SJ|]. split; [exact U|]. split.
  { intros i j Hi Hj. cbn in Hi, Hj. destruct i as [|[|i]], j as [|[|j]]; try lia; cbn; unfold cr_conj; cbn; f_equal; ring. }
  split; [lra|]. split; [lra|]. split; [exact Jx_visible|]. split; [apply optical_cold; assumption|]. split.
  { intros T HT. apply optical_exact; try assumption; try lra; [lia|exact Jx_visible]. }
  intros L.
  assert (A : tends_at_0 (fun T => kubo_at 1 Jx Ex T 2 1) (1 / 5)).
  { apply (tends_ext (fun T => prob T Ex 0 * (1/5) - prob T Ex 1 * (1/5))).
    - intros T _. unfold kubo_at, sum_nm, kubo_term. cbn [length Ex seq total fold_right].
      unfold abs2, lorentz. cbn. pose proof pi_pos. field. lra.
    - cut (tends_at_0 (fun T => prob T Ex 0 * (1/5) - prob T Ex 1 * (1/5)) (delta0 0 * (1/5) - delta0 1 * (1/5))).
      { replace (delta0 0 * (1/5) - delta0 1 * (1/5)) with (1/5) by (cbn; field). exact (fun x => x). }
      apply tends_minus; (apply tends_mul; [apply prob_limit; [exact U|cbn; lia]|apply tends_const]). }
  pose proof (tends_unique _ _ _ L A) as X. revert X. unfold cold_at. cbn [length Ex seq total fold_right].
  pose proof tiny_lt_1. 
  destruct (Rlt_dec (/ 10 ^ 32) (abs2 (ent Jx 0 0))) as [Q|Q]; [exfalso; revert Q; unfold abs2; cbn [ent Jx]; cbn; intros Q; assert (0 < / 10 ^ 32) by (apply Rinv_0_lt_compat, pow_lt; lra); cbn in *; lra|].
  destruct (Rlt_dec (/ 10 ^ 32) (abs2 (ent Jx 1 0))) as [Q'|Q']; [|exfalso; apply Q'; unfold abs2; cbn in *; lra].
  destruct (Req_EM_T (nth 1 [0; 1] 0) (nth 0 [0; 1] 0)) as [D|D]; [cbn in D; lra|].
  unfold abs2, lorentz. cbn [nth]. rewrite (Rabs_right 2) by lra. cbn. pose proof pi_pos. intros X.
  destruct (Req_EM_T 1 0) as [D'|D']; [lra|].
  assert (Y : 1 / 2 = 1 / 5); [|lra]. rewrite <- X. field. lra.
Qed.
