(** Optical conductivity: proofs. *)
From Coq Require Import List Arith Lia Reals Lra Bool.
From Verif Require Import Scalars Res Matrix SpecMat ModelGeometry ModelPhase ModelSymmetry SymBase ModelBase
  ModelThermal SpecThermal ThermalBase ThermalSectors ThermalBasis ThermalResponse.
Import ListNotations.
Local Open Scope R_scope.

Lemma modulus_abs2 z : modulus z ^ 2 = abs2 z.
Proof. rewrite modulus_nsq. change (nsq z) with (abs2 z). cbn [pow]. rewrite Rmult_1_r. apply sqrt_def. apply nsq_ge. Qed.
Lemma abs2_ge z : 0 <= abs2 z.
Proof. apply nsq_ge. Qed.
Lemma modulus_ext y z : abs2 y = abs2 z -> modulus y = modulus z.
Proof. intros H. rewrite !modulus_nsq. f_equal. exact H. Qed.

Section Cond.
  Variables (nsites : nat) (J : cmat) (E : list R).
  Hypothesis SJ : square_size J (length E).
  Hypothesis NE : E <> [].
  Hypothesis HS : (0 < nsites)%nat.

  Lemma sites_pos : 0 < INR nsites.
  Proof using HS. apply lt_0_INR. exact HS. Qed.

  Lemma ne_cons : exists e0 t, E = e0 :: t.
  Proof using NE. clear - NE. destruct E as [|e0 t]; [congruence | eauto]. Qed.

  (** Non-zero temperature: the Kubo sum. *)
  Lemma integrate_finite T : T <> 0 -> integrate_conductivity nsites J E T = Ok (kubo_weight nsites J E T).
  Proof using SJ NE HS.
    intros HT. unfold integrate_conductivity. rewrite square_of_ok by assumption. cbn [negb].
    destruct ne_cons as (e0 & t & EE). rewrite EE at 1. rewrite is_zero_false by exact HT. cbv zeta. f_equal.
    set (z := sum1 _ _).
    assert (Z : 0 < z) by (unfold z; rewrite sum1_total, EE; apply z_pos).
    assert (PS : forall n, exp (- (1 / T) * (nth n E 0 - e0)) = prob T E n * z) by (intros n; unfold z; rewrite EE; apply prob_shift; exact HT).
    rewrite sum2_total. unfold kubo_weight. set (N := length E) in *.
    pose proof sites_pos.
    replace (PI / z / INR nsites) with (PI / INR nsites * / z) by (field; lra). rewrite Rmult_assoc. f_equal.
    apply Rmult_eq_reg_l with z; [|lra]. rewrite <- Rmult_assoc, Rinv_r, Rmult_1_l by lra. rewrite <- sum_nm_scale.
    apply sum_nm_ext. intros n m _ _. rewrite modulus_abs2, PS.
    unfold is_zero. destruct (Req_EM_T (nth n E 0 - e0 - (nth m E 0 - e0)) 0) as [D|D];
      destruct (Req_EM_T (nth n E 0) (nth m E 0)) as [D'|D']; try lra.
    assert (X : prob T E m * z * exp (- (1 / T) * (nth n E 0 - e0 - (nth m E 0 - e0))) = prob T E n * z).
    { rewrite <- !PS, <- exp_plus. f_equal. ring. }
    replace (abs2 (ent J n m) * (prob T E m * z) * ((1 - exp (- (1 / T) * (nth n E 0 - e0 - (nth m E 0 - e0)))) / (nth n E 0 - e0 - (nth m E 0 - e0))))
      with (abs2 (ent J n m) * ((prob T E m * z - prob T E m * z * exp (- (1 / T) * (nth n E 0 - e0 - (nth m E 0 - e0))))) / (nth n E 0 - e0 - (nth m E 0 - e0)))
      by (unfold Rdiv; ring).
    rewrite X. replace (nth n E 0 - e0 - (nth m E 0 - e0)) with (nth n E 0 - nth m E 0) by ring. unfold Rdiv; ring.
  Qed.

  Lemma kubo_ge T : 0 < T -> 0 <= kubo_weight nsites J E T.
  Proof using HS.
    intros HT. unfold kubo_weight. pose proof sites_pos. pose proof pi_pos.
    apply Rmult_le_pos; [left; apply Rdiv_lt_0_compat; assumption|]. apply sum_nm_ge0. intros n m _ _.
    destruct (Req_EM_T (nth n E 0) (nth m E 0)) as [D|D]; [lra|]. pose proof (abs2_ge (ent J n m)) as G.
    destruct (Rlt_le_dec (nth n E 0) (nth m E 0)) as [L|L].
    - assert (P : prob T E m <= prob T E n) by (apply prob_mono; [exact HT | lra]).
      replace (abs2 (ent J n m) * (prob T E m - prob T E n) / (nth n E 0 - nth m E 0))
        with (abs2 (ent J n m) * (prob T E n - prob T E m) / (nth m E 0 - nth n E 0)) by (field; lra).
      apply Rmult_le_pos; [apply Rmult_le_pos; lra|]. left. apply Rinv_0_lt_compat. lra.
    - assert (P : prob T E n <= prob T E m) by (apply prob_mono; [exact HT | lra]).
      apply Rmult_le_pos; [apply Rmult_le_pos; lra|]. left. apply Rinv_0_lt_compat. lra.
  Qed.

  Lemma integrate_ge T : 0 <= T -> (forall k, (k < length E)%nat -> nth 0 E 0 <= nth k E 0) ->
    exists r, integrate_conductivity nsites J E T = Ok r /\ 0 <= r.
  Proof using SJ NE HS.
    intros HT M. destruct (Req_EM_T T 0) as [->|N].
    - destruct ne_cons as (e0 & t & EE). eexists. split;
      [unfold integrate_conductivity; rewrite square_of_ok by assumption; cbn [negb]; rewrite EE at 1; rewrite is_zero_0; cbv zeta; reflexivity|].
      pose proof sites_pos. pose proof pi_pos. apply Rmult_le_pos; [lra|]. apply Rmult_le_pos; [left; apply Rdiv_lt_0_compat; assumption|].
      rewrite sum1_total. apply total_ge0. intros n Hn. apply in_seq in Hn. rewrite modulus_abs2.
      apply Rmult_le_pos; [apply abs2_ge|]. unfold is_zero. destruct (Req_EM_T _ 0) as [D|D]; [lra|].
      specialize (M n ltac:(lia)). assert (nth 0 E 0 = e0) by (rewrite EE; reflexivity).
      left. apply Rdiv_lt_0_compat; lra.
    - eexists. split; [apply integrate_finite; exact N|]. apply kubo_ge. lra.
  Qed.

  Lemma integrate_limit : unique_ground E -> (forall n m, (n < length E)%nat -> (m < length E)%nat -> abs2 (ent J n m) = abs2 (ent J m n)) ->
    exists r, integrate_conductivity nsites J E 0 = Ok r /\ tends_at_0 (fun T => kubo_weight nsites J E T) r.
  Proof using SJ NE HS.
    intros U SY. destruct ne_cons as (e0 & t & EE). eexists. split;
      [unfold integrate_conductivity; rewrite square_of_ok by assumption; cbn [negb]; rewrite EE at 1; rewrite is_zero_0; cbv zeta; reflexivity|].
    assert (E0 : nth 0 E 0 = e0) by (rewrite EE; reflexivity).
    set (N := length E) in *. assert (HN : (0 < N)%nat) by (unfold N; rewrite EE; cbn; lia).
    set (g := fun n m => if Req_EM_T (nth n E 0) (nth m E 0) then 0 else abs2 (ent J n m) / (nth n E 0 - nth m E 0)).
    apply (tends_ext (fun T => PI / INR nsites * (sum_nm N (fun n m => g n m * prob T E m) - sum_nm N (fun n m => g n m * prob T E n)))).
    { intros T HT. unfold kubo_weight. fold N. f_equal.
      match goal with |- sum_nm N ?f - sum_nm N ?h = _ =>
        replace (sum_nm N f - sum_nm N h) with (sum_nm N f + -1 * sum_nm N h) by ring; rewrite <- sum_nm_scale, <- sum_nm_add end.
      apply sum_nm_ext. intros n m _ _. unfold g. destruct (Req_EM_T (nth n E 0) (nth m E 0)); unfold Rdiv; ring. }
    match goal with |- tends_at_0 _ (2 * (?c * ?x)) => replace (2 * (c * x)) with (c * (x - - x)) by ring; set (y := x) end.
    apply tends_mul; [apply tends_const|]. apply tends_minus.
    - replace y with (sum_nm N (fun n m => g n m * delta0 m)).
      + apply (tends_sum_nm N (fun n m T => g n m * prob T E m)). intros n m Hn Hm.
        apply tends_mul; [apply tends_const | apply prob_limit; assumption].
      + rewrite sum_first_col by exact HN. unfold y. rewrite sum1_total. apply total_ext. intros n _.
        unfold g. rewrite modulus_abs2, E0. unfold is_zero. destruct (Req_EM_T (nth n E 0) e0) as [D|D];
          destruct (Req_EM_T (nth n E 0 - e0) 0) as [D'|D']; try lra.
    - replace (- y) with (sum_nm N (fun n m => g n m * delta0 n)).
      + apply (tends_sum_nm N (fun n m T => g n m * prob T E n)). intros n m Hn Hm.
        apply tends_mul; [apply tends_const | apply prob_limit; assumption].
      + rewrite sum_first_row by exact HN. unfold y. rewrite sum1_total.
        replace (- total (fun n => modulus (ent J n 0) ^ 2 * (if is_zero (nth n E 0 - e0) then 0 else 1 / (nth n E 0 - e0))) (seq 0 N))
          with (-1 * total (fun n => modulus (ent J n 0) ^ 2 * (if is_zero (nth n E 0 - e0) then 0 else 1 / (nth n E 0 - e0))) (seq 0 N)) by ring.
        rewrite <- total_scale. apply total_ext. intros n Hn. apply in_seq in Hn.
        unfold g. rewrite modulus_abs2, E0, (SY O n) by lia. unfold is_zero. destruct (Req_EM_T e0 (nth n E 0)) as [D|D];
          destruct (Req_EM_T (nth n E 0 - e0) 0) as [D'|D']; try lra. field. split; lra.
  Qed.

  (** ** The conductivity at one frequency *)
  Lemma optical_finite T w eta : T <> 0 -> w <> 0 ->
    optical_cond nsites J E T w eta = Ok (PI / INR nsites * sum_nm (length E) (fun n m =>
      if not_tiny (ent J n m) then abs2 (ent J n m) * (prob T E m - prob T E n) * lorentz eta (nth n E 0 - nth m E 0 - w) / w else 0)).
  Proof using SJ NE HS.
    intros HT Hw. unfold optical_cond. rewrite square_of_ok by assumption. cbn [negb].
    destruct ne_cons as (e0 & t & EE). rewrite EE at 1. rewrite is_zero_false by exact HT. cbv zeta. f_equal.
    set (z := sum1 _ _).
    assert (Z : 0 < z) by (unfold z; rewrite sum1_total, EE; apply z_pos).
    assert (PS : forall n, exp (- (1 / T) * (nth n E 0 - e0)) = prob T E n * z) by (intros n; unfold z; rewrite EE; apply prob_shift; exact HT).
    rewrite sum2_total. set (N := length E) in *. pose proof sites_pos.
    replace (PI / z / INR nsites) with (PI / INR nsites * / z) by (field; lra). rewrite Rmult_assoc. f_equal.
    apply Rmult_eq_reg_l with z; [|lra]. rewrite <- Rmult_assoc, Rinv_r, Rmult_1_l by lra. rewrite <- sum_nm_scale.
    apply sum_nm_ext. intros n m _ _. destruct (not_tiny (ent J n m)); [|ring].
    rewrite modulus_abs2, PS, lor_lorentz.
    assert (X : prob T E m * z * exp (- (1 / T) * (nth n E 0 - e0 - (nth m E 0 - e0))) = prob T E n * z).
    { rewrite <- !PS, <- exp_plus. f_equal. ring. }
    replace (nth n E 0 - e0 - (nth m E 0 - e0) - w) with (nth n E 0 - nth m E 0 - w) by ring.
    set (x := exp _) in *. set (L := lorentz eta _).
    transitivity (abs2 (ent J n m) * (prob T E m * z - prob T E m * z * x) * L / w); [field; exact Hw|].
    rewrite X. field. exact Hw.
  Qed.

  Hypothesis SY : forall n m, (n < length E)%nat -> (m < length E)%nat -> abs2 (ent J n m) = abs2 (ent J m n).

  Lemma tiny_sym n m : (n < length E)%nat -> (m < length E)%nat -> not_tiny (ent J n m) = not_tiny (ent J m n).
  Proof using SY. intros Hn Hm. unfold not_tiny. rewrite (modulus_ext _ _ (SY n m Hn Hm)). reflexivity. Qed.

  Lemma optical_even T w eta : w <> 0 -> optical_cond nsites J E T (- w) eta = optical_cond nsites J E T w eta.
  Proof using SJ NE HS SY.
    intros Hw. destruct (Req_EM_T T 0) as [->|N].
    - unfold optical_cond. rewrite is_zero_0, Rabs_Ropp. reflexivity.
    - rewrite !optical_finite by lra. f_equal. f_equal. rewrite sum_nm_swap. apply sum_nm_ext. intros n m Hn Hm.
      rewrite (tiny_sym m n) by assumption. destruct (not_tiny (ent J n m)); [|reflexivity].
      rewrite (SY m n) by assumption.
      replace (nth m E 0 - nth n E 0 - - w) with (- (nth n E 0 - nth m E 0 - w)) by ring. rewrite lorentz_even. field. exact Hw.
  Qed.

  Lemma optical_ge T w eta : 0 <= T -> w <> 0 -> 0 < eta -> (forall k, (k < length E)%nat -> nth 0 E 0 <= nth k E 0) ->
    exists r, optical_cond nsites J E T w eta = Ok r /\ 0 <= r.
  Proof using SJ NE HS SY.
    intros HT Hw He M.
    assert (P : forall w, 0 < w -> exists r, optical_cond nsites J E T w eta = Ok r /\ 0 <= r).
    { clear w Hw. intros w Hw. pose proof sites_pos. pose proof pi_pos. destruct (Req_EM_T T 0) as [->|N].
      - destruct ne_cons as (e0 & t & EE). eexists. split;
      [unfold optical_cond; rewrite square_of_ok by assumption; cbn [negb]; rewrite EE at 1; rewrite is_zero_0; cbv zeta; reflexivity|].
        apply Rmult_le_pos; [left; apply Rdiv_lt_0_compat; lra|].
        rewrite sum1_total. apply total_ge0. intros n Hn. apply in_seq in Hn. destruct (not_tiny _); [|lra].
        unfold is_zero. destruct (Req_EM_T _ 0) as [D|D]; [lra|].
        specialize (M n ltac:(lia)). assert (nth 0 E 0 = e0) by (rewrite EE; reflexivity).
        rewrite lor_lorentz, modulus_abs2. apply Rmult_le_pos.
        + apply Rmult_le_pos; [apply abs2_ge | left; apply lorentz_pos, He].
        + left. apply Rinv_0_lt_compat. lra.
      - eexists. split; [apply optical_finite; lra|]. apply Rmult_le_pos; [left; apply Rdiv_lt_0_compat; assumption|].
        (* pair the terms (n,m) and (m,n) *)
        set (f := fun n m => _). cut (0 <= 2 * sum_nm (length E) f); [lra|].
        replace (2 * sum_nm (length E) f) with (sum_nm (length E) f + sum_nm (length E) (fun n m => f m n)) by (rewrite <- sum_nm_swap; ring).
        rewrite <- sum_nm_add. apply sum_nm_ge0. intros n m Hn Hm. unfold f.
        rewrite (tiny_sym m n), (SY m n) by assumption. destruct (not_tiny (ent J n m)); [|lra].
        set (a := abs2 _). assert (0 <= a) by apply abs2_ge.
        replace (nth m E 0 - nth n E 0 - w) with (- (nth n E 0 - nth m E 0 + w)) by ring. rewrite lorentz_even.
        set (d := nth n E 0 - nth m E 0).
        replace (a * (prob T E m - prob T E n) * lorentz eta (d - w) / w + a * (prob T E n - prob T E m) * lorentz eta (d + w) / w)
          with (a * / w * ((prob T E m - prob T E n) * (lorentz eta (d - w) - lorentz eta (d + w)))) by (field; lra).
        apply Rmult_le_pos; [apply Rmult_le_pos; [assumption | left; apply Rinv_0_lt_compat; exact Hw]|].
        destruct (Rle_lt_dec (nth m E 0) (nth n E 0)) as [L|L].
        + assert (prob T E n <= prob T E m) by (apply prob_mono; lra).
          assert (lorentz eta (d + w) <= lorentz eta (d - w)) by (apply lorentz_mono; [exact He | unfold d; nra]).
          apply Rmult_le_pos; lra.
        + assert (prob T E m <= prob T E n) by (apply prob_mono; lra).
          assert (lorentz eta (d - w) <= lorentz eta (d + w)) by (apply lorentz_mono; [exact He | unfold d; nra]).
          replace ((prob T E m - prob T E n) * (lorentz eta (d - w) - lorentz eta (d + w)))
            with ((prob T E n - prob T E m) * (lorentz eta (d + w) - lorentz eta (d - w))) by ring.
          apply Rmult_le_pos; lra. }
    destruct (Rlt_le_dec 0 w) as [L|L]; [apply P, L|].
    rewrite <- (Ropp_involutive w), optical_even by lra. apply P. lra.
  Qed.
End Cond.
