(** Responses of an operator that shifts energies have one line. *)
From Coq Require Import List Arith Lia Reals Lra Bool.
From Verif Require Import Scalars Res Sums Matrix SpecMat ModelGeometry ModelPhase ModelSymmetry SymBase ModelBase ModelThermal
  SpecThermal ThermalBase ThermalFacts ThermalBasis ThermalResponse Spectral Thermo SpecPrecess Precess.
From Verif Require SymAverage.
Import ListNotations.
Local Open Scope R_scope.

Section Resp.
  Variables (H V O P A B : mat CR) (E : list R) (n : nat) (c w eta : R).
  Hypothesis basis : eigenbasis H V E.
  Hypothesis rows : nrow V = n.
  Hypothesis some : n <> 0%nat.
  Hypothesis O1 : nrow O = n. Hypothesis O2 : ncol O = n.
  Hypothesis P1 : nrow P = n. Hypothesis P2 : ncol P = n.
  Hypothesis EA : matrix_elems V O = Ok A.
  Hypothesis EB : matrix_elems V P = Ok B.
  Hypothesis sh : shifts n H O c.
  Notation N := (length E).
  Notation en k := (nth k E 0).
  Lemma elems_of Q M : nrow Q = n -> ncol Q = n -> matrix_elems V Q = Ok M -> square_size M N /\ forall k m, ent M k m = elem V Q n k m.
  Proof using basis rows.
    clear - basis rows. intros Q1 Q2. destruct basis as ((L & _) & _). unfold matrix_elems, cmulv. rewrite Q2, rows, Nat.eqb_refl. cbn [bind madj mmul nrow ncol]. rewrite Q1, rows, Nat.eqb_refl. intros [= <-].
    split; [split; cbn; congruence|]. intros k m. unfold elem. cbn. rewrite rows, Q2. reflexivity.
  Qed.
  Lemma NEr : E <> []. Proof using basis rows some. apply (E_some H V E basis). congruence. Qed.
  Lemma product Q S k : ncol Q = n -> (k < N)%nat -> expect n (mmul Q S) (col V k) = total (fun m => fst (elem V Q n k m *c elem V S n m k)) (seq 0 N).
  Proof using basis rows.
    clear - basis rows. intros Q2 Hk. destruct basis as ((L & _) & _ & CM). unfold expect.
    rewrite (inner_ext n (col V k) (col V k) _ (apply n Q (apply n S (col V k)))); [|reflexivity|].
    2:{ intros a Ha. unfold apply. cbn [mmul ent]. rewrite Q2. rewrite (ksum_ext n _ (fun b => ksum n (fun j => ent Q a j *c (ent S j b *c col V k b)))) by (intros b Hb; rewrite <- ksum_mul_r; apply ksum_ext; intros j Hj; ring).
        rewrite (ksum_swap n n). apply ksum_ext. intros j Hj. rewrite ksum_mul_l. reflexivity. }
    rewrite (inner_ext n (col V k) (col V k) _ (fun a => ksum N (fun m => apply n Q (col V m) a *c elem V S n m k))); [|reflexivity|].
    2:{ intros a Ha. rewrite <- (apply_sum n N Q (col V)). apply apply_ext. intros i Hi. rewrite <- rows in Hi. rewrite (CM (apply n S (col V k)) i Hi), L. apply ksum_ext. intros m Hm. unfold elem. rewrite rows. reflexivity. }
    rewrite (inner_sum n N _ (fun m => apply n Q (col V m))). rewrite fst_ksum, rsum_total. reflexivity.
  Qed.
  Lemma averaged Q T x : nrow Q = n -> ncol Q = n -> T <> 0 -> exp_vals_thermal V Q E T = Ok x -> x = total (fun m => prob T E m * expect n Q (col V m)) (seq 0 N).
  Proof using basis rows some.
    clear - basis rows some. intros Q1 Q2 HT EX. rewrite thermal_finite in EX; [|split; [congruence|]; split; [congruence|]; split; [apply basis | exact NEr] | exact HT]. injection EX as <-.
    unfold boltzmann, levels. rewrite !total_map. unfold energy, value, prob. cbn [fst snd]. rewrite rows, <- (total_nth (fun e => exp (- e / T))). unfold Rdiv at 1. rewrite Rmult_comm, <- total_scale. apply total_ext. intros k _. unfold Rdiv. ring.
  Qed.
  Theorem time_ordered_line T z x y : T <> 0 -> exp_vals_thermal V (mmul P O) E T = Ok x -> exp_vals_thermal V (mmul O P) E T = Ok y ->
    response_time_ordered A B E T w eta = Ok z -> fst z = PI * lorentz eta (w - c) * (x - y).
  Proof using All.
    intros HT EX EY EZ. destruct (elems_of O A O1 O2 EA) as (SA & VA). destruct (elems_of P B P1 P2 EB) as (SB & VB).
    destruct (time_ordered_finite A B E w eta fst SA SB NEr (or_introl eq_refl) T HT) as (z' & EZ' & FZ). rewrite EZ in EZ'. injection EZ' as <-. rewrite FZ.
    rewrite (sum_nm_ext N _ (fun k m => lorentz eta (w - c) * (prob T E m * fst (elem V P n m k *c elem V O n k m)) + - lorentz eta (w - c) * (prob T E k * fst (elem V O n k m *c elem V P n m k)))).
    - rewrite sum_nm_add, !sum_nm_scale, (sum_nm_swap N (fun k m => prob T E m * _)).
      assert (X1 : sum_nm N (fun k m => prob T E k * fst (elem V P n k m *c elem V O n m k)) = x).
      { rewrite (averaged (mmul P O) T x P1 O2 HT EX). apply total_ext. intros k Hk. apply in_seq in Hk. rewrite (product P O k P2) by lia. rewrite <- total_scale. reflexivity. }
      assert (Y1 : sum_nm N (fun k m => prob T E k * fst (elem V O n k m *c elem V P n m k)) = y).
      { rewrite (averaged (mmul O P) T y O1 P2 HT EY). apply total_ext. intros k Hk. apply in_seq in Hk. rewrite (product O P k O2) by lia. rewrite <- total_scale. reflexivity. }
      rewrite X1, Y1. ring.
    - intros k m Hk Hm. rewrite (VA k m), (VB m k). destruct (elem_shift H V O E n c basis rows sh k m Hk Hm) as [D|D].
      + rewrite D. replace (elem V P n m k *c elem V O n k m) with (elem V O n k m *c elem V P n m k) by ring. ring.
      + rewrite D. replace (elem V P n m k *c c0) with c0 by ring. replace (c0 *c elem V P n m k) with c0 by ring. change (fst c0) with 0. ring.
  Qed.
  Theorem retarded_line_cold f r : f <> OtherFmt -> response_retarded A B E 0 f w eta = Ok r ->
    r = PI * lorentz eta (w + c) * (expect n (mmul O P) (col V 0) + fmt_sign f * expect n (mmul P O) (col V 0)).
  Proof using All.
    intros Hf. destruct (elems_of O A O1 O2 EA) as (SA & VA). destruct (elems_of P B P1 P2 EB) as (SB & VB). pose proof NEr as NE.
    assert (N0 : (0 < N)%nat) by (destruct E; [contradiction NE; reflexivity | cbn; lia]).
    rewrite (product O P 0 O2 N0), (product P O 0 P2 N0).
    unfold response_retarded. rewrite !square_of_ok by assumption. cbn [andb negb].
    assert (LA : forall k, (k < N)%nat -> lor (w + - (en k - en 0)) eta (fst (ent A 0 k *c ent B k 0)) = lorentz eta (w + c) * fst (elem V O n 0 k *c elem V P n k 0)).
    { intros k Hk. rewrite lor_lorentz, (VA 0%nat k), (VB k 0%nat). destruct (elem_shift H V O E n c basis rows sh 0 k N0 Hk) as [D|D]; rewrite ?D; [|replace (c0 *c elem V P n k 0) with c0 by ring; change (fst c0) with 0; ring].
      replace (- (en k - en 0)) with c by lra. ring. }
    assert (LB : forall s k, (k < N)%nat -> lor (w + (en k - en 0)) eta (s * fst (ent A k 0 *c ent B 0 k)) = lorentz eta (w + c) * s * fst (elem V P n 0 k *c elem V O n k 0)).
    { intros s k Hk. rewrite lor_lorentz, (VA k 0%nat), (VB 0%nat k). destruct (elem_shift H V O E n c basis rows sh k 0 Hk N0) as [D|D]; rewrite ?D; [|replace (c0 *c elem V P n 0 k) with c0 by ring; replace (elem V P n 0 k *c c0) with c0 by ring; change (fst c0) with 0; ring].
      replace (elem V P n 0 k *c elem V O n k 0) with (elem V O n k 0 *c elem V P n 0 k) by ring. ring. }
    clear - Hf NE LA LB N0.
    destruct E as [|e0 t] eqn:EE; [contradiction NE; reflexivity|]. change (nth 0 (e0 :: t) 0) with e0 in LA, LB. rewrite <- EE in *.
    assert (G : forall s r, Ok (PI / 1 * (sum1 N (fun k => lor (w + - (en k - e0)) eta (fst (ent A 0 k *c ent B k 0))) + sum1 N (fun k => lor (w + (en k - e0)) eta (s * fst (ent A k 0 *c ent B 0 k))))) = Ok r ->
       r = PI * lorentz eta (w + c) * (total (fun m => fst (elem V O n 0 m *c elem V P n m 0)) (seq 0 N) + s * total (fun m => fst (elem V P n 0 m *c elem V O n m 0)) (seq 0 N))).
    { intros s r0 [= <-]. rewrite !sum1_total.
      rewrite (total_ext (fun k => lor (w + - (en k - e0)) eta _) (fun k => lorentz eta (w + c) * fst (elem V O n 0 k *c elem V P n k 0))) by (intros k Hk; apply in_seq in Hk; apply LA; lia).
      rewrite (total_ext (fun k => lor (w + (en k - e0)) eta _) (fun k => lorentz eta (w + c) * s * fst (elem V P n 0 k *c elem V O n k 0))) by (intros k Hk; apply in_seq in Hk; apply LB; lia).
      rewrite !total_scale. field. }
    destruct f; [| |contradiction Hf; reflexivity]; cbn [bind fmt_sign]; (destruct (is_zero 0) eqn:Z0; [|unfold is_zero in Z0; destruct (Req_EM_T 0 0); [discriminate Z0 | contradiction]]); intros Q; exact (G _ _ Q).
  Qed.
  Theorem retarded_line_hot f T r x : f <> OtherFmt -> T <> 0 -> exp_vals_thermal V (mmul P O) E T = Ok x -> response_retarded A B E T f w eta = Ok r ->
    r = PI * lorentz eta (w + c) * (1 + fmt_sign f * exp (c / T)) * x.
  Proof using All.
    intros Hf HT EX. destruct (elems_of O A O1 O2 EA) as (SA & VA). destruct (elems_of P B P1 P2 EB) as (SB & VB). pose proof NEr as NE.
    rewrite (averaged (mmul P O) T x P1 O2 HT EX).
    unfold response_retarded. rewrite !square_of_ok by assumption. cbn [andb negb].
    assert (PR : forall k, (k < N)%nat -> expect n (mmul P O) (col V k) = total (fun m => fst (elem V P n k m *c elem V O n m k)) (seq 0 N)) by (intros k Hk; apply product; assumption).
    assert (ZT : is_zero T = false) by (unfold is_zero; destruct (Req_EM_T T 0); [contradiction | reflexivity]). rewrite ZT.
    destruct E as [|e0 t] eqn:EE; [contradiction NE; reflexivity|]. rewrite <- EE in *.
    pose proof (prob_shift e0 t T) as PS. rewrite <- EE in PS.
    assert (ZZ : 0 < sum1 N (fun k => exp (- (1 / T) * (en k - e0)))).
    { rewrite sum1_total. apply total_pos; [intros; left; apply exp_pos|]. exists 0%nat. split; [apply in_seq; rewrite EE; cbn; lia | apply exp_pos]. }
    assert (G : forall s, (PI / sum1 N (fun k => exp (- (1 / T) * (en k - e0))) * sum2 N (fun k m => (1 + s * exp (1 / T * (en k - e0 - (en m - e0)))) * lor (w + (en k - e0 - (en m - e0))) eta (fst (ent A k m *c ent B m k) * exp (- (1 / T) * (en m - e0)))))
       = PI * lorentz eta (w + c) * (1 + s * exp (c / T)) * total (fun m => prob T E m * expect n (mmul P O) (col V m)) (seq 0 N)).
    { intros s. set (Z := sum1 N (fun k => exp (- (1 / T) * (en k - e0)))) in *. rewrite sum2_total, sum_nm_swap.
      rewrite (sum_nm_ext N _ (fun m k => (Z * lorentz eta (w + c) * (1 + s * exp (c / T))) * (prob T E m * fst (elem V P n m k *c elem V O n k m)))).
      - rewrite sum_nm_scale. unfold sum_nm. rewrite (total_ext (fun m => prob T E m * expect n (mmul P O) (col V m)) (fun m => total (fun k => prob T E m * fst (elem V P n m k *c elem V O n k m)) (seq 0 N))); [field; lra|].
        intros m Hm. apply in_seq in Hm. rewrite (PR m) by lia. symmetry. apply total_scale.
      - intros m k Hm Hk. rewrite lor_lorentz, (PS m HT), (VA k m), (VB m k). fold Z. destruct (elem_shift H V O E n c basis rows sh k m Hk Hm) as [D|D].
        + replace (en k - e0 - (en m - e0)) with c by lra. replace (1 / T * c) with (c / T) by (field; exact HT). replace (elem V P n m k *c elem V O n k m) with (elem V O n k m *c elem V P n m k) by ring. ring.
        + rewrite D. replace (elem V P n m k *c c0) with c0 by ring. replace (c0 *c elem V P n m k) with c0 by ring. change (fst c0) with 0. ring. }
    destruct f; [| |contradiction Hf; reflexivity]; cbn [bind fmt_sign]; intros [= <-]; apply G.
  Qed.
End Resp.
