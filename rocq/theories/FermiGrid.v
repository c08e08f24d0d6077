(** The grids of wave vectors. *)
From Coq Require Import List Arith Lia Reals Lra ZArith Bool Permutation Sorting.
From Verif Require Import Scalars Res Sums Matrix ModelPhase ModelSymmetry SymBase GeoPhase SymZn SpecThermal ThermalBase
  SpecFermiGas ModelFermiGas FermiBase CharTable.
Import ListNotations.
Local Open Scope R_scope.

(** ** Angles *)
Lemma trig_period_nat x k : cos (x + 2 * PI * INR k) = cos x /\ sin (x + 2 * PI * INR k) = sin x.
Proof.
  replace (2 * PI * INR k) with (2 * INR k * PI) by ring. split; [apply cos_period|apply sin_period].
Qed.
Lemma trig_period x z : cos (x + 2 * PI * IZR z) = cos x /\ sin (x + 2 * PI * IZR z) = sin x.
Proof.
  destruct (Z_le_gt_dec 0 z) as [H|H].
  - rewrite <- (Z2Nat.id z) by assumption. rewrite <- INR_IZR_INZ. apply trig_period_nat.
  - assert (E : x = x + 2 * PI * IZR z + 2 * PI * INR (Z.to_nat (- z))).
    { rewrite INR_IZR_INZ, Z2Nat.id by lia. rewrite opp_IZR. ring. }
    destruct (trig_period_nat (x + 2 * PI * IZR z) (Z.to_nat (- z))) as [A B]. rewrite <- E in A, B. split; congruence.
Qed.
Lemma wave_period x z : wave (x + 2 * PI * IZR z) = wave x.
Proof. unfold wave. destruct (trig_period x z) as [-> ->]. reflexivity. Qed.
Lemma wave_0 : wave 0 = c1.
Proof. unfold wave. rewrite cos_0, sin_0. reflexivity. Qed.
Lemma wave_add x y : wave (x + y) = wave x *c wave y.
Proof. symmetry. apply cexp_mul. Qed.
Lemma wave_conj x : conj (wave x) = wave (- x).
Proof. unfold wave. rewrite cos_neg, sin_neg. reflexivity. Qed.

(** ** Sorting *)
Lemma r_insert_perm x l : Permutation (r_insert x l) (x :: l).
Proof.
  induction l as [|y t IH]; cbn; [reflexivity|]. destruct rle_b; [reflexivity|].
  rewrite IH. apply perm_swap.
Qed.
Lemma r_sort_perm l : Permutation (r_sort l) l.
Proof. induction l as [|x l IH]; cbn; [reflexivity|]. rewrite r_insert_perm, IH. reflexivity. Qed.
Lemma r_insert_sorted x l : StronglySorted Rle l -> StronglySorted Rle (r_insert x l).
Proof.
  induction l as [|y t IH]; cbn; intros H; [repeat constructor|].
  apply StronglySorted_inv in H as [H1 H2].
  unfold rle_b. destruct (Rle_dec x y) as [Hxy|Hxy].
  - constructor; [constructor; assumption|]. constructor; [assumption|].
    eapply Forall_impl; [|exact H2]. cbn. intros; lra.
  - constructor; [apply IH; assumption|]. rewrite (r_insert_perm x t).
    constructor; [lra|assumption].
Qed.
Lemma r_sort_sorted l : StronglySorted Rle (r_sort l).
Proof. induction l; cbn; [constructor|]. apply r_insert_sorted. assumption. Qed.
Lemma sorted_strict l : StronglySorted Rle l -> NoDup l -> StronglySorted Rlt l.
Proof.
  induction 1 as [|x l H IH F]; intros N; constructor; inversion N as [|y t N1 N2]; subst; [apply IH; assumption|].
  rewrite Forall_forall in *. intros y Hy. specialize (F y Hy). assert (x <> y) by (intros ->; contradiction). lra.
Qed.

(** ** One axis *)
Lemma mom_eq n j : 2 * PI / INR n * INR j = momentum n j.
Proof. unfold momentum, Rdiv. ring. Qed.
Definition wrap (k : R) : R := if rle_b PI k then k - 2 * PI else k.
Lemma wrap_shift k : exists z, wrap k = k + 2 * PI * IZR z.
Proof. unfold wrap. destruct rle_b; [exists (-1)%Z|exists 0%Z]; cbn; ring. Qed.
Lemma wrap_cos k : cos (wrap k) = cos k.
Proof. destruct (wrap_shift k) as (z & ->). apply trig_period. Qed.
Lemma wrap_wave k x : wave (wrap k * IZR x) = wave (k * IZR x).
Proof.
  destruct (wrap_shift k) as (z & ->). replace ((k + 2 * PI * IZR z) * IZR x) with (k * IZR x + 2 * PI * IZR (z * x)); [apply wave_period|].
  rewrite mult_IZR. ring.
Qed.
Lemma momentum_range n j : (j < n)%nat -> 0 <= momentum n j < 2 * PI.
Proof.
  intros H. unfold momentum. pose proof PI_RGT_0. assert (0 <= INR j) by apply pos_INR. assert (INR j < INR n) by (apply lt_INR; assumption).
  split.
  - unfold Rdiv. apply Rmult_le_pos; [nra|]. apply Rlt_le, Rinv_0_lt_compat. lra.
  - apply (Rmult_lt_reg_r (INR n)); [lra|]. unfold Rdiv. rewrite Rmult_assoc, Rinv_l by lra. nra.
Qed.
Lemma wrap_range k : 0 <= k < 2 * PI -> - PI <= wrap k < PI.
Proof. unfold wrap, rle_b. destruct Rle_dec; lra. Qed.
Lemma momentum_same n i j : (i < n)%nat -> (j < n)%nat -> same_angle (momentum n i) (momentum n j) -> i = j.
Proof.
  intros Hi Hj (z & E). assert (Hn : 0 < INR n) by (apply lt_0_INR; lia). pose proof PI_RGT_0 as HP.
  assert (E2 : INR i - INR j = IZR z * INR n).
  { unfold momentum in E. apply (Rmult_eq_reg_l (2 * PI / INR n)).
    - transitivity (2 * PI * INR i / INR n - 2 * PI * INR j / INR n); [field; lra|]. rewrite E. field. lra.
    - unfold Rdiv. apply Rmult_integral_contrapositive_currified; [lra|]. apply Rinv_neq_0_compat. lra. }
  rewrite !INR_IZR_INZ, <- minus_IZR, <- mult_IZR in E2. apply eq_IZR in E2.
  assert (z = 0)%Z by nia. subst. lia.
Qed.
Lemma same_angle_wrap k l : same_angle (wrap k) (wrap l) -> same_angle k l.
Proof.
  intros (z & E). destruct (wrap_shift k) as (a & Ea). destruct (wrap_shift l) as (b & Eb).
  exists (z - a + b)%Z. rewrite plus_IZR, minus_IZR. rewrite Ea, Eb in E. lra.
Qed.

Definition axl (n : nat) : list R := r_sort (map (fun j => wrap (momentum n j)) (seq 0 n)).
Lemma axis_balanced n : (1 <= n)%nat -> axis n Balanced = Ok (axl n).
Proof.
  intros H. unfold axis, axl. destruct n as [|m]; [lia|]. rewrite map_map. f_equal. f_equal. apply map_ext. intros j.
  rewrite mom_eq. reflexivity.
Qed.
Lemma axis_positive n : (1 <= n)%nat -> axis n Positive = Ok (map (momentum n) (seq 0 n)).
Proof. intros H. unfold axis. destruct n as [|m]; [lia|]. f_equal. apply map_ext. intros j. apply mom_eq. Qed.
Lemma axl_perm n : Permutation (axl n) (map (fun j => wrap (momentum n j)) (seq 0 n)).
Proof. apply r_sort_perm. Qed.
Lemma axl_in n k : In k (axl n) -> exists j, (j < n)%nat /\ k = wrap (momentum n j).
Proof.
  intros H. apply (Permutation_in _ (axl_perm n)) in H. apply in_map_iff in H as (j & <- & Hj). apply in_seq in Hj.
  exists j. split; [lia|reflexivity].
Qed.
Lemma axl_nodup n : NoDup (axl n).
Proof.
  apply (Permutation_NoDup (Permutation_sym (axl_perm n))). apply NoDup_map_in; [|apply seq_NoDup].
  intros i j Hi Hj E. apply in_seq in Hi, Hj. apply (momentum_same n); [lia|lia|]. apply same_angle_wrap.
  exists 0%Z. rewrite E. ring.
Qed.
Lemma axl_increasing n : increasing (axl n).
Proof. apply sorted_strict; [apply r_sort_sorted|apply axl_nodup]. Qed.
Lemma axl_length n : length (axl n) = n.
Proof. rewrite (Permutation_length (axl_perm n)), map_length, seq_length. reflexivity. Qed.

(** ** Plane waves *)
Lemma wave_mod n j x : (0 < n)%nat ->
  wave (momentum n j * IZR x) = root n (Z.to_nat (x mod Z.of_nat n) * j).
Proof.
  intros Hn. pose proof (Z_div_mod_eq_full x (Z.of_nat n)) as E.
  pose proof (Z.mod_pos_bound x (Z.of_nat n) ltac:(lia)) as B.
  unfold root. change (cexp ?a) with (wave a). rewrite mom_eq.
  assert (0 < INR n) by (apply lt_0_INR; assumption).
  replace (momentum n j * IZR x) with
    (2 * PI * (IZR (x mod Z.of_nat n) * INR j) / INR n + 2 * PI * IZR (x / Z.of_nat n * Z.of_nat j)).
  - rewrite wave_period. f_equal. unfold momentum. rewrite mult_INR.
    rewrite (INR_IZR_INZ (Z.to_nat _)), Z2Nat.id by lia. unfold Rdiv. ring.
  - rewrite E at 3. rewrite plus_IZR, !mult_IZR, <- !INR_IZR_INZ. unfold momentum. field. lra.
Qed.
Lemma ring_sum n x : (0 < n)%nat ->
  klsum (seq 0 n) (fun j => wave (momentum n j * IZR x)) = if back n x then real (INR n) else c0.
Proof.
  intros Hn. rewrite klsum_seq. pose proof (Z.mod_pos_bound x (Z.of_nat n) ltac:(lia)) as B.
  rewrite (ksum_ext n _ (fun j => root n (Z.to_nat (x mod Z.of_nat n) * j))) by (intros; apply wave_mod; assumption).
  unfold back. destruct (Z.eqb_spec (x mod Z.of_nat n) 0) as [E|E].
  - rewrite E. cbn [Z.to_nat]. rewrite (ksum_ext n _ (fun _ => c1)) by (intros; apply root_0).
    clear. induction n as [|n IH]; [reflexivity|]. cbn [ksum]. rewrite IH, S_INR, real_add. reflexivity.
  - apply root_sum; lia.
Qed.
