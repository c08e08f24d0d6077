(** Discrete transforms between imaginary times and frequencies. *)
From Coq Require Import List Arith Lia Reals Lra ZArith Bool Ring Permutation.
From Verif Require Import Scalars Res Sums ModelPhase ModelSymmetry SymBase SpecThermal ThermalBase CharTable SpecFermiGas ModelFermiGas FermiBase FermiGrid FermiModes FermiCorr FermiGreen
  ModelGreen SpecGreen GreenFrq GreenKernel GreenTime.
Import ListNotations.
Local Open Scope R_scope.

(** ** Rounding *)
Lemma near_bounds x : IZR (round_z x) - 1 / 2 <= x <= IZR (round_z x) + 1 / 2.
Proof. pose proof (round_z_near x) as H. unfold Rabs in H. destruct Rcase_abs in H; lra. Qed.
Lemma round_z_mono x y : x <= y -> (round_z x <= round_z y)%Z.
Proof.
  intros H. destruct (Z_le_gt_dec (round_z x) (round_z y)) as [|G]; [assumption|]. exfalso.
  assert (E : (round_z y + 1 <= round_z x)%Z) by lia. apply IZR_le in E. rewrite plus_IZR in E.
  pose proof (near_bounds x). pose proof (near_bounds y). assert (x = y) by lra. subst. lia.
Qed.
Lemma round_z_IZR z : round_z (IZR z) = z.
Proof.
  pose proof (near_bounds (IZR z)) as [H1 H2].
  assert (A : IZR (round_z (IZR z)) < IZR (z + 1)) by (rewrite plus_IZR; lra).
  assert (B : IZR z < IZR (round_z (IZR z) + 1)) by (rewrite plus_IZR; lra). apply lt_IZR in A, B. lia.
Qed.
Lemma ten14_pos : 0 < ten14.
Proof. unfold ten14. apply pow_lt. lra. Qed.
Lemma round14_mono x y : x <= y -> round14 x <= round14 y.
Proof.
  intros H. unfold round14. pose proof ten14_pos. apply Rmult_le_compat_r; [apply Rlt_le, Rinv_0_lt_compat; assumption|].
  apply IZR_le, round_z_mono. nra.
Qed.
Lemma round14_decimal z : round14 (IZR z / 10 ^ 14) = IZR z / 10 ^ 14.
Proof.
  unfold round14. fold ten14. replace (IZR z / ten14 * ten14) with (IZR z) by (field; pose proof ten14_pos; lra).
  rewrite round_z_IZR. reflexivity.
Qed.
Lemma round14_0 : round14 0 = 0.
Proof. replace 0 with (IZR 0 / 10 ^ 14) by (unfold Rdiv; ring). apply round14_decimal. Qed.

(** ** Sums over equally spaced times *)
Lemma even_times_length b n : length (even_times b n) = S n.
Proof. unfold even_times. rewrite map_length, seq_length. reflexivity. Qed.
Lemma nth_map_seq {A} (f : nat -> A) n i d : (i < n)%nat -> nth i (map f (seq 0 n)) d = f i.
Proof.
  intros H. rewrite (nth_indep _ d (f 0%nat)) by (rewrite map_length, seq_length; exact H). rewrite map_nth, seq_nth by exact H. reflexivity.
Qed.
Lemma even_times_nth b n j : (j <= n)%nat -> nth j (even_times b n) 0 = b * INR j / INR n.
Proof. intros H. unfold even_times. apply (nth_map_seq (fun j => b * INR j / INR n)). lia. Qed.
Lemma klsum_shift n (y : nat -> CR) : klsum (seq 0 n) (fun i => y (S i)) +c y 0%nat = klsum (seq 0 n) y +c y n.
Proof.
  induction n as [|n IH]; [reflexivity|]. rewrite seq_S, !klsum_app. cbn [Nat.add]. change (klsum [?a] ?f) with (f a +c c0). cbn beta.
  transitivity (klsum (seq 0 n) (fun i => y (S i)) +c y 0%nat +c y (S n)); [ring|]. rewrite IH. ring.
Qed.
Lemma trapezoid_even b n y : (1 <= n)%nat -> y n = y 0%nat -> trapezoid (even_times b n) y = real (b / INR n) *c klsum (seq 0 n) y.
Proof.
  intros Hn H. unfold trapezoid. rewrite even_times_length. replace (S n - 1)%nat with n by lia.
  assert (N : INR n <> 0) by (apply not_0_INR; lia).
  rewrite (klsum_ext _ _ (fun i => real (b / INR n / 2) *c (y i +c y (S i)))).
  - rewrite klsum_mul_l, klsum_add. pose proof (klsum_shift n y) as SH. rewrite H in SH.
    assert (E : klsum (seq 0 n) (fun i => y (S i)) = klsum (seq 0 n) y).
    { transitivity (klsum (seq 0 n) (fun i => y (S i)) +c y 0%nat +c kopp (y 0%nat)); [ring|]. rewrite SH. ring. }
    rewrite E. replace (real (b / INR n)) with (real (b / INR n / 2) +c real (b / INR n / 2)); [ring|]. rewrite <- real_add. f_equal. field. exact N.
  - intros i Hi. apply in_seq in Hi. rewrite !even_times_nth by lia. change ((?x, 0) *c ?z) with (real x *c z). f_equal. f_equal. rewrite S_INR. field. exact N.
Qed.
Lemma klsum_combine_nth {A B} (l : list A) (m : list B) a b (F : A * B -> CR) : length m = length l ->
  klsum (combine l m) F = klsum (seq 0 (length l)) (fun i => F (nth i l a, nth i m b)).
Proof.
  revert m. induction l as [|x l IH]; intros [|y m] H; try discriminate; [reflexivity|].
  cbn [combine length seq]. change (klsum (?a :: ?l) ?f) with (f a +c klsum l f). rewrite (IH m) by (injection H as H; exact H).
  rewrite <- seq_shift, klsum_map. reflexivity.
Qed.

(** ** Frequencies which differ by less than [n] steps *)
Lemma back_0 n x : (1 <= n)%nat -> (Z.abs x < Z.of_nat n)%Z -> back n x = (x =? 0)%Z.
Proof.
  intros Hn H. unfold back. destruct (Z.eqb_spec x 0) as [-> |E]; [rewrite Z.mod_0_l by lia; reflexivity|].
  apply Z.eqb_neq. intros M. apply Z.mod_divide in M as [q M]; [|lia]. assert (q <> 0)%Z by (intros ->; lia). nia.
Qed.
Section Trip.
  Variables (b : R) (n : nat) (ws : list R) (g : list CR) (idx : nat -> Z).
  Hypothesis Hb : 0 < b.
  Hypothesis Hn : (1 <= n)%nat.
  Hypothesis HL : length g = length ws.
  Hypothesis Hidx : forall i j, (i < length ws)%nat -> (j < length ws)%nat ->
    nth i ws 0 - nth j ws 0 = 2 * PI * IZR (idx i - idx j) / b.
  Hypothesis Hnear : forall i j, (i < length ws)%nat -> (j < length ws)%nat -> (Z.abs (idx i - idx j) < Z.of_nat n)%Z.
  Hypothesis Hdist : forall i j, (i < length ws)%nat -> (j < length ws)%nat -> idx i = idx j -> i = j.

  Let h (t : R) : CR := klsum (combine ws g) (fun wg => snd wg *c wave (- (fst wg * t))) *c real (1 / b).
  Lemma trip_value i : (i < length ws)%nat ->
    trapezoid (even_times b n) (fun j => h (b * INR j / INR n) *c wave (nth i ws 0 * (b * INR j / INR n))) = nth i g c0.
  Proof.
    intros Hi. assert (N : INR n <> 0) by (apply not_0_INR; lia).
    assert (E : forall j, h (b * INR j / INR n) *c wave (nth i ws 0 * (b * INR j / INR n)) =
      real (1 / b) *c klsum (seq 0 (length ws)) (fun k => nth k g c0 *c wave (momentum n j * IZR (idx i - idx k)))).
    { intros j. unfold h. rewrite (klsum_combine_nth ws g 0 c0) by exact HL. cbn [fst snd].
      match goal with |- ?s *c ?r *c ?w = _ => transitivity (r *c (s *c w)); [ring|] end.
      f_equal. rewrite <- klsum_mul_r. apply klsum_ext. intros k Hk. apply in_seq in Hk.
      match goal with |- ?a *c ?u *c ?v = _ => transitivity (a *c (u *c v)); [ring|] end. f_equal. rewrite <- wave_add. f_equal.
      transitivity ((nth i ws 0 - nth k ws 0) * (b * INR j / INR n)); [ring|]. rewrite Hidx by lia. unfold momentum. field. lra. }
    rewrite trapezoid_even; [|exact Hn|].
    - rewrite (klsum_ext _ _ (fun j => real (1 / b) *c klsum (seq 0 (length ws)) (fun k => nth k g c0 *c wave (momentum n j * IZR (idx i - idx k))))) by (intros; apply E).
      rewrite klsum_mul_l, klsum_swap.
      rewrite (klsum_ext _ _ (fun k => if (k =? i)%nat then real (INR n) *c nth k g c0 else c0)).
      + rewrite klsum_seq, (ksum_single _ i); [|exact Hi|].
        * rewrite Nat.eqb_refl. transitivity ((real (b / INR n) *c real (1 / b) *c real (INR n)) *c nth i g c0); [ring|].
          rewrite <- !real_mul. replace (b / INR n * (1 / b) * INR n) with 1 by (field; lra). rewrite real_1. ring.
        * intros k Hk Hki. destruct (Nat.eqb_spec k i); [contradiction|reflexivity].
      + intros k Hk. apply in_seq in Hk. rewrite klsum_mul_l, ring_sum by lia. rewrite back_0 by (try apply Hnear; lia).
        destruct (Nat.eqb_spec k i) as [-> |Hki].
        * rewrite Z.sub_diag. cbn [Z.eqb]. ring.
        * destruct (Z.eqb_spec (idx i - idx k) 0) as [Z0|]; [|ring]. exfalso. apply Hki. symmetry. apply Hdist; lia.
    - rewrite !E. f_equal. apply klsum_ext. intros k _. f_equal. unfold momentum.
      replace (2 * PI * INR n / INR n * IZR (idx i - idx k)) with (0 + 2 * PI * IZR (idx i - idx k)) by (field; exact N).
      rewrite wave_period. f_equal. cbn [INR]. unfold Rdiv. ring.
  Qed.

  Lemma inside_ok t : round14 b <= b -> In t (even_times b n) -> rle_b 0 (round14 t) && rle_b (round14 t) b = true.
  Proof.
    intros Hr Ht. unfold even_times in Ht. apply in_map_iff in Ht as (j & <- & Hj). apply in_seq in Hj.
    assert (N : 0 < INR n) by (apply lt_0_INR; lia). assert (J : INR j <= INR n) by (apply le_INR; lia). pose proof (pos_INR j).
    assert (B : b * INR j / INR n <= b).
    { apply (Rmult_le_reg_r (INR n)); [exact N|]. unfold Rdiv. rewrite Rmult_assoc, Rinv_l by lra. nra. }
    assert (A : 0 <= b * INR j / INR n).
    { unfold Rdiv. apply Rmult_le_pos; [nra|]. apply Rlt_le, Rinv_0_lt_compat, N. }
    rewrite !rle_b_true; [reflexivity| |].
    - apply Rle_trans with (round14 b); [apply round14_mono, B|exact Hr].
    - rewrite <- round14_0. apply round14_mono, A.
  Qed.
  Lemma trip : round14 b <= b ->
    (ht <- imagfrq_ft (even_times b n) ws g b ;; imagtime_ft ws (even_times b n) ht b) = Ok g.
  Proof.
    intros Hr. unfold imagfrq_ft. rewrite HL, Nat.eqb_refl. cbn [negb]. destruct (Req_EM_T b 0); [lra|]. cbn [bind].
    change (map _ (even_times b n)) with (map h (even_times b n)). unfold imagtime_ft.
    rewrite map_length, even_times_length, Nat.eqb_refl. cbn [Nat.eqb negb].
    assert (F : forallb (fun t => rle_b 0 (round14 t) && rle_b (round14 t) b) (even_times b n) = true).
    { apply forallb_forall. intros t Ht. apply inside_ok; assumption. }
    rewrite F. f_equal.
    assert (C : combine (even_times b n) (map h (even_times b n)) = map (fun t => (t, h t)) (even_times b n)).
    { generalize (even_times b n). clear. intros l. induction l as [|t l IH]; [reflexivity|]. cbn. rewrite IH. reflexivity. }
    rewrite C, !map_map. cbn [fst snd]. rewrite map_id.
    apply (nth_ext _ _ c0 c0); [rewrite map_length; symmetry; exact HL|]. rewrite map_length. intros i Hi.
    match goal with |- nth i (map ?f ws) c0 = _ => rewrite (nth_indep _ c0 (f 0)) by (rewrite map_length; exact Hi); rewrite (map_nth f) end.
    cbn beta. rewrite map_map. cbn [fst snd]. rewrite trapz_spec by (rewrite map_length; reflexivity).
    rewrite (trapezoid_ext _ _ (fun j => h (b * INR j / INR n) *c wave (nth i ws 0 * (b * INR j / INR n)))); [apply trip_value, Hi|].
    intros j Hj. rewrite even_times_length in Hj. unfold even_times. rewrite map_map.
    rewrite (nth_map_seq (fun x => h (b * INR x / INR n) *c cexp (nth i ws 0 * (b * INR x / INR n)))) by exact Hj. reflexivity.
  Qed.
End Trip.

(** ** The frequencies of [get_matsubara_frqs] are consecutive *)
Definition frq (fmt : format) (b : R) (z : Z) : R := match fmt with Fermion => (2 * IZR z + 1) * PI / b | _ => 2 * IZR z * PI / b end.
Lemma frq_diff fmt b z z' : frq fmt b z - frq fmt b z' = 2 * PI * IZR (z - z') / b.
Proof. rewrite minus_IZR. unfold frq. destruct fmt; unfold Rdiv; ring. Qed.
Lemma frq_inj fmt b z z' : 0 < b -> frq fmt b z = frq fmt b z' -> z = z'.
Proof.
  intros Hb E. pose proof (frq_diff fmt b z z') as D. rewrite E in D. assert (P := PI_RGT_0).
  assert (E' : IZR (z - z') = 0).
  { assert (X : 2 * PI * IZR (z - z') = 0) by (apply (Rmult_eq_reg_r (/ b)); [unfold Rdiv in D; lra|apply Rinv_neq_0_compat; lra]). nra. }
  apply eq_IZR_R0 in E'. lia.
Qed.
Lemma frq_mono fmt b z z' : 0 < b -> (z <= z')%Z -> frq fmt b z <= frq fmt b z'.
Proof.
  intros Hb H. apply IZR_le in H. assert (P := PI_RGT_0). assert (0 < / b) by (apply Rinv_0_lt_compat; exact Hb).
  assert (0 < PI * / b) by nra.
  unfold frq, Rdiv. destruct fmt; rewrite !Rmult_assoc; [|rewrite <- !Rmult_assoc, !(Rmult_assoc _ PI)|rewrite <- !Rmult_assoc, !(Rmult_assoc _ PI)]; apply Rmult_le_compat_r; lra.
Qed.
Lemma matsubara_cases fmt b m ws : 0 < b -> matsubara_frqs b m fmt = Ok ws -> NoDup ws /\ fmt <> OtherFormat /\
  (forall w, In w ws <-> exists z, w = frq fmt b z /\ (Rabs w < m \/ (fmt = Boson /\ w = 0))).
Proof.
  intros Hb E. assert (S : forall l, increasing l -> NoDup l).
  { clear. intros l H. induction H as [|x l H IH F]; constructor; [|assumption]. intros I. rewrite Forall_forall in F. specialize (F x I). lra. }
  destruct fmt.
  - destruct (fermion_frqs_ok b m Hb) as (l & E' & I & W). rewrite E in E'. injection E' as <-. split; [apply S, I|]. split; [discriminate|].
    intros w. rewrite W. split.
    + intros ((z & Hz) & H). exists z. split; [exact Hz|]. left. exact H.
    + intros (z & Hz & [H|[H _]]); [|discriminate]. split; [exists z; exact Hz|exact H].
  - destruct (boson_frqs_ok b m Hb) as (l & E' & I & W). rewrite E in E'. injection E' as <-. split; [apply S, I|]. split; [discriminate|].
    intros w. rewrite W. split.
    + intros ((z & Hz) & H). exists z. split; [exact Hz|]. destruct H; [left; assumption|right; split; [reflexivity|assumption]].
    + intros (z & Hz & H). split; [exists z; exact Hz|]. destruct H as [H|[_ H]]; [left|right]; assumption.
  - unfold matsubara_frqs in E. destruct Req_EM_T; discriminate.
Qed.
Lemma index_exists fmt b m ws : 0 < b -> matsubara_frqs b m fmt = Ok ws -> exists idx, forall i, (i < length ws)%nat -> nth i ws 0 = frq fmt b (idx i).
Proof.
  intros Hb E. destruct (matsubara_cases fmt b m ws Hb E) as (_ & _ & W). clear E.
  assert (W' : forall w, In w ws -> exists z, w = frq fmt b z) by (intros w Hw; apply W in Hw as (z & H & _); exists z; exact H). clear W.
  induction ws as [|w ws IH]; [exists (fun _ => 0%Z); intros i Hi; cbn in Hi; lia|].
  destruct IH as (idx & H); [intros; apply W'; right; assumption|]. destruct (W' w (or_introl eq_refl)) as (z & Hz).
  exists (fun i => match i with O => z | S j => idx j end). intros [|i] Hi; [exact Hz|]. cbn. apply H. cbn in Hi. lia.
Qed.
Lemma frq_between fmt b m ws z1 z2 z : 0 < b -> matsubara_frqs b m fmt = Ok ws -> In (frq fmt b z1) ws -> In (frq fmt b z2) ws ->
  (z1 <= z <= z2)%Z -> In (frq fmt b z) ws.
Proof.
  intros Hb E H1 H2 Hz. destruct (matsubara_cases fmt b m ws Hb E) as (_ & Hf & W). apply W. exists z. split; [reflexivity|].
  assert (B1 := frq_mono fmt b z1 z Hb ltac:(lia)). assert (B2 := frq_mono fmt b z z2 Hb ltac:(lia)).
  apply W in H1 as (x1 & E1 & H1). apply W in H2 as (x2 & E2 & H2).
  destruct H1 as [H1|[Bo H1]], H2 as [H2|[_ H2]].
  - left. unfold Rabs in *. repeat destruct Rcase_abs; lra.
  - destruct (Req_dec (frq fmt b z) 0) as [Z0|Z0]; [|left; unfold Rabs in *; repeat destruct Rcase_abs; lra].
    destruct fmt; [|right; split; [reflexivity|exact Z0]|contradiction].
    exfalso. apply (fermion_not_0 b (frq Fermion b z)); [assumption|exists z; reflexivity|exact Z0].
  - destruct (Req_dec (frq fmt b z) 0) as [Z0|Z0]; [right; split; assumption|left; unfold Rabs in *; repeat destruct Rcase_abs; lra].
  - right. split; [exact Bo|lra].
Qed.
Lemma index_near fmt b m ws z1 z2 : 0 < b -> matsubara_frqs b m fmt = Ok ws -> In (frq fmt b z1) ws -> In (frq fmt b z2) ws ->
  (z2 - z1 < Z.of_nat (length ws))%Z.
Proof.
  intros Hb E H1 H2. destruct (Z_lt_le_dec z2 z1); [assert (length ws <> 0)%nat by (destruct ws; [destruct H1|discriminate]); lia|].
  set (lw := map (fun k => frq fmt b (z1 + Z.of_nat k)) (seq 0 (Z.to_nat (z2 - z1 + 1)))).
  assert (L : (length lw <= length ws)%nat).
  { apply NoDup_incl_length.
    - unfold lw. apply FinFun.Injective_map_NoDup; [|apply seq_NoDup]. intros x y H. apply frq_inj in H; [lia|assumption].
    - intros w Hw. unfold lw in Hw. apply in_map_iff in Hw as (k & <- & Hk). apply in_seq in Hk.
      apply (frq_between fmt b m ws z1 z2); try assumption. lia. }
  unfold lw in L. rewrite map_length, seq_length in L. lia.
Qed.

Lemma round_trip fmt b m ws g n : 0 < b -> round14 b <= b -> matsubara_frqs b m fmt = Ok ws -> length g = length ws ->
  (1 <= n)%nat -> (length ws <= n)%nat ->
  (ht <- imagfrq_ft (even_times b n) ws g b ;; imagtime_ft ws (even_times b n) ht b) = Ok g.
Proof.
  intros Hb Hr E HL Hn Hw. destruct (index_exists fmt b m ws Hb E) as (idx & I). destruct (matsubara_cases fmt b m ws Hb E) as (N & _ & _).
  apply (trip b n ws g idx); try assumption.
  - intros i j Hi Hj. rewrite !I by assumption. apply frq_diff.
  - intros i j Hi Hj. assert (A : In (frq fmt b (idx i)) ws) by (rewrite <- I by assumption; apply nth_In, Hi).
    assert (B : In (frq fmt b (idx j)) ws) by (rewrite <- I by assumption; apply nth_In, Hj).
    pose proof (index_near fmt b m ws _ _ Hb E A B). pose proof (index_near fmt b m ws _ _ Hb E B A). lia.
  - intros i j Hi Hj Hij. apply (proj1 (NoDup_nth ws 0) N); try assumption. rewrite !I by assumption. rewrite Hij. reflexivity.
Qed.

(** At inverse temperature 2/3 the last time is rounded up and dropped. *)
Lemma last_time_dropped : exists b m ws g, 0 < b /\ matsubara_frqs b m Boson = Ok ws /\ length g = length ws /\ (length ws <= 1)%nat /\
  exists r, (ht <- imagfrq_ft (even_times b 1) ws g b ;; imagtime_ft ws (even_times b 1) ht b) = Ok r /\ r <> g.
Proof.
  exists (2 / 3), 0, [0], [c1]. split; [lra|]. split; [|split; [reflexivity|split; [cbn; lia|]]].
  - unfold matsubara_frqs. destruct (Req_EM_T (2 / 3) 0); [lra|]. assert (P := PI_RGT_0). assert (A : arange (2 * PI / (2 / 3)) 0 (2 * PI / (2 / 3)) = []).
    { destruct (arange (2 * PI / (2 / 3)) 0 (2 * PI / (2 / 3))) as [|x l] eqn:E; [reflexivity|]. exfalso.
      assert (H : In x (arange (2 * PI / (2 / 3)) 0 (2 * PI / (2 / 3)))) by (rewrite E; left; reflexivity).
      apply arange_in in H as (i & -> & H); [|lra]. pose proof (pos_INR i). nra. }
    rewrite A. reflexivity.
  - exists [c0]. split; [|intros E; injection E as E; lra].
    unfold imagfrq_ft. cbn [length Nat.eqb negb]. destruct (Req_EM_T (2 / 3) 0); [lra|]. cbn [bind].
    unfold imagtime_ft. rewrite map_length, even_times_length. cbn [Nat.eqb negb].
    assert (T : even_times (2 / 3) 1 = [0; 2 / 3]).
    { unfold even_times. cbn [seq map INR]. f_equal; [field|]. f_equal. field. }
    assert (I0 : rle_b 0 (round14 0) && rle_b (round14 0) (2 / 3) = true).
    { rewrite round14_0. rewrite !rle_b_true by lra. reflexivity. }
    assert (I1 : rle_b 0 (round14 (2 / 3)) && rle_b (round14 (2 / 3)) (2 / 3) = false).
    { rewrite (rle_b_false (round14 (2 / 3))); [apply andb_false_r|].
      unfold round14. pose proof ten14_pos as P14. assert (E14 : ten14 = 3 * IZR 33333333333333 + 1) by (unfold ten14; cbn [pow]; lra).
      assert (Q : round_z (2 / 3 * ten14) = 66666666666667%Z).
      { pose proof (near_bounds (2 / 3 * ten14)) as [H1 H2]. rewrite E14 in H1, H2 |- *.
        assert (A : IZR (round_z (2 / 3 * (3 * IZR 33333333333333 + 1))) < IZR (66666666666668)) by lra.
        assert (B : IZR (66666666666666) < IZR (round_z (2 / 3 * (3 * IZR 33333333333333 + 1)))) by lra.
        apply lt_IZR in A, B. lia. }
      rewrite Q. apply (Rmult_lt_reg_r ten14); [exact P14|]. unfold Rdiv at 2. rewrite Rmult_assoc, Rinv_l by lra. rewrite E14. lra. }
    rewrite T. cbn [forallb map combine filter fst]. rewrite I0, I1. cbn [andb]. cbn [map filter fst snd trapz]. reflexivity.
Qed.

(** ** Periodicity and reality of the transform of frequencies *)
Lemma ft_ok taus ws g b : b <> 0 -> length g = length ws ->
  imagfrq_ft taus ws g b = Ok (map (fun t => re (1 / b) *c klsum (seq 0 (length ws)) (fun i => nth i g c0 *c wave (- (nth i ws 0 * t)))) taus).
Proof.
  intros Hb HL. unfold imagfrq_ft. rewrite HL, Nat.eqb_refl. cbn [negb]. destruct Req_EM_T; [contradiction|]. f_equal. apply map_ext. intros t.
  rewrite (klsum_combine_nth ws g 0 c0) by exact HL. cbn [fst snd]. change (re (1 / b)) with (real (1 / b)).
  change cr_mul with (@kmul CR _). match goal with |- ?x *c ?y = _ => transitivity (y *c x); [ring|reflexivity] end.
Qed.
