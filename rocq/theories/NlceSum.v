(** The linked cluster weights and Euler's summation. *)
From Coq Require Import List Arith Lia Reals Lra.
From Verif Require Import Res ModelNlceSum SpecNlce.
Import ListNotations.
Local Open Scope R_scope.

(** ** Sums *)
Lemma rsum_ext n f g : (forall k, (k < n)%nat -> f k = g k) -> rsum n f = rsum n g.
Proof. induction n as [|n IH]; intros H; cbn [rsum]; [reflexivity|]. rewrite IH, (H n) by (intros; try apply H; lia). reflexivity. Qed.
Lemma rsum_zero n f : (forall k, (k < n)%nat -> f k = 0) -> rsum n f = 0.
Proof. intros H. rewrite (rsum_ext n f (fun _ => 0) H). induction n as [|n IH]; cbn [rsum]; [reflexivity|]. rewrite IH by (intros; apply H; lia). ring. Qed.
Lemma rsum_add n f g : rsum n (fun k => f k + g k) = rsum n f + rsum n g.
Proof. induction n as [|n IH]; cbn [rsum]; [ring|]. rewrite IH. ring. Qed.
Lemma rsum_scale n c f : rsum n (fun k => c * f k) = c * rsum n f.
Proof. induction n as [|n IH]; cbn [rsum]; [ring|]. rewrite IH. ring. Qed.
Lemma rsum_split m n f : rsum (m + n) f = rsum m f + rsum n (fun k => f (m + k)%nat).
Proof.
  induction n as [|n IH]; cbn [rsum]; [rewrite Nat.add_0_r; ring|]. replace (m + S n)%nat with (S (m + n)) by lia. cbn [rsum]. rewrite IH. ring.
Qed.
Lemma rsum_first n f : rsum (S n) f = f O + rsum n (fun k => f (S k)).
Proof. replace (S n) with (1 + n)%nat by lia. rewrite rsum_split. cbn [rsum Nat.add]. ring. Qed.
Lemma rsum_swap m n f : rsum m (fun i => rsum n (fun j => f i j)) = rsum n (fun j => rsum m (fun i => f i j)).
Proof.
  induction m as [|m IH]; cbn [rsum]; [rewrite rsum_zero; reflexivity|]. rewrite IH, <- rsum_add. reflexivity.
Qed.
Lemma fold_seq f n : fold_right Rplus 0 (map f (seq 0 n)) = rsum n f.
Proof.
  induction n as [|n IH]; cbn [rsum]; [reflexivity|]. rewrite seq_S, map_app, <- IH. cbn [Nat.add map]. generalize (map f (seq 0 n)).
  induction l as [|x l IHl]; cbn [app fold_right]; [ring|]. rewrite IHl. ring.
Qed.
Lemma dot_rsum xs : forall ys n, (length xs <= n)%nat -> dot xs ys = rsum n (fun k => nth k xs 0 * nth k ys 0).
Proof.
  unfold dot. induction xs as [|x xs IH]; intros ys n Hn.
  - cbn. symmetry. apply rsum_zero. intros [|k] _; ring.
  - destruct n as [|n]; [cbn in Hn; lia|]. rewrite rsum_first. destruct ys as [|y ys]; cbn [combine map fold_right nth].
    + rewrite rsum_zero; [ring|]. intros k _. destruct k; ring.
    + cbn [fst snd]. rewrite (IH ys n) by (cbn in Hn; lia). reflexivity.
Qed.
Lemma list_sum_rsum l : fold_right Rplus 0 l = rsum (length l) (fun k => nth k l 0).
Proof. induction l as [|x l IH]; [reflexivity|]. cbn [fold_right length]. rewrite rsum_first, IH. reflexivity. Qed.

(** ** Weights *)
Lemma set_at_length k x l : length (set_at k x l) = length l.
Proof. revert k. induction l as [|y l IH]; intros [|k]; cbn; auto. Qed.
Lemma set_at_nth k x l j : (k < length l)%nat -> nth j (set_at k x l) 0 = if Nat.eq_dec j k then x else nth j l 0.
Proof.
  revert k j. induction l as [|y l IH]; intros k j Hk; cbn [length] in Hk; [lia|]. destruct k as [|k], j as [|j]; cbn [set_at nth].
  - destruct (Nat.eq_dec 0 0); [reflexivity|lia].
  - destruct (Nat.eq_dec (S j) 0); [lia|reflexivity].
  - destruct (Nat.eq_dec 0 (S k)); [lia|reflexivity].
  - rewrite IH by lia. destruct (Nat.eq_dec j k), (Nat.eq_dec (S j) (S k)); try lia; reflexivity.
Qed.

Lemma nlce_weights_ok sc vals : let n := length vals in
  (n <= length sc)%nat -> (forall i, (i < n)%nat -> length (nth i sc []) = n) ->
  exists w, nlce_weights sc vals = Ok w /\ length w = n /\
    forall i, (i < n)%nat -> nth i vals 0 = nth i w 0 + rsum i (fun j => ment sc i j * nth j w 0).
Proof.
  intros n Hr Hc. unfold nlce_weights. fold n.
  assert (K : forall m, (m <= n)%nat -> exists w,
    rfold (fun w ii => match nth_error sc ii with
      | None => Raise IndexError
      | Some row => if (length row =? n)%nat then Ok (set_at ii (nth ii vals 0 - dot row w) w) else Raise ValueError
      end) (seq 0 m) (repeat 0 n) = Ok w /\ length w = n /\
    (forall i, (i < m)%nat -> nth i vals 0 = nth i w 0 + rsum i (fun j => ment sc i j * nth j w 0)) /\
    (forall i, (m <= i)%nat -> nth i w 0 = 0)).
  { induction m as [|m IH]; intros Hm.
    - exists (repeat 0 n). split; [reflexivity|]. split; [apply repeat_length|]. split; [intros; lia|]. intros i _. apply nth_repeat.
    - destruct (IH ltac:(lia)) as (w & E & L & H1 & H2). rewrite seq_S, rfold_app, E. cbn [bind rfold Nat.add].
      rewrite (nth_error_nth' sc []) by lia. rewrite Hc by lia. rewrite Nat.eqb_refl. cbn [bind].
      eexists. split; [reflexivity|]. split; [rewrite set_at_length; exact L|].
      assert (D : dot (nth m sc []) w = rsum m (fun j => ment sc m j * nth j w 0)).
      { rewrite (dot_rsum _ w n) by (rewrite Hc by lia; lia). replace n with (m + (n - m))%nat by lia. rewrite rsum_split.
        rewrite (rsum_zero (n - m)); [unfold ment; ring|]. intros k _. rewrite H2 by lia. ring. }
      split.
      + intros i Hi. rewrite (rsum_ext i _ (fun j => ment sc i j * nth j w 0)).
        * rewrite set_at_nth by lia. destruct (Nat.eq_dec i m) as [->|Him]; [rewrite D; ring|]. apply H1. lia.
        * intros k Hk. rewrite set_at_nth by lia. destruct (Nat.eq_dec k m); [lia|reflexivity].
      + intros i Hi. rewrite set_at_nth by lia. destruct (Nat.eq_dec i m); [lia|]. apply H2. lia. }
  destruct (K n (le_n _)) as (w & E & L & H1 & _). exists w. auto.
Qed.


Lemma slice_nth {A} a b (l : list A) k d : (a + k < b)%nat -> nth k (slice a b l) d = nth (a + k) l d.
Proof.
  intros H. unfold slice. assert (E : forall n k (l : list A), (k < n)%nat -> nth k (firstn n l) d = nth k l d).
  { clear. induction n as [|n IH]; intros k l Hk; [lia|]. destruct l as [|x l]; [destruct k; reflexivity|]. destruct k; cbn; [reflexivity|]. apply IH. lia. }
  rewrite E by lia. clear. revert l. induction a as [|a IH]; intros l; [reflexivity|]. destruct l as [|x l]; cbn [skipn]; [destruct k; reflexivity|]. cbn. apply IH.
Qed.
Lemma slice_length {A} a b (l : list A) : (length (slice a b l) <= b - a)%nat.
Proof. unfold slice. apply firstn_le_length. Qed.
Lemma dot_slice a b xs ys : dot (slice a b xs) (slice a b ys) = rsum (b - a) (fun k => nth (a + k) xs 0 * nth (a + k) ys 0).
Proof.
  rewrite (dot_rsum _ _ (b - a)) by apply slice_length. apply rsum_ext. intros k Hk. rewrite !slice_nth by lia. reflexivity.
Qed.
Lemma sum_blocks (s : nat -> nat) m f : (forall k, (k < m)%nat -> (s k <= s (S k))%nat) ->
  rsum m (fun k => rsum (s (S k) - s k) (fun i => f (s k + i)%nat)) = rsum (s m - s O) (fun i => f (s O + i)%nat).
Proof.
  induction m as [|m IH]; intros H; cbn [rsum]; [replace (s O - s O)%nat with O by lia; reflexivity|].
  rewrite IH by (intros; apply H; lia). assert (H0 : (s O <= s m)%nat).
  { clear -H. induction m as [|m IH]; [lia|]. etransitivity; [apply IH; intros; apply H; lia|]. apply H. lia. }
  pose proof (H m ltac:(lia)). replace (s (S m) - s O)%nat with ((s m - s O) + (s (S m) - s m))%nat by lia. rewrite rsum_split. f_equal.
  apply rsum_ext. intros k Hk. f_equal. lia.
Qed.

Lemma nlce_exp_val_ok vals sc mult inds nsites : let n := length vals in
  (0 < n)%nat -> (0 < nsites)%nat -> (n <= length sc)%nat -> (forall i, (i < n)%nat -> length (nth i sc []) = n) -> length mult = n ->
  exists total orders w, nlce_exp_val vals sc mult inds nsites = Ok (total, orders, w) /\
    length w = n /\ length orders = (length inds - 1)%nat /\
    (forall i, (i < n)%nat -> nth i vals 0 = nth i w 0 + rsum i (fun j => ment sc i j * nth j w 0)) /\
    total * INR nsites = rsum n (fun j => nth j mult 0 * nth j w 0) /\
    (forall k, (k < length inds - 1)%nat -> nth k orders 0 * INR nsites =
       rsum (nth (S k) inds O - nth k inds O) (fun j => nth (nth k inds O + j) mult 0 * nth (nth k inds O + j) w 0)) /\
    ((2 <= length inds)%nat -> nth 0 inds O = O -> nth (length inds - 1) inds O = n ->
     (forall k, (k < length inds - 1)%nat -> (nth k inds O <= nth (S k) inds O)%nat) -> fold_right Rplus 0 orders = total).
Proof.
  intros n Hn Hs Hr Hc Hm. unfold nlce_exp_val. destruct (nlce_weights_ok sc vals Hr Hc) as (w & -> & L & H). fold n in L, H |- *. cbn [bind].
  rewrite Hm, Nat.eqb_refl. cbn [negb]. destruct (Nat.eqb_spec nsites 0) as [|_]; [lia|]. destruct (Nat.eqb_spec n 0) as [|_]; [lia|].
  assert (NZ : INR nsites <> 0) by (apply not_0_INR; lia).
  set (ord := fun ii => _ / _).
  assert (EO : forall k, (k < length inds - 1)%nat -> nth k (map ord (seq 0 (length inds - 1))) 0 = ord k).
  { intros k Hk. rewrite (nth_indep _ 0 (ord O)) by (rewrite map_length, seq_length; exact Hk). rewrite map_nth, seq_nth by exact Hk. reflexivity. }
  assert (EOK : forall k, ord k * INR nsites = rsum (nth (S k) inds O - nth k inds O) (fun j => nth (nth k inds O + j) mult 0 * nth (nth k inds O + j) w 0)).
  { intros k. unfold ord. rewrite dot_slice. field. exact NZ. }
  eexists _, _, w. split; [reflexivity|]. split; [exact L|]. split; [rewrite map_length, seq_length; reflexivity|]. split; [exact H|]. split; [|split].
  - rewrite (dot_rsum _ _ n) by lia. field. exact NZ.
  - intros k Hk. rewrite EO by exact Hk. apply EOK.
  - intros H2 I0 In_ Hmono. rewrite fold_seq. apply (Rmult_eq_reg_r (INR nsites)); [|exact NZ].
    rewrite Rmult_comm, <- rsum_scale. rewrite (rsum_ext _ _ (fun k => rsum (nth (S k) inds O - nth k inds O) (fun j => nth (nth k inds O + j) mult 0 * nth (nth k inds O + j) w 0))).
    + rewrite (sum_blocks (fun k => nth k inds O) _ (fun j => nth j mult 0 * nth j w 0) Hmono). rewrite I0, In_, Nat.sub_0_r.
      rewrite (dot_rsum _ _ n) by lia. cbn [Nat.add]. field. exact NZ.
    + intros k Hk. rewrite Rmult_comm. apply EOK.
Qed.

(** The weights invert the sums over parts. *)
Lemma weights_invert sc vals w n : strictly_lower sc ->
  (forall i, (i < n)%nat -> nth i vals 0 = nth i w 0 + rsum i (fun j => ment sc i j * nth j w 0)) ->
  forall i, (i < n)%nat -> nth i vals 0 = nth i w 0 + rsum n (fun j => ment sc i j * nth j w 0).
Proof.
  intros S H i Hi. rewrite (H i Hi). f_equal. replace n with (i + (n - i))%nat by lia. rewrite rsum_split.
  rewrite (rsum_zero (n - i)); [ring|]. intros k _. rewrite S by lia. ring.
Qed.
Lemma weights_unique sc n (v w u : nat -> R) : strictly_lower sc ->
  (forall i, (i < n)%nat -> v i = w i + rsum n (fun j => ment sc i j * w j)) ->
  (forall i, (i < n)%nat -> v i = u i + rsum n (fun j => ment sc i j * u j)) ->
  forall i, (i < n)%nat -> w i = u i.
Proof.
  intros S Hw Hu i. induction i as [i IH] using lt_wf_ind. intros Hi.
  assert (E : rsum n (fun j => ment sc i j * w j) = rsum n (fun j => ment sc i j * u j)).
  { apply rsum_ext. intros k Hk. destruct (Nat.lt_ge_cases k i) as [Hki|Hki]; [rewrite (IH k Hki Hk); reflexivity|]. rewrite S by lia. ring. }
  specialize (Hw i Hi). specialize (Hu i Hi). rewrite E in Hw. lra.
Qed.

(** ** Euler's summation *)
Section Euler.
  Context (y : R) (Hy : 0 < y).
  Definition eterm (j i : nat) : R := INR (choose i j) * y ^ (S j) * / (1 + y) ^ (S i).
  Definition eweight (j n : nat) : R := rsum n (eterm j).
  Lemma choose_0 n : choose n 0 = 1%nat. Proof. destruct n; reflexivity. Qed.
  Lemma choose_out n : forall k, (n < k)%nat -> choose n k = O.
  Proof. induction n as [|n IH]; intros [|k] Hk; try lia; [reflexivity|]. cbn [choose]. rewrite !IH by lia. reflexivity. Qed.

  Lemma euler_sum xs n : (length xs <= n)%nat ->
    fst (euler_resum y xs) = rsum n (fun j => eweight j (length xs) * nth j xs 0).
  Proof.
    intros Hn. unfold euler_resum. cbn [fst]. rewrite fold_seq.
    rewrite (rsum_ext (length xs) _ (fun i => rsum n (fun j => eterm j i * nth j xs 0))).
    - rewrite rsum_swap. apply rsum_ext. intros j _. unfold eweight. rewrite Rmult_comm, <- rsum_scale. apply rsum_ext. intros; ring.
    - intros i Hi. unfold euler_term. rewrite (dot_rsum _ _ (S i)) by (rewrite map_length, seq_length; lia).
      rewrite <- rsum_scale. replace n with (S i + (n - S i))%nat by lia. rewrite rsum_split. rewrite (rsum_zero (n - S i)).
      + rewrite Rplus_0_r. apply rsum_ext. intros k Hk. unfold eterm.
        rewrite (nth_indep (map _ _) 0 (INR (choose i 0) * y ^ 1)) by (rewrite map_length, seq_length; exact Hk).
        rewrite (map_nth (fun jj => INR (choose i jj) * y ^ S jj)), seq_nth by exact Hk. cbn [Nat.add].
        assert (E : nth k (firstn (S i) xs) 0 = nth k xs 0).
        { pose proof (slice_nth 0 (S i) xs k 0 Hk) as E. unfold slice in E. rewrite Nat.sub_0_r in E. exact E. }
        rewrite E. ring.
      + intros k _. unfold eterm. rewrite choose_out by lia. cbn [INR]. ring.
  Qed.

  Lemma y1_pos : 0 < 1 + y. Proof. lra. Qed.
  Lemma eterm_pos j i : 0 <= eterm j i.
  Proof.
    unfold eterm. apply Rmult_le_pos; [apply Rmult_le_pos; [apply pos_INR|apply Rlt_le, pow_lt, Hy]|].
    apply Rlt_le, Rinv_0_lt_compat, pow_lt, y1_pos.
  Qed.
  Lemma eterm_0 i : eterm 0 (S i) = / (1 + y) * eterm 0 i.
  Proof. unfold eterm. rewrite !choose_0. cbn [INR pow]. pose proof y1_pos. field. split; [apply pow_nonzero; lra|lra]. Qed.
  Lemma eterm_S j i : eterm (S j) (S i) = y / (1 + y) * eterm j i + / (1 + y) * eterm (S j) i.
  Proof.
    unfold eterm. cbn [choose]. rewrite plus_INR. cbn [pow]. pose proof y1_pos. field. split; [apply pow_nonzero; lra|lra].
  Qed.
  Lemma eweight_0 n : eweight 0 (S n) = y / (1 + y) + / (1 + y) * eweight 0 n.
  Proof.
    unfold eweight. rewrite rsum_first. rewrite (rsum_ext n _ (fun k => / (1 + y) * eterm 0 k)) by (intros; apply eterm_0). rewrite rsum_scale.
    f_equal. unfold eterm. cbn. pose proof y1_pos. field. lra.
  Qed.
  Lemma eweight_S j n : eweight (S j) (S n) = y / (1 + y) * eweight j n + / (1 + y) * eweight (S j) n.
  Proof.
    unfold eweight. rewrite rsum_first.
    rewrite (rsum_ext n _ (fun k => y / (1 + y) * eterm j k + / (1 + y) * eterm (S j) k)) by (intros; apply eterm_S). rewrite rsum_add, !rsum_scale.
    unfold eterm at 1. cbn. ring.
  Qed.
  Lemma p_q : y / (1 + y) + / (1 + y) = 1. Proof. pose proof y1_pos. field. lra. Qed.
  Lemma p_pos : 0 < y / (1 + y). Proof. apply Rdiv_lt_0_compat; [exact Hy|apply y1_pos]. Qed.
  Lemma q_pos : 0 < / (1 + y). Proof. apply Rinv_0_lt_compat, y1_pos. Qed.

  Lemma eweight_bounds n : forall j, 0 <= eweight j n <= 1.
  Proof.
    pose proof p_q. pose proof p_pos. pose proof q_pos. set (p := y / (1 + y)) in *. set (q := / (1 + y)) in *.
    induction n as [|n IH]; intros j; [cbn; lra|]. destruct j as [|j].
    - rewrite eweight_0. fold p q. pose proof (IH O). split.
      + assert (0 <= q * eweight 0 n) by (apply Rmult_le_pos; lra). lra.
      + assert (q * eweight 0 n <= q * 1) by (apply Rmult_le_compat_l; lra). lra.
    - rewrite eweight_S. fold p q. pose proof (IH j). pose proof (IH (S j)). split.
      + assert (0 <= p * eweight j n) by (apply Rmult_le_pos; lra). assert (0 <= q * eweight (S j) n) by (apply Rmult_le_pos; lra). lra.
      + assert (p * eweight j n <= p * 1) by (apply Rmult_le_compat_l; lra). assert (q * eweight (S j) n <= q * 1) by (apply Rmult_le_compat_l; lra). lra.
  Qed.
  Lemma eweight_grows j : Un_growing (eweight j).
  Proof. intros n. unfold eweight. cbn [rsum]. pose proof (eterm_pos j n). lra. Qed.
  Lemma eweight_cv j : exists l, Un_cv (eweight j) l.
  Proof.
    destruct (growing_cv (eweight j) (eweight_grows j)) as [l Hl]; [|exists l; exact Hl].
    exists 1. intros x (n & ->). apply eweight_bounds.
  Qed.
  Lemma cv_shift u l : Un_cv u l -> Un_cv (fun n => u (S n)) l.
  Proof. intros H e He. destruct (H e He) as (N & HN). exists N. intros n Hn. apply HN. lia. Qed.
  Lemma cv_ext u v l : (forall n, u n = v n) -> Un_cv u l -> Un_cv v l.
  Proof. intros E H e He. destruct (H e He) as (N & HN). exists N. intros n Hn. rewrite <- E. apply HN. exact Hn. Qed.
  Lemma cv_const c : Un_cv (fun _ => c) c.
  Proof. intros e He. exists O. intros n _. unfold R_dist. replace (c - c) with 0 by ring. rewrite Rabs_R0. exact He. Qed.

  Lemma eweight_limit j : Un_cv (eweight j) 1.
  Proof.
    pose proof p_q as PQ. pose proof p_pos as PP. set (p := y / (1 + y)) in *. set (q := / (1 + y)) in *.
    assert (STEP : forall u v, Un_cv v 1 -> (exists l, Un_cv u l) -> (forall n, u (S n) = p * v n + q * u n) -> Un_cv u 1).
    { intros u v Hv (l & Hl) E.
      assert (H : Un_cv (fun n => p * v n + q * u n) (p * 1 + q * l)).
      { apply (CV_plus (fun n => p * v n) (fun n => q * u n)); apply (CV_mult (fun _ => _) _); try apply cv_const; assumption. }
      pose proof (UL_sequence _ _ _ (cv_ext _ _ _ E (cv_shift _ _ Hl)) H) as EL.
      assert (l = 1). { assert (l = p + (1 - p) * l) by (replace (1 - p) with q by lra; lra). assert (p * l = p * 1) by lra. apply (Rmult_eq_reg_l p); lra. }
      subst. exact Hl. }
    induction j as [|j IH].
    - apply (STEP _ (fun _ => 1)); [apply cv_const|apply eweight_cv|]. intros n. rewrite eweight_0. fold p q. ring.
    - apply (STEP _ (eweight j)); [exact IH|apply eweight_cv|]. intros n. apply eweight_S.
  Qed.

  Lemma cv_rsum n (u : nat -> nat -> R) l : (forall j, (j < n)%nat -> Un_cv (u j) (l j)) -> Un_cv (fun m => rsum n (fun j => u j m)) (rsum n l).
  Proof.
    induction n as [|n IH]; intros H; cbn [rsum]; [apply cv_const|].
    apply (CV_plus (fun m => rsum n (fun j => u j m)) (u n)); [apply IH; intros; apply H; lia|apply H; lia].
  Qed.

  Lemma euler_converges xs : Un_cv (fun k => fst (euler_resum y (xs ++ repeat 0 k))) (fold_right Rplus 0 xs).
  Proof.
    rewrite list_sum_rsum.
    apply (cv_ext (fun k => rsum (length xs) (fun j => eweight j (length xs + k) * nth j xs 0))).
    - intros k. rewrite (euler_sum _ (length xs + k)) by (rewrite app_length, repeat_length; lia). rewrite app_length, repeat_length, rsum_split.
      rewrite (rsum_zero k).
      + rewrite Rplus_0_r. apply rsum_ext. intros j Hj. rewrite app_nth1 by exact Hj. reflexivity.
      + intros j _. rewrite app_nth2 by lia. rewrite nth_repeat. ring.
    - apply cv_rsum. intros j _. 
      rewrite <- (Rmult_1_l (nth j xs 0)). apply (cv_ext (fun k => eweight j (length xs + k) * nth j xs 0)); [intros; ring|].
      apply (CV_mult (fun k => eweight j (length xs + k)) (fun _ => nth j xs 0)); [|apply cv_const].
      intros e He. destruct (eweight_limit j e He) as (N & HN). exists N. intros n Hn. apply HN. lia.
  Qed.
  Lemma euler_weights n : exists ws, length ws = n /\ (forall j, (j < n)%nat -> 0 <= nth j ws 0 <= 1) /\
    forall xs, length xs = n -> fst (euler_resum y xs) = dot ws xs.
  Proof.
    exists (map (fun j => eweight j n) (seq 0 n)). split; [rewrite map_length, seq_length; reflexivity|].
    assert (E : forall j, (j < n)%nat -> nth j (map (fun j => eweight j n) (seq 0 n)) 0 = eweight j n).
    { intros j Hj. rewrite (nth_indep _ 0 (eweight O n)) by (rewrite map_length, seq_length; exact Hj). rewrite (map_nth (fun j => eweight j n)), seq_nth by exact Hj. reflexivity. }
    split.
    - intros j Hj. rewrite E by exact Hj. apply eweight_bounds.
    - intros xs Hl. rewrite (euler_sum xs n) by lia. rewrite (dot_rsum _ _ n) by (rewrite map_length, seq_length; lia). apply rsum_ext. intros j Hj.
      rewrite E by exact Hj. rewrite Hl. reflexivity.
  Qed.
  Lemma euler_terms xs : snd (euler_resum y xs) = map (euler_term y xs) (seq 0 (length xs)) /\ fst (euler_resum y xs) = fold_right Rplus 0 (snd (euler_resum y xs)).
  Proof. split; reflexivity. Qed.
End Euler.
