(** Level statistics of the example with a tilted lattice. *)
From Coq Require Import List Arith Lia Reals Lra Bool Permutation.
From Verif Require Import ModelThermal SpecThermal SpecRatios ModelRatios.
Import ListNotations.
Local Open Scope R_scope.

Lemma combine_tl : forall {A} (d : A) (l : list A), combine (tl l) (removelast l) = map (fun k => (nth (k + 1) l d, nth k l d)) (seq 0 (length l - 1)).
Proof.
  intros A d l. induction l as [|x l IH]; [reflexivity|]. destruct l as [|y l]; [reflexivity|].
  change (tl (x :: y :: l)) with (y :: l). change (removelast (x :: y :: l)) with (x :: removelast (y :: l)).
  change (combine (y :: l) (x :: removelast (y :: l))) with ((y, x) :: combine (tl (y :: l)) (removelast (y :: l))). rewrite IH.
  replace (length (x :: y :: l) - 1)%nat with (S (length (y :: l) - 1)) by (cbn; lia). cbn [seq map]. f_equal. rewrite <- seq_shift, map_map. reflexivity.
Qed.
Lemma diffs_map : forall E, diffs E = map (fun k => nth (k + 1) E 0 - nth k E 0) (seq 0 (length E - 1)).
Proof. intros E. unfold diffs. rewrite (combine_tl 0), map_map. reflexivity. Qed.
Lemma nth_map_seq : forall (f : nat -> R) n k, (k < n)%nat -> nth k (map f (seq 0 n)) 0 = f k.
Proof. intros f n k Hk. rewrite (nth_indep _ 0 (f 0%nat)) by (rewrite map_length, seq_length; exact Hk). rewrite map_nth, seq_nth by exact Hk. reflexivity. Qed.
Definition one (g : num) : num := match np_min g (np_inverse g) with NaN => Fin 0 | x => x end.
Lemma rn_map : forall E, rn E = map (fun k => one (np_divide (nth (k + 2) E 0 - nth (k + 1) E 0) (nth (k + 1) E 0 - nth k E 0))) (seq 0 (length E - 2)).
Proof.
  intros E. unfold rn, gap_ratios. rewrite (combine_tl 0), !map_map. rewrite diffs_map, map_length, seq_length. replace (length E - 1 - 1)%nat with (length E - 2)%nat by lia.
  apply map_ext_in. intros k Hk. apply in_seq in Hk. cbn [fst snd]. rewrite !nth_map_seq by lia. replace (k + 1 + 1)%nat with (k + 2)%nat by lia. reflexivity.
Qed.
Lemma one_divide : forall a b, 0 <= a -> 0 <= b -> one (np_divide b a) = Fin (if Req_EM_T a 0 then 0 else if Req_EM_T b 0 then 0 else Rmin a b / Rmax a b).
Proof.
  intros a b Ha Hb. unfold np_divide, is_zero. destruct (Req_EM_T a 0) as [Za|Za].
  - destruct (Req_EM_T b 0) as [Zb|Zb]; [reflexivity|]. destruct (Rlt_dec 0 b); [reflexivity|lra].
  - unfold one, np_inverse, np_divide, is_zero. destruct (Req_EM_T b 0) as [Zb|Zb].
    + subst b. replace (0 / a) with 0 by (field; exact Za). destruct (Req_EM_T 0 0); [|lra]. destruct (Req_EM_T 1 0); [lra|]. destruct (Rlt_dec 0 1); [|lra]. reflexivity.
    + destruct (Req_EM_T (b / a) 0) as [Z|Z].
      { exfalso. apply (f_equal (Rmult a)) in Z. field_simplify in Z; lra. }
      cbn [np_min]. f_equal. replace (1 / (b / a)) with (a / b) by (field; auto).
      assert (Pa : 0 < a) by lra. assert (Pb : 0 < b) by lra. unfold Rmax, Rmin at 2. destruct (Rle_dec a b) as [L|L].
      * apply Rmin_right. apply Rmult_le_reg_r with (a * b); [apply Rmult_lt_0_compat; assumption|]. field_simplify; nra.
      * apply Rmin_left. apply Rmult_le_reg_r with (a * b); [apply Rmult_lt_0_compat; assumption|]. field_simplify; nra.
Qed.
Lemma sorted_step : forall E k, sorted_list E -> (k + 1 < length E)%nat -> 0 <= nth (k + 1) E 0 - nth k E 0.
Proof. intros E k SE Hk. unfold sorted_list in SE. pose proof (SE k (k + 1)%nat ltac:(lia)). lra. Qed.

Lemma rn_spec : forall E, sorted_list E -> rn E = map (fun k => Fin (spacing_ratio E k)) (seq 0 (length E - 2)).
Proof.
  intros E SE. rewrite rn_map. apply map_ext_in. intros k Hk. apply in_seq in Hk. rewrite one_divide.
  - reflexivity.
  - apply sorted_step; [exact SE|lia].
  - replace (k + 2)%nat with (k + 1 + 1)%nat by lia. apply sorted_step; [exact SE|lia].
Qed.
Lemma ratio_bounds : forall E k, sorted_list E -> (k + 2 < length E)%nat -> 0 <= spacing_ratio E k <= 1.
Proof.
  intros E k SE Hk. unfold spacing_ratio. pose proof (sorted_step E k SE ltac:(lia)) as A. pose proof (sorted_step E (k + 1) SE ltac:(lia)) as B. replace (k + 1 + 1)%nat with (k + 2)%nat in B by lia.
  set (a := nth (k + 1) E 0 - nth k E 0) in *. set (b := nth (k + 2) E 0 - nth (k + 1) E 0) in *.
  destruct (Req_EM_T a 0); [lra|]. destruct (Req_EM_T b 0); [lra|]. assert (Pa : 0 < a) by lra. assert (Pb : 0 < b) by lra.
  unfold Rmin, Rmax. destruct (Rle_dec a b) as [L|L].
  - split; [apply Rlt_le, Rdiv_lt_0_compat; assumption|]. apply Rmult_le_reg_r with b; [exact Pb|]. unfold Rdiv. rewrite Rmult_assoc, Rinv_l by lra. lra.
  - split; [apply Rlt_le, Rdiv_lt_0_compat; assumption|]. apply Rmult_le_reg_r with a; [exact Pa|]. unfold Rdiv. rewrite Rmult_assoc, Rinv_l by lra. lra.
Qed.
Lemma nth_map_R : forall (f : R -> R) l k, (k < length l)%nat -> nth k (map f l) 0 = f (nth k l 0).
Proof. intros f l k Hk. rewrite (nth_indep _ 0 (f 0)) by (rewrite map_length; exact Hk). apply map_nth. Qed.
Lemma min_scale : forall a x y, 0 < a -> Rmin (a * x) (a * y) / Rmax (a * x) (a * y) = Rmin x y / Rmax x y \/ Rmax x y = 0.
Proof.
  intros a x y Ha. destruct (Req_EM_T (Rmax x y) 0) as [Z|Z]; [right; exact Z|left]. revert Z. unfold Rmin, Rmax.
  destruct (Rle_dec x y) as [L|L]; destruct (Rle_dec (a * x) (a * y)) as [M|M]; intros Z; try (field; split; lra); exfalso; nra.
Qed.
Lemma ratio_affine : forall E k a b, sorted_list E -> 0 < a -> (k + 2 < length E)%nat -> spacing_ratio (map (fun e => a * e + b) E) k = spacing_ratio E k.
Proof.
  intros E k a b SE Ha Hk. unfold spacing_ratio. rewrite !nth_map_R by lia.
  pose proof (sorted_step E k SE ltac:(lia)) as A. pose proof (sorted_step E (k + 1) SE ltac:(lia)) as B. replace (k + 1 + 1)%nat with (k + 2)%nat in B by lia.
  replace (a * nth (k + 1) E 0 + b - (a * nth k E 0 + b)) with (a * (nth (k + 1) E 0 - nth k E 0)) by ring.
  replace (a * nth (k + 2) E 0 + b - (a * nth (k + 1) E 0 + b)) with (a * (nth (k + 2) E 0 - nth (k + 1) E 0)) by ring.
  set (x := nth (k + 1) E 0 - nth k E 0) in *. set (y := nth (k + 2) E 0 - nth (k + 1) E 0) in *.
  destruct (Req_EM_T x 0) as [Zx|Zx].
  - destruct (Req_EM_T (a * x) 0) as [_|N]; [reflexivity|]. exfalso. apply N. rewrite Zx. ring.
  - destruct (Req_EM_T (a * x) 0) as [N|_]; [exfalso; nra|]. destruct (Req_EM_T y 0) as [Zy|Zy].
    + destruct (Req_EM_T (a * y) 0) as [_|N]; [reflexivity|]. exfalso. apply N. rewrite Zy. ring.
    + destruct (Req_EM_T (a * y) 0) as [N|_]; [exfalso; nra|]. destruct (min_scale a x y Ha) as [Q|Q]; [exact Q|]. exfalso. unfold Rmax in Q. destruct (Rle_dec x y); lra.
Qed.
Lemma ratio_reverse : forall E k, (k + 2 < length E)%nat -> spacing_ratio (rev (map Ropp E)) k = spacing_ratio E (length E - 3 - k).
Proof.
  intros E k Hk. unfold spacing_ratio. rewrite !rev_nth by (rewrite map_length; lia). rewrite map_length. rewrite !nth_map_R by lia.
  replace (length E - S (k + 1))%nat with (length E - 3 - k + 1)%nat by lia. replace (length E - S k)%nat with (length E - 3 - k + 2)%nat by lia. replace (length E - S (k + 2))%nat with (length E - 3 - k)%nat by lia.
  set (m := (length E - 3 - k)%nat).
  replace (- nth (m + 1) E 0 - - nth (m + 2) E 0) with (nth (m + 2) E 0 - nth (m + 1) E 0) by ring.
  replace (- nth m E 0 - - nth (m + 1) E 0) with (nth (m + 1) E 0 - nth m E 0) by ring.
  rewrite Rmin_comm, Rmax_comm. destruct (Req_EM_T (nth (m + 2) E 0 - nth (m + 1) E 0) 0); destruct (Req_EM_T (nth (m + 1) E 0 - nth m E 0) 0); reflexivity.
Qed.
Lemma map_rev_seq : forall {A} (f : nat -> A) n, map (fun k => f (n - 1 - k)%nat) (seq 0 n) = rev (map f (seq 0 n)).
Proof.
  intros A f n. induction n as [|n IH]; [reflexivity|]. rewrite seq_S at 2. rewrite map_app, rev_app_distr. cbn [map rev app seq]. f_equal; [f_equal; lia|].
  rewrite <- IH, <- seq_shift, map_map. apply map_ext. intros k. f_equal. lia.
Qed.
Lemma sorted_affine : forall E a b, 0 < a -> sorted_list E -> sorted_list (map (fun e => a * e + b) E).
Proof.
  intros E a b Ha SE i j Hij. rewrite map_length in Hij. rewrite !nth_map_R by lia. pose proof (SE i j Hij). nra.
Qed.
Lemma sorted_reverse : forall E, sorted_list E -> sorted_list (rev (map Ropp E)).
Proof.
  intros E SE i j Hij. rewrite rev_length, map_length in Hij. rewrite !rev_nth by (rewrite map_length; lia). rewrite map_length, !nth_map_R by lia.
  pose proof (SE (length E - S j)%nat (length E - S i)%nat ltac:(lia)). lra.
Qed.
Lemma rn_affine : forall E a b, sorted_list E -> 0 < a -> rn (map (fun e => a * e + b) E) = rn E.
Proof.
  intros E a b SE Ha. rewrite !rn_spec by (try apply sorted_affine; assumption). rewrite map_length. apply map_ext_in. intros k Hk. apply in_seq in Hk. f_equal. apply ratio_affine; [exact SE|exact Ha|lia].
Qed.
Lemma rn_reverse : forall E, sorted_list E -> rn (rev (map Ropp E)) = rev (rn E).
Proof.
  intros E SE. rewrite !rn_spec by (try apply sorted_reverse; assumption). rewrite rev_length, map_length, <- map_rev_seq. apply map_ext_in. intros k Hk. apply in_seq in Hk. f_equal.
  rewrite ratio_reverse by lia. f_equal. lia.
Qed.
