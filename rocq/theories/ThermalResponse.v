(** Response functions: proofs. *)
From Coq Require Import List Arith Lia Reals Lra Bool.
From Verif Require Import Scalars Res Matrix SpecMat ModelGeometry ModelPhase ModelSymmetry SymBase ModelBase
  ModelThermal SpecThermal ThermalBase ThermalSectors ThermalBasis.
Import ListNotations.
Local Open Scope R_scope.

(** ** Limits at zero from above *)
Lemma tends_lim f L : tends_at_0 f L <-> limit1_in f (fun x => 0 < x) L 0.
Proof.
  split; intros H eps He; destruct (H eps He) as (d & Hd & X); exists d; split; try exact Hd.
  - intros x (Hx & D). cbn in *. unfold R_dist in *. apply X. rewrite Rminus_0_r, Rabs_right in D by lra. lra.
  - intros T HT. apply (X T). cbn. unfold R_dist. rewrite Rminus_0_r, Rabs_right by lra. split; lra.
Qed.
Lemma tends_ext f g L : (forall T, 0 < T -> f T = g T) -> tends_at_0 f L -> tends_at_0 g L.
Proof. intros H X eps He. destruct (X eps He) as (d & Hd & Y). exists d. split; [exact Hd|]. intros T HT. rewrite <- H by lra. apply Y, HT. Qed.
Lemma tends_const c : tends_at_0 (fun _ => c) c.
Proof. intros eps He. exists 1. split; [lra|]. intros. replace (c - c) with 0 by ring. rewrite Rabs_R0. exact He. Qed.
Lemma tends_plus f g a b : tends_at_0 f a -> tends_at_0 g b -> tends_at_0 (fun T => f T + g T) (a + b).
Proof. rewrite !tends_lim. apply limit_plus. Qed.
Lemma tends_mul f g a b : tends_at_0 f a -> tends_at_0 g b -> tends_at_0 (fun T => f T * g T) (a * b).
Proof. rewrite !tends_lim. apply limit_mul. Qed.
Lemma tends_minus f g a b : tends_at_0 f a -> tends_at_0 g b -> tends_at_0 (fun T => f T - g T) (a - b).
Proof. rewrite !tends_lim. apply limit_minus. Qed.
Lemma tends_total {A} (l : list A) (f : A -> R -> R) (g : A -> R) : (forall a, In a l -> tends_at_0 (f a) (g a)) ->
  tends_at_0 (fun T => total (fun a => f a T) l) (total g l).
Proof.
  induction l as [|a l IH]; intros H; [apply (tends_const 0)|].
  apply (tends_plus (f a) (fun T => total (fun a => f a T) l)).
  - apply H. left. reflexivity.
  - apply IH. intros. apply H. right. assumption.
Qed.
Lemma tends_unique f a b : tends_at_0 f a -> tends_at_0 f b -> a = b.
Proof.
  intros Ha Hb. apply cond_eq. intros eps He.
  destruct (Ha (eps / 2)) as (d & Hd & X); [lra|]. destruct (Hb (eps / 2)) as (d' & Hd' & Y); [lra|].
  set (T := Rmin d d' / 2). assert (0 < Rmin d d') by (apply Rmin_glb_lt; assumption).
  pose proof (Rmin_l d d'). pose proof (Rmin_r d d').
  specialize (X T ltac:(unfold T; lra)). specialize (Y T ltac:(unfold T; lra)).
  replace (a - b) with (- (f T - a) + (f T - b)) by ring.
  eapply Rle_lt_trans; [apply Rabs_triang|]. rewrite Rabs_Ropp. lra.
Qed.

(** ** Probabilities *)
Definition delta0 (n : nat) : R := if (n =? 0)%nat then 1 else 0.
Lemma prob_boltzmann T E n : (n < length E)%nat ->
  prob T E n = boltzmann T (map (fun k => (nth k E 0, if (k =? n)%nat then 1 else 0)) (seq 0 (length E))).
Proof.
  intros Hn. unfold prob, boltzmann. rewrite !total_map. cbn [energy value fst snd]. rewrite (total_nth _ E).
  f_equal.
  assert (X : forall m s, (s <= n < s + m)%nat -> total (fun a => exp (- nth a E 0 / T) * (if (a =? n)%nat then 1 else 0)) (seq s m) = exp (- nth n E 0 / T)).
  { induction m as [|m IH]; intros s Hs; [lia|]. cbn [seq]. rewrite total_cons. destruct (Nat.eqb_spec s n) as [->|Ne].
    - rewrite total_zero; [ring|]. intros a Ha. apply in_seq in Ha. replace (a =? n)%nat with false by (symmetry; apply Nat.eqb_neq; lia). ring.
    - rewrite IH by lia. ring. }
  symmetry. apply X. lia.
Qed.
Lemma prob_limit E n : unique_ground E -> (n < length E)%nat -> tends_at_0 (fun T => prob T E n) (delta0 n).
Proof.
  intros (Ne & U) Hn. apply (tends_ext (fun T => boltzmann T (map (fun k => (nth k E 0, if (k =? n)%nat then 1 else 0)) (seq 0 (length E)))));
    [intros; symmetry; apply prob_boltzmann; exact Hn|].
  set (l := map _ _).
  assert (EL : map energy l = E) by (unfold l; rewrite map_map; cbn [energy fst]; symmetry; apply list_seq).
  replace (delta0 n) with (average_at (nth 0 E 0) l).
  - apply boltzmann_limit. rewrite EL. split; [apply nth_In; lia|].
    intros x Hx. apply (In_nth _ _ 0) in Hx as (k & Hk & <-). destruct k as [|k]; [lra|]. left. apply U. lia.
  - unfold average_at, l. rewrite !total_map. cbn [value snd].
    destruct (length E) as [|N] eqn:EN; [lia|]. cbn [seq]. rewrite !total_cons.
    rewrite !total_zero.
    + unfold at_energy. cbn [energy fst]. destruct (Req_EM_T (nth 0 E 0) (nth 0 E 0)); [|congruence].
      unfold delta0. rewrite (Nat.eqb_sym n 0). destruct (0 =? n)%nat; field.
    + intros k Hk. apply in_seq in Hk. unfold at_energy. cbn [energy fst].
      specialize (U k ltac:(lia)). destruct (Req_EM_T (nth k E 0) (nth 0 E 0)); lra.
    + intros k Hk. apply in_seq in Hk. unfold at_energy. cbn [energy fst].
      specialize (U k ltac:(lia)). destruct (Req_EM_T (nth k E 0) (nth 0 E 0)); lra.
Qed.

(** ** Sums of the model *)
Lemma sum1_total N f : sum1 N f = total f (seq 0 N).
Proof. apply lsum_map. Qed.
Lemma lsum_app l m : lsum (l ++ m) = lsum l + lsum m.
Proof. rewrite !lsum_total. apply total_app. Qed.
Lemma sum2_total N f : sum2 N f = sum_nm N f.
Proof.
  unfold sum2, sum_nm. generalize (seq 0 N) at 2 4 as l. induction l as [|a l IH]; [reflexivity|].
  cbn [flat_map]. rewrite lsum_app, IH, lsum_map, total_cons. reflexivity.
Qed.
Lemma sum_nm_ext N f g : (forall n m, (n < N)%nat -> (m < N)%nat -> f n m = g n m) -> sum_nm N f = sum_nm N g.
Proof. intros H. apply total_ext. intros n Hn. apply total_ext. intros m Hm. apply in_seq in Hn, Hm. apply H; lia. Qed.
Lemma sum_nm_scale N c f : sum_nm N (fun n m => c * f n m) = c * sum_nm N f.
Proof. unfold sum_nm. rewrite <- total_scale. apply total_ext. intros. apply total_scale. Qed.
Lemma sum_nm_add N f g : sum_nm N (fun n m => f n m + g n m) = sum_nm N f + sum_nm N g.
Proof. unfold sum_nm. rewrite <- total_add. apply total_ext. intros. apply total_add. Qed.
Lemma sum_nm_ge0 N f : (forall n m, (n < N)%nat -> (m < N)%nat -> 0 <= f n m) -> 0 <= sum_nm N f.
Proof. intros H. apply total_ge0. intros n Hn. apply total_ge0. intros m Hm. apply in_seq in Hn, Hm. apply H; lia. Qed.
Lemma total_swap {A B} (f : A -> B -> R) l m : total (fun a => total (f a) m) l = total (fun b => total (fun a => f a b) l) m.
Proof.
  induction l as [|a l IH]; [rewrite total_nil; symmetry; apply total_zero; reflexivity|].
  rewrite total_cons, IH, <- total_add. reflexivity.
Qed.
Lemma sum_nm_swap N f : sum_nm N f = sum_nm N (fun n m => f m n).
Proof. unfold sum_nm. apply total_swap. Qed.
Lemma tends_sum_nm N (f : nat -> nat -> R -> R) g : (forall n m, (n < N)%nat -> (m < N)%nat -> tends_at_0 (f n m) (g n m)) ->
  tends_at_0 (fun T => sum_nm N (fun n m => f n m T)) (sum_nm N g).
Proof.
  intros H. unfold sum_nm. apply (tends_total (seq 0 N) (fun n T => total (fun m => f n m T) (seq 0 N))).
  intros n Hn. apply tends_total. intros m Hm. apply in_seq in Hn, Hm. apply H; lia.
Qed.
Lemma sum_first_row N f : (0 < N)%nat -> sum_nm N (fun n m => f n m * delta0 n) = total (f O) (seq 0 N).
Proof.
  intros HN. unfold sum_nm. destruct N as [|N]; [lia|]. change (seq 0 (S N)) with (O :: seq 1 N) at 2. rewrite total_cons.
  rewrite (total_zero _ (seq 1 N)).
  - rewrite Rplus_0_r. apply total_ext. intros. cbn [delta0 Nat.eqb]. ring.
  - intros n Hn. apply in_seq in Hn. apply total_zero. intros. unfold delta0. replace (n =? 0)%nat with false by (symmetry; apply Nat.eqb_neq; lia). ring.
Qed.
Lemma sum_first_col N f : (0 < N)%nat -> sum_nm N (fun n m => f n m * delta0 m) = total (fun n => f n O) (seq 0 N).
Proof. intros HN. rewrite sum_nm_swap. apply (sum_first_row N (fun m n => f n m) HN). Qed.

Lemma pi_pos : 0 < PI.
Proof. apply PI_RGT_0. Qed.
Lemma lor_lorentz w eta amp : lor w eta amp = amp * lorentz eta w.
Proof. unfold lor, lorentz, Rdiv. ring. Qed.
Lemma lorentz_even eta x : lorentz eta (- x) = lorentz eta x.
Proof. unfold lorentz. replace ((- x) ^ 2) with (x ^ 2) by ring. reflexivity. Qed.
Lemma lorentz_pos eta x : 0 < eta -> 0 < lorentz eta x.
Proof.
  intros He. unfold lorentz. assert (0 < eta ^ 2 + x ^ 2) by nra.
  apply Rdiv_lt_0_compat; [|assumption]. apply Rdiv_lt_0_compat; [assumption | apply pi_pos].
Qed.
Lemma lorentz_mono eta x y : 0 < eta -> x ^ 2 <= y ^ 2 -> lorentz eta y <= lorentz eta x.
Proof.
  intros He H. unfold lorentz. unfold Rdiv. apply Rmult_le_compat_l.
  - left. apply Rdiv_lt_0_compat; [assumption | apply pi_pos].
  - apply Rinv_le_contravar; nra.
Qed.

Section Levels.
  Variables (e0 : R) (t : list R).
  Let E := e0 :: t.
  Let N := length E.

  Lemma z_pos T : 0 < total (fun n => exp (- (1 / T) * (nth n E 0 - e0))) (seq 0 N).
  Proof using.
    apply total_pos; [intros; left; apply exp_pos|]. exists O. split; [left; reflexivity | apply exp_pos].
  Qed.
  Lemma prob_shift T n : T <> 0 ->
    exp (- (1 / T) * (nth n E 0 - e0)) = prob T E n * sum1 N (fun n => exp (- (1 / T) * (nth n E 0 - e0))).
  Proof using.
    intros HT. rewrite sum1_total. unfold prob. rewrite (total_nth _ E). fold N.
    assert (X : forall n, exp (- (1 / T) * (nth n E 0 - e0)) = exp (e0 / T) * exp (- nth n E 0 / T)).
    { intros k. rewrite <- exp_plus. f_equal. field. exact HT. }
    rewrite (total_ext (fun n => exp (- (1 / T) * (nth n E 0 - e0))) (fun n => exp (e0 / T) * exp (- nth n E 0 / T)) (seq 0 N)) by (intros; apply X).
    rewrite X, total_scale. field. apply Rgt_not_eq. apply total_pos; [intros; left; apply exp_pos|].
    exists O. split; [left; reflexivity | apply exp_pos].
  Qed.
End Levels.
Lemma prob_ge T E n : 0 <= prob T E n.
Proof.
  unfold prob. destruct E as [|e0 t].
  - cbn [nth]. rewrite total_nil. unfold Rdiv at 1. rewrite Rinv_0. lra.
  - left. apply Rdiv_lt_0_compat; [apply exp_pos|]. apply total_pos; [intros; left; apply exp_pos|].
    exists e0. split; [left; reflexivity | apply exp_pos].
Qed.
Lemma prob_mono T E n m : 0 < T -> nth n E 0 <= nth m E 0 -> prob T E m <= prob T E n.
Proof.
  intros HT H. unfold prob. destruct E as [|e0 t].
  - cbn [nth]. destruct n, m; cbn [nth]; rewrite total_nil; unfold Rdiv; rewrite Rinv_0; lra.
  - unfold Rdiv at 1 3. apply Rmult_le_compat_r.
    + left. apply Rinv_0_lt_compat. apply total_pos; [intros; left; apply exp_pos|].
      exists e0. split; [left; reflexivity | apply exp_pos].
    + destruct H as [H| ->]; [left; apply exp_increasing | right; reflexivity].
      unfold Rdiv. apply Rmult_lt_compat_r; [apply Rinv_0_lt_compat; exact HT | lra].
Qed.

Lemma square_of_ok A E : square_size A (length E) -> square_of A E = true.
Proof. intros (H1 & H2). unfold square_of. rewrite H1, H2, Nat.eqb_refl. reflexivity. Qed.

(** ** Retarded response at zero temperature *)
Definition fmt_sign (f : stat_format) : R := match f with BosonFmt => -1 | FermionFmt => 1 | OtherFmt => 0 end.

Lemma retarded_zero A B E f w eta : square_size A (length E) -> square_size B (length E) -> unique_ground E -> f <> OtherFmt ->
  exists r, response_retarded A B E 0 f w eta = Ok r /\ tends_at_0 (fun T => lehmann (fmt_sign f) A B E T w eta) r.
Proof.
  intros HA HB U Hf. unfold response_retarded.
  assert (FB : match f with BosonFmt => Ok (-1) | FermionFmt => Ok 1 | OtherFmt => Raise GenericException end = Ok (fmt_sign f))
    by (destruct f; [reflexivity | reflexivity | congruence]).
  rewrite FB. cbn [bind]. rewrite !square_of_ok by assumption. cbn [andb negb].
  destruct E as [|e0 t] eqn:EE; [destruct U; congruence|]. rewrite <- EE in *. rewrite is_zero_0.
  eexists. split; [reflexivity|]. set (s := fmt_sign f).
  set (a := fun n m => fst (@kmul CR _ (ent A n m) (ent B m n))).
  set (N := length E). assert (HN : (0 < N)%nat) by (unfold N; rewrite EE; cbn; lia).
  assert (E0 : nth 0 E 0 = e0) by (rewrite EE; reflexivity).
  apply (tends_ext (fun T => PI * (sum_nm N (fun n m => a n m * lorentz eta (w + nth n E 0 - nth m E 0) * prob T E n) +
       sum_nm N (fun n m => s * a n m * lorentz eta (w + nth n E 0 - nth m E 0) * prob T E m)))).
  { intros T HT. unfold lehmann. fold N. f_equal. rewrite <- sum_nm_add. apply sum_nm_ext. intros n m _ _. fold (a n m). ring. }
  replace (PI / 1) with PI by field.
  match goal with |- tends_at_0 _ (PI * ?x) => replace x with
    (sum_nm N (fun n m => a n m * lorentz eta (w + nth n E 0 - nth m E 0) * delta0 n) +
     sum_nm N (fun n m => s * a n m * lorentz eta (w + nth n E 0 - nth m E 0) * delta0 m)) end.
  - apply tends_mul; [apply tends_const|]. apply tends_plus.
    + apply (tends_sum_nm N (fun n m T => a n m * lorentz eta (w + nth n E 0 - nth m E 0) * prob T E n)). intros n m Hn Hm.
      apply tends_mul; [apply tends_const | apply prob_limit; assumption].
    + apply (tends_sum_nm N (fun n m T => s * a n m * lorentz eta (w + nth n E 0 - nth m E 0) * prob T E m)). intros n m Hn Hm.
      apply tends_mul; [apply tends_const | apply prob_limit; assumption].
  - rewrite sum_first_row, sum_first_col by exact HN. rewrite !sum1_total. rewrite E0. f_equal; apply total_ext; intros n _; rewrite lor_lorentz.
    + fold (a O n). f_equal. f_equal. ring.
    + fold (a n O). f_equal. f_equal. ring.
Qed.

(** ** Time ordered response *)
(** Its real and imaginary part at non-zero temperature. *)
Lemma csum_nm N (f : nat -> nat -> CR) (p : CR -> R) : (p = fst \/ p = snd) ->
  p (ksum N (fun n => ksum N (f n))) = sum_nm N (fun n m => p (f n m)).
Proof.
  intros [-> | ->].
  - rewrite fst_ksum, rsum_total. apply total_ext. intros n _. rewrite fst_ksum, rsum_total. reflexivity.
  - rewrite snd_ksum, rsum_total. apply total_ext. intros n _. rewrite snd_ksum, rsum_total. reflexivity.
Qed.
Lemma csum_n N (f : nat -> CR) (p : CR -> R) : (p = fst \/ p = snd) -> p (ksum N f) = total (fun n => p (f n)) (seq 0 N).
Proof. intros [-> | ->]; [rewrite fst_ksum | rewrite snd_ksum]; apply rsum_total. Qed.
Lemma proj_real p x z : (p = fst \/ p = snd) -> p (real x *c z) = x * p z.
Proof. intros [-> | ->]; destruct z as [a b]; cbn; ring. Qed.
Lemma proj_real_r p x z : (p = fst \/ p = snd) -> p (z *c real x) = x * p z.
Proof. intros [-> | ->]; destruct z as [a b]; cbn; ring. Qed.
Lemma proj_sub p a b : (p = fst \/ p = snd) -> p (a -c b) = p a - p b.
Proof. intros [-> | ->]; reflexivity. Qed.

Section TimeOrdered.
  Variables (A B : cmat) (E : list R) (w eta : R) (p : CR -> R).
  Hypothesis SA : square_size A (length E).
  Hypothesis SB : square_size B (length E).
  Hypothesis NE : E <> [].
  Hypothesis HP : p = fst \/ p = snd.
  Let N := length E.
  Let a n m := p (ent A n m *c ent B m n).

  Lemma time_ordered_finite T : T <> 0 ->
    exists z, response_time_ordered A B E T w eta = Ok z /\
      p z = PI * sum_nm N (fun n m => a n m * (prob T E m - prob T E n) * lorentz eta (w - (nth n E 0 - nth m E 0))).
  Proof using SA SB NE HP.
    intros HT. unfold response_time_ordered. rewrite !square_of_ok by assumption. cbn [andb negb].
    destruct E as [|e0 t] eqn:EE; [congruence|]. rewrite <- EE in *.
    assert (NN : N = length E) by (unfold N; rewrite EE; reflexivity). clearbody N. subst N. set (N := length E) in *.
    rewrite is_zero_false by exact HT. cbv zeta.
    eexists. split; [reflexivity|].
    set (z := sum1 _ _).
    assert (Z : 0 < z) by (unfold z, N; rewrite sum1_total, EE; apply z_pos).
    assert (PS : forall n, exp (- (1 / T) * (nth n E 0 - e0)) = prob T E n * z) by (intros n; unfold z, N; rewrite EE; apply prob_shift; exact HT).
    rewrite proj_real, proj_sub, !csum_nm by exact HP. fold N.
    match goal with |- context [sum_nm N ?f - sum_nm N ?g] => rewrite (sum_nm_swap N g);
      replace (sum_nm N f - sum_nm N (fun n m => g m n)) with (sum_nm N f + -1 * sum_nm N (fun n m => g m n)) by ring end.
    rewrite <- sum_nm_scale, <- sum_nm_add.
    unfold Rdiv at 1. rewrite Rmult_assoc. f_equal.
    apply Rmult_eq_reg_l with z; [|lra]. rewrite <- Rmult_assoc, Rinv_r, Rmult_1_l by lra.
    rewrite <- sum_nm_scale.
    apply sum_nm_ext. intros n m _ _. unfold clor. rewrite !proj_real by exact HP. rewrite !proj_real_r by exact HP.
    fold (a n m). rewrite !PS, !lor_lorentz.
    replace (nth n E 0 - e0 - (nth m E 0 - e0) - w) with (- (w - (nth n E 0 - nth m E 0))) by ring.
    replace (- (nth m E 0 - e0 - (nth n E 0 - e0)) - w) with (- (w - (nth n E 0 - nth m E 0))) by ring.
    rewrite lorentz_even. ring.
  Qed.

  Lemma time_ordered_limit : unique_ground E -> 0 <= w ->
    exists z, response_time_ordered A B E 0 w eta = Ok z /\
      tends_at_0 (fun T => PI * sum_nm N (fun n m => a n m * (prob T E m - prob T E n) * lorentz eta (w - (nth n E 0 - nth m E 0)))) (p z).
  Proof using SA SB NE HP.
    intros U Hw. unfold response_time_ordered. rewrite !square_of_ok by assumption. cbn [andb negb].
    destruct E as [|e0 t] eqn:EE; [congruence|]. rewrite <- EE in *.
    assert (NN : N = length E) by (unfold N; rewrite EE; reflexivity). clearbody N. subst N. set (N := length E) in *.
    rewrite is_zero_0. cbv zeta.
    eexists. split; [reflexivity|].
    rewrite proj_real, proj_sub, !csum_n by exact HP. fold N. replace (PI / 1) with PI by field.
    rewrite Rabs_right by lra.
    assert (HN : (0 < N)%nat) by (unfold N; rewrite EE; cbn; lia).
    assert (E0 : nth 0 E 0 = e0) by (rewrite EE; reflexivity).
    apply tends_mul; [apply tends_const|].
    apply (tends_ext (fun T => sum_nm N (fun n m => a n m * lorentz eta (w - (nth n E 0 - nth m E 0)) * prob T E m) -
                               sum_nm N (fun n m => a n m * lorentz eta (w - (nth n E 0 - nth m E 0)) * prob T E n))).
    { intros T HT. match goal with |- sum_nm N ?f - sum_nm N ?g = _ =>
        replace (sum_nm N f - sum_nm N g) with (sum_nm N f + -1 * sum_nm N g) by ring; rewrite <- sum_nm_scale, <- sum_nm_add end.
      apply sum_nm_ext. intros; ring. }
    apply tends_minus.
    - match goal with |- tends_at_0 _ ?x => replace x with (sum_nm N (fun n m => a n m * lorentz eta (w - (nth n E 0 - nth m E 0)) * delta0 m)) end.
      + apply (tends_sum_nm N (fun n m T => a n m * lorentz eta (w - (nth n E 0 - nth m E 0)) * prob T E m)). intros n m Hn Hm.
        apply tends_mul; [apply tends_const | apply prob_limit; assumption].
      + rewrite sum_first_col by exact HN. apply total_ext. intros n _. unfold clor. rewrite proj_real, lor_lorentz by exact HP.
        fold (a n O). rewrite E0. replace (nth n E 0 - e0 - w) with (- (w - (nth n E 0 - e0))) by ring. rewrite lorentz_even. ring.
    - match goal with |- tends_at_0 _ ?x => replace x with (sum_nm N (fun n m => a n m * lorentz eta (w - (nth n E 0 - nth m E 0)) * delta0 n)) end.
      + apply (tends_sum_nm N (fun n m T => a n m * lorentz eta (w - (nth n E 0 - nth m E 0)) * prob T E n)). intros n m Hn Hm.
        apply tends_mul; [apply tends_const | apply prob_limit; assumption].
      + rewrite sum_first_row by exact HN. apply total_ext. intros n _. unfold clor. rewrite proj_real, lor_lorentz by exact HP.
        fold (a O n). rewrite E0. replace (- (nth n E 0 - e0) - w) with (- (w - (e0 - nth n E 0))) by ring. rewrite lorentz_even. ring.
  Qed.
End TimeOrdered.
