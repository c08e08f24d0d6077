(** The coordinate maps: rotations, reflections, inversions, translations. *)
From Coq Require Import Arith Lia Reals ZArith Lra.
From Verif Require Import Res SpecPerm ModelSites SpecSites.
Local Open Scope R_scope.

Lemma sin2_cos2' a : sin a * sin a + cos a * cos a = 1.
Proof. apply (sin2_cos2 a). Qed.

Lemma rot_add a b v : rot a (rot b v) = rot (a + b) v.
Proof.
  unfold rot; cbn [fst snd]. rewrite cos_plus, sin_plus. f_equal; ring.
Qed.

Lemma rot_0 v : rot 0 v = v.
Proof. unfold rot. rewrite cos_0, sin_0. destruct v; cbn [fst snd]. f_equal; ring. Qed.

Lemma about_ext c f g v : (forall w, f w = g w) -> about c f v = about c g v.
Proof. intros H. unfold about. rewrite H. reflexivity. Qed.

Lemma about_compose c f g v : about c f (about c g v) = about c (fun w => f (g w)) v.
Proof.
  unfold about; cbn [fst snd].
  set (w := g (fst v - fst c, snd v - snd c)).
  replace (fst w + fst c - fst c, snd w + snd c - snd c) with w; [reflexivity|].
  destruct w; cbn [fst snd]; f_equal; ring.
Qed.

Lemma about_id c v : about c (fun w => w) v = v.
Proof. unfold about; cbn [fst snd]. destruct v; cbn [fst snd]; f_equal; ring. Qed.

Lemma iter_about_rot c a k v : iter (about c (rot a)) k v = about c (rot (INR k * a)) v.
Proof.
  induction k as [|k IH].
  - cbn [iter INR]. rewrite Rmult_0_l.
    rewrite (about_ext c _ (fun w => w)) by apply rot_0. symmetry. apply about_id.
  - cbn [iter]. rewrite IH, about_compose. apply about_ext. intros w. rewrite rot_add. f_equal.
    rewrite S_INR. ring.
Qed.

Lemma rot_period k v : rot (2 * PI * IZR k) v = v.
Proof.
  unfold rot.
  assert (H : forall n : nat, cos (2 * PI * INR n) = 1 /\ sin (2 * PI * INR n) = 0).
  { intros n. replace (2 * PI * INR n) with (0 + 2 * INR n * PI) by ring.
    rewrite cos_period, sin_period. split; [apply cos_0|apply sin_0]. }
  destruct (Z_le_gt_dec 0 k).
  - destruct (H (Z.to_nat k)) as (Hc & Hs). rewrite INR_IZR_INZ, Z2Nat.id in Hc, Hs by assumption.
    rewrite Hc, Hs. destruct v; cbn [fst snd]; f_equal; ring.
  - destruct (H (Z.to_nat (- k))) as (Hc & Hs). rewrite INR_IZR_INZ, Z2Nat.id in Hc, Hs by lia.
    rewrite opp_IZR in Hc, Hs.
    replace (2 * PI * IZR k) with (- (2 * PI * - IZR k)) by ring.
    rewrite cos_neg, sin_neg, Hc, Hs. destruct v; cbn [fst snd]; f_equal; ring.
Qed.

(** Rotation by a [n]-th of a full turn, about any centre. *)
Lemma rotation_ok n c : (n <> 0)%Z -> exists f, rotation_map n c = Ok f /\
  f c = c /\
  (forall v w, dist2 (f v) (f w) = dist2 v w) /\
  (forall u v w, area2 (f u) (f v) (f w) = area2 u v w) /\
  (forall v, iter f (Z.abs_nat n) v = v) /\
  (forall r a, f (polar c r a) = polar c r (a + 2 * PI / IZR n)).
Proof.
  intros Hn. unfold rotation_map. rewrite (proj2 (Z.eqb_neq n 0)) by assumption.
  eexists. split; [reflexivity|].
  set (a := 2 * PI / IZR n). assert (IZR n <> 0) by (apply not_0_IZR; assumption).
  repeat split.
  - unfold about, rot; cbn [fst snd]. destruct c; cbn [fst snd]. f_equal; ring.
  - intros v w. unfold dist2, about, rot; cbn [fst snd].
    transitivity (((fst v - fst w) * (fst v - fst w) + (snd v - snd w) * (snd v - snd w)) * (sin a * sin a + cos a * cos a)); [ring|].
    rewrite sin2_cos2'. ring.
  - intros u v w. unfold area2, about, rot; cbn [fst snd].
    transitivity (((fst v - fst u) * (snd w - snd u) - (snd v - snd u) * (fst w - fst u)) * (sin a * sin a + cos a * cos a)); [ring|].
    rewrite sin2_cos2'. ring.
  - intros v. rewrite iter_about_rot.
    rewrite (about_ext c _ (fun w => w)); [apply about_id|].
    intros w. rewrite INR_IZR_INZ, Zabs2Nat.id_abs. unfold a.
    destruct (Z_le_gt_dec 0 n).
    + rewrite Z.abs_eq by assumption. replace (IZR n * (2 * PI / IZR n)) with (2 * PI * IZR 1) by (field; assumption).
      apply rot_period.
    + rewrite Z.abs_neq by lia. rewrite opp_IZR.
      replace (- IZR n * (2 * PI / IZR n)) with (2 * PI * IZR (-1)) by (field; assumption).
      apply rot_period.
  - intros r b. unfold polar, about, rot. cbn [fst snd]. rewrite cos_plus, sin_plus. f_equal; ring.
Qed.

(** Reflection in the plane: the linear map fixing [v] and reversing its normal. *)
Definition mirror (v w : pt) : pt :=
  let d := fst v * fst v + snd v * snd v in
  let s := fst v * fst w + snd v * snd w in
  (2 * s / d * fst v - fst w, 2 * s / d * snd v - snd w).

Lemma turn_y a w :
  rot_transposed a (let u := rot a w in (- fst u, snd u)) =
  (2 * (sin a * fst w + cos a * snd w) * sin a - fst w, 2 * (sin a * fst w + cos a * snd w) * cos a - snd w).
Proof.
  unfold rot_transposed, rot; cbn [fst snd]. pose proof (sin2_cos2' a) as H.
  f_equal.
  - transitivity (fst w * (sin a * sin a - cos a * cos a) + 2 * snd w * sin a * cos a); [ring|].
    transitivity (fst w * (2 * (sin a * sin a) - (sin a * sin a + cos a * cos a)) + 2 * snd w * sin a * cos a); [ring|].
    rewrite H. ring.
  - transitivity (snd w * (cos a * cos a - sin a * sin a) + 2 * fst w * sin a * cos a); [ring|].
    transitivity (snd w * (2 * (cos a * cos a) - (sin a * sin a + cos a * cos a)) + 2 * fst w * sin a * cos a); [ring|].
    rewrite H. ring.
Qed.

Lemma atan_direction x y : y <> 0 ->
  let a := atan (x / y) in let d := x * x + y * y in
  sin a * sin a = x * x / d /\ sin a * cos a = x * y / d /\ cos a * cos a = y * y / d.
Proof.
  intros Hy a d. assert (Hd : d > 0) by (unfold d; nra).
  assert (Hc : cos a > 0) by (apply cos_gt_0; unfold a; pose proof (atan_bound (x / y)); lra).
  assert (Ht : sin a = x / y * cos a).
  { assert (T : tan a = x / y) by (unfold a; apply tan_atan).
    unfold tan in T. rewrite <- T. field. lra. }
  assert (H := sin2_cos2' a). rewrite Ht in H.
  assert (Hcc : cos a * cos a = y * y / d).
  { assert (E : cos a * cos a * d = y * y).
    { unfold d. replace (cos a * cos a * (x * x + y * y)) with ((x / y * cos a * (x / y * cos a) + cos a * cos a) * (y * y)) by (field; assumption).
      rewrite H. ring. }
    rewrite <- E. field. lra. }
  rewrite Ht. repeat split.
  - transitivity (x / y * (x / y) * (cos a * cos a)); [ring|]. rewrite Hcc. field. lra.
  - transitivity (x / y * (cos a * cos a)); [ring|]. rewrite Hcc. field. lra.
  - exact Hcc.
Qed.

Lemma reflection_value v c : v <> (0, 0) -> exists f, reflection_map v c = Ok f /\
  forall w, f w = about c (mirror v) w.
Proof.
  intros Hv. unfold reflection_map.
  assert (K : forall a, (sin a * sin a = fst v * fst v / (fst v * fst v + snd v * snd v) /\
      sin a * cos a = fst v * snd v / (fst v * fst v + snd v * snd v) /\
      cos a * cos a = snd v * snd v / (fst v * fst v + snd v * snd v)) -> fst v * fst v + snd v * snd v <> 0 ->
      forall w, about c (fun w => rot_transposed a (let u := rot a w in (- fst u, snd u))) w = about c (mirror v) w).
  { intros a (H1 & H2 & H3) Hd w. apply about_ext. intros u. rewrite turn_y. unfold mirror. f_equal.
    - transitivity (2 * fst u * (sin a * sin a) + 2 * snd u * (sin a * cos a) - fst u); [ring|].
      rewrite H1, H2. field. assumption.
    - transitivity (2 * fst u * (sin a * cos a) + 2 * snd u * (cos a * cos a) - snd u); [ring|].
      rewrite H2, H3. field. assumption. }
  destruct (Req_EM_T (fst v) 0) as [Hx|Hx]; destruct (Req_EM_T (snd v) 0) as [Hy|Hy].
  - destruct v as [x y]; cbn in Hx, Hy; subst. contradiction.
  - eexists. split; [reflexivity|]. apply K; [apply atan_direction; assumption|nra].
  - eexists. split; [reflexivity|]. apply K; [|nra].
    rewrite Hy, sin_PI2, cos_PI2. repeat split; field; assumption.
  - eexists. split; [reflexivity|]. apply K; [apply atan_direction; assumption|nra].
Qed.

Lemma reflection_ok v c : v <> (0, 0) -> exists f, reflection_map v c = Ok f /\
  f c = c /\
  (forall s, f (fst c + s * fst v, snd c + s * snd v) = (fst c + s * fst v, snd c + s * snd v)) /\
  (forall s, f (fst c - s * snd v, snd c + s * fst v) = (fst c + s * snd v, snd c - s * fst v)) /\
  (forall w, f (f w) = w) /\
  (forall w z, dist2 (f w) (f z) = dist2 w z) /\
  (forall t u w, area2 (f t) (f u) (f w) = - area2 t u w).
Proof.
  intros Hv. destruct (reflection_value v c Hv) as (f & E & Hf). exists f. split; [exact E|].
  assert (Hd : fst v * fst v + snd v * snd v <> 0).
  { intros H. apply Hv. destruct v as [x y]; cbn in H.
    assert (x = 0) by nra. assert (y = 0) by nra. congruence. }
  repeat split.
  - rewrite Hf. unfold about, mirror; cbn [fst snd]. destruct c; cbn [fst snd]; f_equal; field; assumption.
  - intros s. rewrite Hf. unfold about, mirror; cbn [fst snd]. f_equal; field; assumption.
  - intros s. rewrite Hf. unfold about, mirror; cbn [fst snd]. f_equal; field; assumption.
  - intros w. rewrite !Hf, about_compose. rewrite (about_ext c _ (fun w => w)); [apply about_id|].
    intros u. unfold mirror; cbn [fst snd]. destruct u; cbn [fst snd]; f_equal; field; assumption.
  - intros w z. rewrite !Hf. unfold dist2, about, mirror; cbn [fst snd]. field. assumption.
  - intros t u w. rewrite !Hf. unfold area2, about, mirror; cbn [fst snd]. field. assumption.
Qed.

Lemma inversion_ok c : inversion_map c c = c /\
  (forall v, inversion_map c (inversion_map c v) = v) /\
  (forall v, (fst v + fst (inversion_map c v)) / 2 = fst c /\ (snd v + snd (inversion_map c v)) / 2 = snd c) /\
  (forall v w, dist2 (inversion_map c v) (inversion_map c w) = dist2 v w).
Proof.
  unfold inversion_map, dist2. repeat split; intros; cbn [fst snd]; try field;
    match goal with |- _ = ?x => destruct x; cbn [fst snd]; f_equal; ring end.
Qed.

(** A half turn is the inversion. *)
Lemma half_turn c : exists f, rotation_map 2 c = Ok f /\ forall v, f v = inversion_map c v.
Proof.
  unfold rotation_map. cbn [Z.eqb Pos.eqb]. eexists. split; [reflexivity|]. intros v.
  unfold about, rot, inversion_map. replace (2 * PI / 2) with PI by field.
  rewrite cos_PI, sin_PI. cbn [fst snd]. f_equal; ring.
Qed.

Lemma shift_ok s t v w :
  translation_map s (translation_map t v) = translation_map (fst s + fst t, snd s + snd t) v /\
  translation_map (0, 0) v = v /\
  dist2 (translation_map t v) (translation_map t w) = dist2 v w /\
  forall k, iter (translation_map t) k v = translation_map (INR k * fst t, INR k * snd t) v.
Proof.
  unfold translation_map, dist2; cbn [fst snd]. split; [f_equal; ring|]. split; [destruct v; cbn; f_equal; ring|].
  split; [ring|]. induction k as [|k IH].
  - cbn. destruct v; cbn; f_equal; ring.
  - cbn [iter]. rewrite IH. cbn [fst snd]. rewrite S_INR. f_equal; ring.
Qed.

Lemma rotation_zero c : rotation_map 0 c = Raise GenericException.
Proof. reflexivity. Qed.

Lemma reflection_zero c : reflection_map (0, 0) c = Raise GenericException.
Proof.
  unfold reflection_map; cbn [fst snd]. destruct (Req_EM_T 0 0); [|lra]. reflexivity.
Qed.
