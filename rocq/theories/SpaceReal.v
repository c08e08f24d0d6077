(** The coordinate maps of the library that are motions of a lattice. *)
From Coq Require Import List Arith Reals Lra ZArith QArith.
From Verif Require Import Scalars Res ModelSites SpecSpace.
Local Open Scope R_scope.

Lemma sin_q : sin (2 * PI / IZR 4) = 1 /\ cos (2 * PI / IZR 4) = 0.
Proof. replace (2 * PI / 4) with (PI / 2) by field. split; [apply sin_PI2 | apply cos_PI2]. Qed.
Lemma sin_mq : sin (2 * PI / IZR (-4)) = -1 /\ cos (2 * PI / IZR (-4)) = 0.
Proof. replace (2 * PI / -4) with (- (PI / 2)) by field. rewrite sin_neg, cos_neg, sin_PI2, cos_PI2. split; lra. Qed.
Theorem quarter_map n : exists f, rotation_map 4 (centre n n) = Ok f /\ forall v, f v = move_r (quarter_turn n) v.
Proof.
  unfold rotation_map. cbn [Z.eqb]. eexists. split; [reflexivity|]. intros v. destruct sin_q as [S C].
  unfold about, rot, move_r, quarter_turn, turned, centre. cbn [m_swap m_sx m_sy m_a m_b signed_r fst snd]. rewrite S, C, minus_IZR. f_equal; field.
Qed.
Theorem back_map n : exists f, rotation_map (-4) (centre n n) = Ok f /\ forall v, f v = move_r (back_turn n) v.
Proof.
  unfold rotation_map. cbn [Z.eqb]. eexists. split; [reflexivity|]. intros v. destruct sin_mq as [S C].
  unfold about, rot, move_r, back_turn, turned, centre. cbn [m_swap m_sx m_sy m_a m_b signed_r fst snd]. rewrite S, C, minus_IZR. f_equal; field.
Qed.
Theorem mirror_map nx ny y : y <> 0 -> exists f, reflection_map (0, y) (centre nx ny) = Ok f /\ forall v, f v = move_r (mirror nx) v.
Proof.
  intros Y. unfold reflection_map. cbn [fst snd]. destruct (Req_EM_T 0 0) as [_|E]; [|congruence]. destruct (Req_EM_T y 0) as [E|_]; [contradiction|].
  eexists. split; [reflexivity|]. intros v. replace (0 / y) with 0 by (field; exact Y). rewrite atan_0.
  unfold about, rot, rot_transposed, move_r, mirror, turned, centre. cbn [m_swap m_sx m_sy m_a m_b signed_r fst snd]. rewrite sin_0, cos_0, minus_IZR. f_equal; field.
Qed.
Theorem mirror_y_map nx ny x : x <> 0 -> exists f, reflection_map (x, 0) (centre nx ny) = Ok f /\ forall v, f v = move_r (mirror_y ny) v.
Proof.
  intros X. unfold reflection_map. cbn [fst snd]. destruct (Req_EM_T x 0) as [E|_]; [contradiction|]. destruct (Req_EM_T 0 0) as [_|E]; [|congruence].
  eexists. split; [reflexivity|]. intros v.
  unfold about, rot, rot_transposed, move_r, mirror_y, turned, centre. cbn [m_swap m_sx m_sy m_a m_b signed_r fst snd]. rewrite sin_PI2, cos_PI2, minus_IZR. f_equal; field.
Qed.
Theorem inversion_motion nx ny v : inversion_map (centre nx ny) v = move_r (half_turn nx ny) v.
Proof. unfold inversion_map, move_r, half_turn, turned, centre. cbn [m_swap m_sx m_sy m_a m_b signed_r fst snd]. rewrite !minus_IZR. f_equal; field. Qed.
Theorem translation_motion a b v : translation_map (IZR a, IZR b) v = move_r (shift a b) v.
Proof. reflexivity. Qed.
Theorem library_maps : 
  (forall n, exists f, rotation_map 4 (centre n n) = Ok f /\ forall v, f v = move_r (quarter_turn n) v) /\
  (forall n, exists f, rotation_map (-4) (centre n n) = Ok f /\ forall v, f v = move_r (back_turn n) v) /\
  (forall nx ny y, y <> 0 -> exists f, reflection_map (0, y) (centre nx ny) = Ok f /\ forall v, f v = move_r (mirror nx) v) /\
  (forall nx ny x, x <> 0 -> exists f, reflection_map (x, 0) (centre nx ny) = Ok f /\ forall v, f v = move_r (mirror_y ny) v) /\
  (forall nx ny v, inversion_map (centre nx ny) v = move_r (half_turn nx ny) v) /\
  (forall a b v, translation_map (IZR a, IZR b) v = move_r (shift a b) v).
Proof. exact (conj quarter_map (conj back_map (conj mirror_map (conj mirror_y_map (conj inversion_motion translation_motion))))). Qed.
