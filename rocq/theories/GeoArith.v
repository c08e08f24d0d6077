(** Floor, rounding and cells on rationals. *)
From Coq Require Import List Arith Lia QArith Qround Qabs ZArith Bool Lqa.
From Verif Require Import Res Matrix ModelGeometry.
Import ListNotations.
Local Open Scope Q_scope.

Lemma floor_bounds x : inject_Z (Qfloor x) <= x /\ x < inject_Z (Qfloor x) + 1.
Proof.
  split; [apply Qfloor_le|]. pose proof (Qlt_floor x) as H. rewrite inject_Z_plus in H. exact H.
Qed.

Lemma floor_unique x z : inject_Z z <= x -> x < inject_Z z + 1 -> Qfloor x = z.
Proof.
  intros H1 H2. destruct (floor_bounds x) as [A B].
  assert (inject_Z (Qfloor x) < inject_Z (z + 1)) by (rewrite inject_Z_plus; change (inject_Z 1) with 1; lra).
  assert (inject_Z z < inject_Z (Qfloor x + 1)) by (rewrite inject_Z_plus; change (inject_Z 1) with 1; lra).
  rewrite <- Zlt_Qlt in *. lia.
Qed.

Lemma floor_shift x k : Qfloor (x + inject_Z k) = (Qfloor x + k)%Z.
Proof.
  destruct (floor_bounds x). apply floor_unique; rewrite inject_Z_plus; lra.
Qed.

Lemma floor_int k : Qfloor (inject_Z k) = k.
Proof. apply floor_unique; lra. Qed.

Lemma floor_eq_int x k : x == inject_Z k -> Qfloor x = k.
Proof. intros ->. apply floor_int. Qed.

(** [z] is a nearest integer of [x], even if there are two. *)
Lemma rint_spec x :
  Qabs (x - inject_Z (rint x)) <= 1 # 2 /\
  (Qabs (x - inject_Z (rint x)) == 1 # 2 -> Z.even (rint x) = true).
Proof.
  unfold rint. destruct (floor_bounds x) as [A B]. set (f := Qfloor x) in *.
  destruct (Qcompare (x - inject_Z f) (1 # 2)) eqn:E.
  - apply Qeq_alt in E. destruct (Z.even f) eqn:Ev.
    + split; [|auto]. rewrite Qabs_pos; lra.
    + split; [|intros _; rewrite Z.even_add, Ev; reflexivity].
      rewrite inject_Z_plus. change (inject_Z 1) with 1. rewrite Qabs_neg; lra.
  - apply Qlt_alt in E. split; [rewrite Qabs_pos; lra|]. intros H. rewrite Qabs_pos in H; lra.
  - apply Qgt_alt in E. rewrite inject_Z_plus. change (inject_Z 1) with 1.
    split; [rewrite Qabs_neg; lra|]. intros H. rewrite Qabs_neg in H; lra.
Qed.

Lemma rint_bounds x : x - (1 # 2) <= inject_Z (rint x) <= x + (1 # 2).
Proof. destruct (rint_spec x) as [H _]. apply Qabs_Qle_condition in H. lra. Qed.

Lemma rint_unique x z : Qabs (x - inject_Z z) <= 1 # 2 ->
  (Qabs (x - inject_Z z) == 1 # 2 -> Z.even z = true) -> rint x = z.
Proof.
  intros H1 H2. destruct (rint_spec x) as [G1 G2]. set (r := rint x) in *.
  destruct (Z.eq_dec r z) as [|N]; [assumption|exfalso].
  apply Qabs_Qle_condition in H1 as H1'. apply Qabs_Qle_condition in G1 as G1'.
  assert (D : (r = z + 1 \/ r = z - 1)%Z).
  { assert (inject_Z r <= inject_Z (z + 1)) by (rewrite inject_Z_plus; change (inject_Z 1) with 1; lra).
    assert (inject_Z z <= inject_Z (r + 1)) by (rewrite inject_Z_plus; change (inject_Z 1) with 1; lra).
    rewrite <- Zle_Qle in *. lia. }
  assert (E : inject_Z r == inject_Z z + 1 \/ inject_Z r == inject_Z z - 1).
  { destruct D as [->| ->]; [left|right]; unfold Z.sub; rewrite inject_Z_plus; reflexivity. }
  assert (Z.even z = true).
  { apply H2. destruct E as [E|E]; [rewrite Qabs_pos|rewrite Qabs_neg]; lra. }
  assert (Z.even r = true).
  { apply G2. destruct E as [E|E]; [rewrite Qabs_neg|rewrite Qabs_pos]; lra. }
  apply Z.even_spec in H as [a ->]. apply Z.even_spec in H0 as [b Hb]. lia.
Qed.

#[export] Instance rint_comp : Proper (Qeq ==> eq) rint.
Proof.
  intros x y E. symmetry. apply rint_unique; rewrite <- E; apply rint_spec.
Qed.

Lemma rint_shift x k : Z.even k = true -> rint (x + inject_Z k) = (rint x + k)%Z.
Proof.
  intros Hk. apply rint_unique; rewrite inject_Z_plus.
  - setoid_replace (x + inject_Z k - (inject_Z (rint x) + inject_Z k)) with (x - inject_Z (rint x)) by ring.
    apply rint_spec.
  - setoid_replace (x + inject_Z k - (inject_Z (rint x) + inject_Z k)) with (x - inject_Z (rint x)) by ring.
    intros H. apply rint_spec in H. rewrite Z.even_add, H, Hk. reflexivity.
Qed.

Lemma rint_int k : rint (inject_Z k) = k.
Proof.
  apply rint_unique; setoid_replace (inject_Z k - inject_Z k) with 0 by ring; [|intros H]; discriminate.
Qed.

Lemma rint_opp x : rint (- x) = (- rint x)%Z.
Proof.
  apply rint_unique; rewrite inject_Z_opp;
    setoid_replace (- x - - inject_Z (rint x)) with (- (x - inject_Z (rint x))) by ring; rewrite Qabs_opp.
  - apply rint_spec.
  - intros H. apply rint_spec in H. rewrite Z.even_opp. assumption.
Qed.

Lemma rint_mono x y : x <= y -> (rint x <= rint y)%Z.
Proof.
  intros H. destruct (Z_le_gt_dec (rint x) (rint y)) as [|G]; [assumption|exfalso].
  destruct (rint_spec x) as [A1 A2], (rint_spec y) as [B1 B2].
  apply Qabs_Qle_condition in A1 as A. apply Qabs_Qle_condition in B1 as B.
  assert (inject_Z (rint y + 1) <= inject_Z (rint x)) as C by (rewrite <- Zle_Qle; lia).
  rewrite inject_Z_plus in C. change (inject_Z 1) with 1 in C.
  assert (E1 : x - inject_Z (rint x) == -(1 # 2)) by lra.
  assert (E2 : y - inject_Z (rint y) == 1 # 2) by lra.
  assert (E3 : inject_Z (rint x) == inject_Z (rint y) + 1) by lra.
  specialize (A2 ltac:(rewrite E1; reflexivity)). specialize (B2 ltac:(rewrite E2; reflexivity)).
  assert (rint x = rint y + 1)%Z.
  { change 1 with (inject_Z 1) in E3. rewrite <- inject_Z_plus in E3. apply inject_Z_injective. assumption. }
  apply Z.even_spec in A2 as [a Ha]. apply Z.even_spec in B2 as [b Hb]. lia.
Qed.

(** * Rounding to 14 decimals *)
Lemma ten14_pos : 0 < inject_Z ten14.
Proof. reflexivity. Qed.
Lemma ten14_neq : ~ inject_Z ten14 == 0.
Proof. discriminate. Qed.

Lemma round14_eq x : round14 x == inject_Z (rint (x * inject_Z ten14)) / inject_Z ten14.
Proof. unfold round14. apply Qred_correct. Qed.

#[export] Instance round14_comp : Proper (Qeq ==> Qeq) round14.
Proof. intros x y E. rewrite !round14_eq. rewrite E. reflexivity. Qed.

Lemma round14_shift x k : round14 (x + inject_Z k) == round14 x + inject_Z k.
Proof.
  rewrite !round14_eq.
  setoid_replace ((x + inject_Z k) * inject_Z ten14) with (x * inject_Z ten14 + inject_Z (k * ten14))
    by (rewrite inject_Z_mult; ring).
  rewrite rint_shift by (rewrite Z.even_mul; apply orb_true_r).
  rewrite inject_Z_plus, inject_Z_mult. field. apply ten14_neq.
Qed.

Lemma round14_int k : round14 (inject_Z k) == inject_Z k.
Proof.
  rewrite round14_eq, <- inject_Z_mult, rint_int, inject_Z_mult. field. apply ten14_neq.
Qed.

Lemma round14_opp x : round14 (- x) == - round14 x.
Proof.
  rewrite !round14_eq. setoid_replace (- x * inject_Z ten14) with (- (x * inject_Z ten14)) by ring.
  rewrite rint_opp, inject_Z_opp. field. apply ten14_neq.
Qed.

Lemma round14_idem x : round14 (round14 x) == round14 x.
Proof.
  rewrite (round14_eq (round14 x)).
  setoid_replace (round14 x * inject_Z ten14) with (inject_Z (rint (x * inject_Z ten14))).
  - rewrite rint_int. symmetry. apply round14_eq.
  - rewrite round14_eq. field. apply ten14_neq.
Qed.

Definition eps14 : Q := 1 # 200000000000000.

Lemma round14_bounds x : x - eps14 <= round14 x <= x + eps14.
Proof.
  rewrite round14_eq. pose proof (rint_bounds (x * inject_Z ten14)) as [A B].
  set (r := inject_Z (rint (x * inject_Z ten14))) in *.
  assert (E : r / inject_Z ten14 == r * (1 # 100000000000000)).
  { apply Qmult_inj_r with (z := inject_Z ten14); [apply ten14_neq|]. field_simplify; [|apply ten14_neq].
    change (inject_Z ten14) with (100000000000000 # 1). field. }
  rewrite E. change (inject_Z ten14) with (100000000000000 # 1) in *. unfold eps14. lra.
Qed.

Lemma round14_mono x y : x <= y -> round14 x <= round14 y.
Proof.
  intros H. rewrite !round14_eq. unfold Qdiv. apply Qmult_le_compat_r; [|discriminate].
  rewrite <- Zle_Qle. apply rint_mono. apply Qmult_le_compat_r; [assumption|discriminate].
Qed.

(** * Cell numbers *)
Lemma bump_rint p : rint (bump p) = Qfloor (p + (1 # 2)).
Proof.
  unfold bump. destruct (floor_bounds p) as [A B]. destruct (Qeq_bool _ _) eqn:E.
  - apply Qeq_bool_eq in E.
    assert (E' : p + (1 # 2) == inject_Z (Qfloor p + 1)) by (rewrite inject_Z_plus; change (inject_Z 1) with 1; lra).
    rewrite E'. rewrite rint_int, floor_int. reflexivity.
  - apply Qeq_bool_neq in E. symmetry. apply floor_unique.
    + destruct (rint_bounds p) as [R1 R2]. lra.
    + destruct (rint_spec p) as [R1 _]. apply Qabs_Qle_condition in R1.
      destruct (Qlt_le_dec (p + (1 # 2)) (inject_Z (rint p) + 1)) as [|G]; [assumption|exfalso].
      apply E. assert (E1 : p - inject_Z (rint p) == 1 # 2) by lra.
      assert (Qfloor p = rint p) as -> by (apply floor_unique; lra). assumption.
Qed.

(** The integer subtracted: [p - n] lies in [[0,1)] or [[-1/2,1/2)]. *)
Definition low (md : red_mode) : Q := match md with Centered => -(1 # 2) | _ => 0 end.

Lemma cell_number_spec md p n : md <> OtherMode ->
  cell_number md p = Ok n <-> low md <= p - inject_Z n < low md + 1.
Proof.
  intros Hm. destruct md; cbn [low cell_number]; [| |congruence].
  - split.
    + intros [= <-]. destruct (floor_bounds p). lra.
    + intros H. f_equal. apply floor_unique; lra.
  - rewrite bump_rint. split.
    + intros H. assert (E : n = Qfloor (p + (1 # 2))) by congruence. rewrite E.
      destruct (floor_bounds (p + (1 # 2))). lra.
    + intros H. f_equal. apply floor_unique; lra.
Qed.

Lemma cell_number_ex md p : md <> OtherMode -> exists n, cell_number md p = Ok n.
Proof. destruct md; simpl; intros; [eauto|eauto|congruence]. Qed.
