(** Reduction to a unit cell. *)
From Coq Require Import List Arith Lia QArith Qround Qabs ZArith Bool Lqa Setoid Morphisms.
From Verif Require Import Res Matrix ModelGeometry SpecGeometry GeoArith.
Import ListNotations.
Local Open Scope Q_scope.
Arguments Qred : simpl never.

Lemma same_refl v : same_point v v.
Proof. split; reflexivity. Qed.
Lemma same_sym v w : same_point v w -> same_point w v.
Proof. intros [A B]. split; symmetry; assumption. Qed.
Lemma same_trans u v w : same_point u v -> same_point v w -> same_point u w.
Proof. intros [A B] [C D]. split; [rewrite A|rewrite B]; assumption. Qed.

Lemma long_test v : root_rounds_to_0 (vdot v v) = false <-> long v.
Proof.
  unfold root_rounds_to_0, long, sq_norm, vdot.
  set (s := fst v * fst v + snd v * snd v).
  change (inject_Z (4 * ten14 * ten14)) with (40000000000000000000000000000 # 1).
  destruct (Qle_bool _ 1) eqn:E.
  - apply Qle_bool_iff in E. split; [discriminate|intros; exfalso; lra].
  - split; [intros _|reflexivity].
    assert (~ s * (40000000000000000000000000000 # 1) <= 1) by (rewrite <- Qle_bool_iff; congruence). lra.
Qed.
Lemma zero_test v : is_zero v -> root_rounds_to_0 (vdot v v) = true.
Proof.
  intros [A B]. cbn in A, B. unfold root_rounds_to_0, vdot. apply Qle_bool_iff.
  rewrite A, B. discriminate.
Qed.
Lemma zero_not_long v : is_zero v -> ~ long v.
Proof. intros H L. apply long_test in L. rewrite (zero_test v H) in L. discriminate. Qed.
Lemma long_pos v : long v -> 0 < sq_norm v.
Proof. unfold long. intros. lra. Qed.

(** The exact coordinates the code rounds. *)
Definition coord1 (p1 p2 v : vec) : Q :=
  if root_rounds_to_0 (vdot p1 p1) then 0
  else if root_rounds_to_0 (vdot p2 p2) then vdot p1 v / vdot p1 p1
  else (snd p2 * fst v + - fst p2 * snd v) / vdet p1 p2.
Definition coord2 (p1 p2 v : vec) : Q :=
  if root_rounds_to_0 (vdot p2 p2) then 0
  else if root_rounds_to_0 (vdot p1 p1) then vdot p2 v / vdot p2 p2
  else (- snd p1 * fst v + fst p1 * snd v) / vdet p1 p2.

Ltac gcases H :=
  destruct H as ([?Z1|?L1] & [?Z2|?L2] & ?Hd);
  repeat match goal with
  | Z : is_zero ?p |- _ => rewrite ?(zero_test p Z); destruct (Z) as [? ?]; revert Z
  | L : long ?p |- _ => rewrite ?(proj2 (long_test p) L); revert L
  end; intros.

Lemma projections_ok p1 p2 v : generators p1 p2 ->
  projections p1 p2 v = Ok (round14 (coord1 p1 p2 v), round14 (coord2 p1 p2 v)).
Proof.
  intros H. unfold projections, coord1, coord2.
  destruct H as ([Z1|L1] & [Z2|L2] & Hd);
    rewrite ?(zero_test p1), ?(zero_test p2) by assumption;
    rewrite ?(proj2 (long_test p1)), ?(proj2 (long_test p2)) by assumption; cbn [negb andb]; try reflexivity.
  destruct (Qeq_bool (vdet p1 p2) 0) eqn:E; [|reflexivity].
  apply Qeq_bool_eq in E. exfalso. exact (Hd L1 L2 E).
Qed.

Lemma coords_ok p1 p2 v : generators p1 p2 ->
  coordinates p1 p2 v (coord1 p1 p2 v) (coord2 p1 p2 v).
Proof.
  intros H. unfold coord1, coord2.
  destruct H as ([Z1|L1] & [Z2|L2] & Hd);
    rewrite ?(zero_test p1), ?(zero_test p2) by assumption;
    rewrite ?(proj2 (long_test p1)), ?(proj2 (long_test p2)) by assumption;
    unfold coordinates; repeat split; intros;
    try reflexivity;
    try (exfalso; (apply (zero_not_long p1); assumption) || (apply (zero_not_long p2); assumption)).
  - apply long_pos in L2. unfold sq_norm, vdot, dot in *. field. lra.
  - apply long_pos in L1. unfold sq_norm, vdot, dot in *. field. lra.
  - specialize (Hd L1 L2). unfold det, vdet, moved in *. cbn [fst snd]. field. assumption.
  - specialize (Hd L1 L2). unfold det, vdet, moved in *. cbn [fst snd]. field. assumption.
Qed.

Lemma coords_unique p1 p2 v a b a' b' : generators p1 p2 ->
  coordinates p1 p2 v a b -> coordinates p1 p2 v a' b' -> a == a' /\ b == b'.
Proof.
  intros H (A1 & A2 & A3 & A4 & A5) (B1 & B2 & B3 & B4 & B5).
  destruct H as ([Z1|L1] & [Z2|L2] & Hd).
  - rewrite A1, A2, B1, B2 by assumption. split; reflexivity.
  - rewrite A1, B1 by assumption. split; [reflexivity|].
    specialize (A5 L2 Z1). specialize (B5 L2 Z1). apply long_pos in L2.
    apply (Qmult_inj_r _ _ (sq_norm p2)); [lra|]. rewrite A5, B5. reflexivity.
  - rewrite A2, B2 by assumption. split; [|reflexivity].
    specialize (A4 L1 Z2). specialize (B4 L1 Z2). apply long_pos in L1.
    apply (Qmult_inj_r _ _ (sq_norm p1)); [lra|]. rewrite A4, B4. reflexivity.
  - destruct (A3 L1 L2) as [E1 E2], (B3 L1 L2) as [F1 F2]. specialize (Hd L1 L2).
    unfold moved, det in *. cbn [fst snd] in *.
    rewrite E1 in F1. rewrite E2 in F2.
    split; apply (Qmult_inj_r _ _ (fst p1 * snd p2 - snd p1 * fst p2)); try assumption.
    + setoid_replace (a * (fst p1 * snd p2 - snd p1 * fst p2)) with
        ((0 + a * fst p1 + b * fst p2) * snd p2 - (0 + a * snd p1 + b * snd p2) * fst p2) by ring.
      rewrite F1, F2. ring.
    + setoid_replace (b * (fst p1 * snd p2 - snd p1 * fst p2)) with
        ((0 + a * snd p1 + b * snd p2) * fst p1 - (0 + a * fst p1 + b * fst p2) * snd p1) by ring.
      rewrite F1, F2. ring.
Qed.

(** Multiples of a zero generator are dropped. *)
Definition keep1 (p : vec) (k : Q) : Q := if root_rounds_to_0 (vdot p p) then 0 else k.

Lemma coords_moved p1 p2 v w k1 k2 : generators p1 p2 ->
  same_point w (moved v k1 p1 k2 p2) ->
  coord1 p1 p2 w == coord1 p1 p2 v + keep1 p1 k1 /\ coord2 p1 p2 w == coord2 p1 p2 v + keep1 p2 k2.
Proof.
  intros H [E1 E2]. unfold coord1, coord2, keep1, moved in *. cbn [fst snd] in *.
  destruct H as ([Z1|L1] & [Z2|L2] & Hd);
    rewrite ?(zero_test p1), ?(zero_test p2) by assumption;
    rewrite ?(proj2 (long_test p1)), ?(proj2 (long_test p2)) by assumption.
  - split; reflexivity.
  - split; [reflexivity|]. apply long_pos in L2. destruct Z1 as [z1 z1']. cbn in z1, z1'.
    unfold sq_norm, vdot in *. rewrite E1, E2, z1, z1'. field. lra.
  - split; [|reflexivity]. apply long_pos in L1. destruct Z2 as [z1 z1']. cbn in z1, z1'.
    unfold sq_norm, vdot in *. rewrite E1, E2, z1, z1'. field. lra.
  - specialize (Hd L1 L2). unfold det, vdet in *. split; rewrite E1, E2; field; assumption.
Qed.

Lemma coord_comp p1 p2 v w : generators p1 p2 -> same_point w v ->
  coord1 p1 p2 w == coord1 p1 p2 v /\ coord2 p1 p2 w == coord2 p1 p2 v.
Proof.
  intros H E. destruct (coords_moved p1 p2 v w 0 0 H) as [A B].
  - apply (same_trans _ _ _ E). split; unfold moved; cbn [fst snd]; ring.
  - rewrite A, B. unfold keep1. split; destruct (root_rounds_to_0 _); ring.
Qed.

(** Cell numbers of a rounded coordinate. *)
Definition cell (md : red_mode) (x : Q) : Z :=
  match md with Centered => Qfloor (round14 x + (1 # 2)) | _ => Qfloor (round14 x) end.

Lemma cell_number_eq md x : md <> OtherMode -> cell_number md (round14 x) = Ok (cell md x).
Proof. destruct md; intros H; [reflexivity| |congruence]. cbn [cell_number cell]. rewrite bump_rint. reflexivity. Qed.

#[export] Instance cell_comp md : Proper (Qeq ==> eq) (cell md).
Proof. intros x y E. destruct md; cbn [cell]; rewrite E; reflexivity. Qed.

Lemma cell_shift md x k : cell md (x + inject_Z k) = (cell md x + k)%Z.
Proof.
  destruct md; cbn [cell]; rewrite round14_shift; try apply floor_shift.
  setoid_replace (round14 x + inject_Z k + (1 # 2)) with (round14 x + (1 # 2) + inject_Z k) by ring.
  apply floor_shift.
Qed.

Lemma cell_bounds md x : md <> OtherMode ->
  low md <= round14 x - inject_Z (cell md x) < low md + 1.
Proof. intros H. apply (cell_number_spec md (round14 x) (cell md x) H), (cell_number_eq md x H). Qed.

Lemma cell_0 md : cell md 0 = 0%Z.
Proof. destruct md; reflexivity. Qed.

Lemma round14_multiple x : exists z, round14 x == inject_Z z / inject_Z ten14.
Proof. eexists. apply round14_eq. Qed.

Lemma cell_exact_bounds md x : md <> OtherMode ->
  low md - half_unit <= x - inject_Z (cell md x) <= low md + 1 - half_unit.
Proof.
  intros H. pose proof (cell_bounds md x H) as [A B]. pose proof (round14_bounds x) as [C D].
  change eps14 with half_unit in *. split; [unfold half_unit in *; lra|].
  assert (round14 x - inject_Z (cell md x) <= low md + 1 - (1 # 100000000000000)).
  { destruct (round14_multiple x) as [z Hz]. rewrite Hz in B |- *.
    set (n := cell md x) in *.
    assert (E : inject_Z z / inject_Z ten14 == inject_Z z * (1 # 100000000000000)).
    { apply Qmult_inj_r with (z := inject_Z ten14); [discriminate|]. field_simplify; [|discriminate].
      change (inject_Z ten14) with (100000000000000 # 1). field. }
    rewrite E in *.
    set (l2 := match md with Centered => (-50000000000000)%Z | _ => 0%Z end).
    assert (El : low md == inject_Z l2 * (1 # 100000000000000)) by (destruct md; reflexivity).
    rewrite El in *.
    assert (inject_Z z < inject_Z (l2 + 100000000000000 + n * 100000000000000)) as F.
    { rewrite !inject_Z_plus, inject_Z_mult. change (inject_Z 100000000000000) with (100000000000000 # 1). lra. }
    rewrite <- Zlt_Qlt in F. apply Zlt_le_succ in F. unfold Z.succ in F. rewrite Zle_Qle in F.
    rewrite !inject_Z_plus, inject_Z_mult in F.
    change (inject_Z 100000000000000) with (100000000000000 # 1) in F. change (inject_Z 1) with 1 in F. lra. }
  unfold half_unit in *. lra.
Qed.

(** The result of the reduction. *)
Lemma reduce_value p1 p2 md v : generators p1 p2 -> md <> OtherMode ->
  reduce_vector p1 p2 md v =
  Ok (vsub (vsub v (vscale (inject_Z (cell md (coord1 p1 p2 v))) p1))
        (vscale (inject_Z (cell md (coord2 p1 p2 v))) p2),
      cell md (coord1 p1 p2 v), cell md (coord2 p1 p2 v)).
Proof.
  intros H Hm. unfold reduce_vector. rewrite (projections_ok p1 p2 v H). cbn [bind fst snd].
  rewrite !(cell_number_eq md) by assumption. destruct md; [reflexivity|reflexivity|congruence].
Qed.

Lemma vsub_vscale v p1 p2 a b :
  same_point (vsub (vsub v (vscale a p1)) (vscale b p2)) (moved v (- a) p1 (- b) p2).
Proof.
  unfold vsub, vscale, moved, same_point. cbn [fst snd]. rewrite !Qred_correct. split; ring.
Qed.

Lemma keep1_cell p1 p2 md v : generators p1 p2 ->
  keep1 p1 (- inject_Z (cell md (coord1 p1 p2 v))) == - inject_Z (cell md (coord1 p1 p2 v)) /\
  keep1 p2 (- inject_Z (cell md (coord2 p1 p2 v))) == - inject_Z (cell md (coord2 p1 p2 v)).
Proof.
  intros _. unfold keep1, coord1, coord2. split.
  - destruct (root_rounds_to_0 (vdot p1 p1)); [|reflexivity]. rewrite cell_0. reflexivity.
  - destruct (root_rounds_to_0 (vdot p2 p2)); [|reflexivity]. rewrite cell_0. reflexivity.
Qed.

Lemma reduce_ok p1 p2 md v : generators p1 p2 -> md <> OtherMode ->
  exists r n1 n2, reduce_vector p1 p2 md v = Ok (r, n1, n2) /\
    same_point v (moved r (inject_Z n1) p1 (inject_Z n2) p2) /\
    (is_zero p1 -> n1 = 0%Z) /\ (is_zero p2 -> n2 = 0%Z) /\
    (forall a b, coordinates p1 p2 v a b -> coordinates p1 p2 r (a - inject_Z n1) (b - inject_Z n2)) /\
    (forall a b, coordinates p1 p2 r a b ->
       low md - half_unit <= a <= low md + 1 - half_unit /\
       low md - half_unit <= b <= low md + 1 - half_unit) /\
    (forall a b, coordinates p1 p2 r a b -> decimal14 a -> low md <= a < low md + 1) /\
    (forall a b, coordinates p1 p2 r a b -> decimal14 b -> low md <= b < low md + 1).
Proof.
  intros H Hm. rewrite (reduce_value p1 p2 md v H Hm).
  set (n1 := cell md (coord1 p1 p2 v)). set (n2 := cell md (coord2 p1 p2 v)).
  set (r := vsub _ _). exists r, n1, n2.
  pose proof (vsub_vscale v p1 p2 (inject_Z n1) (inject_Z n2)) as Hr. fold r in Hr.
  destruct (coords_moved p1 p2 v r _ _ H Hr) as [C1 C2].
  destruct (keep1_cell p1 p2 md v H) as [K1 K2]. fold n1 in K1. fold n2 in K2.
  rewrite K1 in C1. rewrite K2 in C2.
  assert (D : forall x, decimal14 x -> round14 x == x).
  { intros x [z Hz]. rewrite round14_eq.
    assert (E : x * inject_Z ten14 == inject_Z z).
    { change (inject_Z ten14) with (100000000000000 # 1). lra. }
    rewrite E, rint_int, <- E. field. discriminate. }
  split; [reflexivity|]. repeat match goal with |- _ /\ _ => split end.
  - destruct Hr as [A B]. unfold moved in *. cbn [fst snd] in *. split; cbn [fst snd]; rewrite A || rewrite B; ring.
  - intros Z1. unfold n1, coord1. rewrite (zero_test p1 Z1). apply cell_0.
  - intros Z1. unfold n2, coord2. rewrite (zero_test p2 Z1). apply cell_0.
  - intros a b Hab. destruct (coords_unique p1 p2 v _ _ _ _ H Hab (coords_ok p1 p2 v H)) as [E1 E2].
    pose proof (coords_ok p1 p2 r H) as (A1 & A2 & A3 & A4 & A5). unfold coordinates.
    assert (F1 : a - inject_Z n1 == coord1 p1 p2 r) by (rewrite C1, E1; ring).
    assert (F2 : b - inject_Z n2 == coord2 p1 p2 r) by (rewrite C2, E2; ring).
    repeat match goal with |- _ /\ _ => split end; intros; rewrite ?F1, ?F2; auto.
    destruct (A3 H0 H1) as [G1 G2]. unfold moved in *. cbn [fst snd] in *.
    split; cbn [fst snd]; rewrite F1, F2; assumption.
  - intros a b Hab. destruct (coords_unique p1 p2 r _ _ _ _ H Hab (coords_ok p1 p2 r H)) as [E1 E2].
    rewrite E1, E2, C1, C2.
    split; [apply (cell_exact_bounds md (coord1 p1 p2 v) Hm)|apply (cell_exact_bounds md (coord2 p1 p2 v) Hm)].
  - intros a b Hab Da. destruct (coords_unique p1 p2 r _ _ _ _ H Hab (coords_ok p1 p2 r H)) as [E1 _].
    rewrite C1 in E1. pose proof (cell_bounds md (coord1 p1 p2 v) Hm) as Bd. fold n1 in Bd.
    assert (round14 (coord1 p1 p2 v) == a + inject_Z n1) as G.
    { setoid_replace (coord1 p1 p2 v) with (a + inject_Z n1) by (rewrite E1; ring).
      rewrite round14_shift, (D a Da). reflexivity. }
    rewrite G in Bd. lra.
  - intros a b Hab Da. destruct (coords_unique p1 p2 r _ _ _ _ H Hab (coords_ok p1 p2 r H)) as [_ E1].
    rewrite C2 in E1. pose proof (cell_bounds md (coord2 p1 p2 v) Hm) as Bd. fold n2 in Bd.
    assert (round14 (coord2 p1 p2 v) == b + inject_Z n2) as G.
    { setoid_replace (coord2 p1 p2 v) with (b + inject_Z n2) by (rewrite E1; ring).
      rewrite round14_shift, (D b Da). reflexivity. }
    rewrite G in Bd. lra.
Qed.

(** Equivalent vectors have the same reduced form. *)
Lemma reduce_canonical p1 p2 md v w : generators p1 p2 -> md <> OtherMode ->
  equivalent p1 p2 v w ->
  exists r r' n1 n2 n1' n2', reduce_vector p1 p2 md v = Ok (r, n1, n2) /\
    reduce_vector p1 p2 md w = Ok (r', n1', n2') /\ same_point r r'.
Proof.
  intros H Hm (k1 & k2 & E). rewrite !(reduce_value p1 p2 md) by assumption.
  do 6 eexists. split; [reflexivity|]. split; [reflexivity|].
  destruct (coords_moved p1 p2 v w _ _ H E) as [C1 C2].
  eapply same_trans; [apply vsub_vscale|]. apply same_sym. eapply same_trans; [apply vsub_vscale|].
  assert (Z1 : inject_Z (cell md (coord1 p1 p2 w)) == inject_Z (cell md (coord1 p1 p2 v)) + keep1 p1 (inject_Z k1)).
  { rewrite C1. unfold keep1. destruct (root_rounds_to_0 (vdot p1 p1)).
    - setoid_replace (coord1 p1 p2 v + 0) with (coord1 p1 p2 v) by ring. ring.
    - rewrite cell_shift, inject_Z_plus. reflexivity. }
  assert (Z2 : inject_Z (cell md (coord2 p1 p2 w)) == inject_Z (cell md (coord2 p1 p2 v)) + keep1 p2 (inject_Z k2)).
  { rewrite C2. unfold keep1. destruct (root_rounds_to_0 (vdot p2 p2)).
    - setoid_replace (coord2 p1 p2 v + 0) with (coord2 p1 p2 v) by ring. ring.
    - rewrite cell_shift, inject_Z_plus. reflexivity. }
  destruct E as [E1 E2]. unfold moved in *. cbn [fst snd] in *.
  assert (X : forall p k, (is_zero p \/ long p) -> keep1 p k * fst p == k * fst p /\ keep1 p k * snd p == k * snd p).
  { intros p k [Zp|Lp]; unfold keep1.
    - rewrite (zero_test p Zp). destruct Zp as [za zb]. cbn in za, zb. rewrite za, zb. split; ring.
    - rewrite (proj2 (long_test p) Lp). split; reflexivity. }
  destruct (X p1 (inject_Z k1) (proj1 H)) as [X1 X2].
  destruct (X p2 (inject_Z k2) (proj1 (proj2 H))) as [Y1 Y2].
  split; cbn [fst snd].
  - rewrite Z1, Z2, E1.
    setoid_replace (- (inject_Z (cell md (coord1 p1 p2 v)) + keep1 p1 (inject_Z k1)) * fst p1) with
      (- inject_Z (cell md (coord1 p1 p2 v)) * fst p1 - keep1 p1 (inject_Z k1) * fst p1) by ring.
    setoid_replace (- (inject_Z (cell md (coord2 p1 p2 v)) + keep1 p2 (inject_Z k2)) * fst p2) with
      (- inject_Z (cell md (coord2 p1 p2 v)) * fst p2 - keep1 p2 (inject_Z k2) * fst p2) by ring.
    rewrite X1, Y1. ring.
  - rewrite Z1, Z2, E2.
    setoid_replace (- (inject_Z (cell md (coord1 p1 p2 v)) + keep1 p1 (inject_Z k1)) * snd p1) with
      (- inject_Z (cell md (coord1 p1 p2 v)) * snd p1 - keep1 p1 (inject_Z k1) * snd p1) by ring.
    setoid_replace (- (inject_Z (cell md (coord2 p1 p2 v)) + keep1 p2 (inject_Z k2)) * snd p2) with
      (- inject_Z (cell md (coord2 p1 p2 v)) * snd p2 - keep1 p2 (inject_Z k2) * snd p2) by ring.
    rewrite X2, Y2. ring.
Qed.

Lemma cell_cell md x : cell md (x - inject_Z (cell md x)) = 0%Z.
Proof.
  setoid_replace (x - inject_Z (cell md x)) with (x + inject_Z (- cell md x)) by (rewrite inject_Z_opp; ring).
  rewrite cell_shift. lia.
Qed.

Lemma reduce_idempotent p1 p2 md v r n1 n2 : generators p1 p2 ->
  reduce_vector p1 p2 md v = Ok (r, n1, n2) ->
  exists r', reduce_vector p1 p2 md r = Ok (r', 0%Z, 0%Z) /\ same_point r' r.
Proof.
  intros H E. assert (Hm : md <> OtherMode) by (intros ->; discriminate E).
  rewrite (reduce_value p1 p2 md) in E by assumption. injection E as Er <- <-.
  set (m1 := cell md (coord1 p1 p2 v)) in *. set (m2 := cell md (coord2 p1 p2 v)) in *.
  pose proof (vsub_vscale v p1 p2 (inject_Z m1) (inject_Z m2)) as Hr. rewrite Er in Hr.
  destruct (coords_moved p1 p2 v r _ _ H Hr) as [C1 C2].
  destruct (keep1_cell p1 p2 md v H) as [K1 K2]. fold m1 in K1. fold m2 in K2.
  rewrite K1 in C1. rewrite K2 in C2.
  rewrite (reduce_value p1 p2 md r) by assumption.
  assert (A1 : cell md (coord1 p1 p2 r) = 0%Z).
  { rewrite C1. change (coord1 p1 p2 v + - inject_Z m1) with (coord1 p1 p2 v - inject_Z m1). apply cell_cell. }
  assert (A2 : cell md (coord2 p1 p2 r) = 0%Z).
  { rewrite C2. change (coord2 p1 p2 v + - inject_Z m2) with (coord2 p1 p2 v - inject_Z m2). apply cell_cell. }
  rewrite A1, A2. eexists. split; [reflexivity|].
  eapply same_trans; [apply vsub_vscale|]. unfold moved. split; cbn [fst snd]; change (inject_Z 0) with 0; ring.
Qed.

Lemma reduce_other p1 p2 v : reduce_vector p1 p2 OtherMode v = Raise ValueError.
Proof. reflexivity. Qed.
