(** Geometries that are accepted; clusters of integer sites. *)
From Coq Require Import List Arith Lia QArith Qabs Qreals Reals ZArith Bool Lqa Lra Psatz.
From Verif Require Import Scalars Res Matrix ModelGeometry ModelPhase SpecGeometry GeoArith GeoReduce GeoSites GeoSites2 GeoDist
  GeoSquare GeoPhase GeoApi.
Import ListNotations.
Local Open Scope Q_scope.

(** * Totality *)
Lemma square_total nx ny ph1 ph2 o1 o2 : (1 <= nx)%Z -> (1 <= ny)%Z ->
  (2 * nx <= 100000000000000)%Z -> (2 * ny <= 100000000000000)%Z ->
  (nx = 1 -> o1 = true)%Z -> (ny = 1 -> o2 = true)%Z ->
  exists g, c_square_geometry nx ny ph1 ph2 o1 o2 = Ok g.
Proof.
  intros. apply square_accepts; try assumption. intros. apply phase_matrix_valid. assumption.
Qed.

Lemma ones_ok n : valid_phases n (Mat n n (fun _ _ => (1, 0)%R)) = true.
Proof.
  unfold valid_phases. cbn [nrow ncol ent]. rewrite Nat.eqb_refl. cbn [andb].
  apply forallb_forall. intros i _. apply forallb_forall. intros j _.
  assert (modulus (cr_sub (1, 0)%R (cr_conj (1, 0)%R)) = 0%R) as ->.
  { unfold modulus, cr_sub, cr_conj. cbn [fst snd]. transitivity (sqrt 0); [f_equal; ring|apply sqrt_0]. }
  assert (modulus (1, 0)%R = 1%R) as ->.
  { unfold modulus. cbn [fst snd]. transitivity (sqrt 1); [f_equal; ring|apply sqrt_1]. }
  assert (0 < tiny)%R by (unfold tiny; simpl; lra).
  unfold rounds_to_0, rounds_to_1. rewrite !andb_true_iff, !rle_b_true. lra.
Qed.

Lemma site_distance_ok xs ys : length ys = length xs ->
  exists rows, site_distance xs ys = Ok rows /\
    forall i j, (i < length xs)%nat -> (j < length xs)%nat ->
      nth j (nth i rows []) vzero = vsub (at_ xs i, at_ ys i) (at_ xs j, at_ ys j).
Proof.
  intros Ly. unfold site_distance.
  rewrite (rmap_total _ (fun i => map (fun j => vsub (at_ xs i, at_ ys i) (at_ xs j, at_ ys j)) (seq 0 (length xs)))).
  - eexists. split; [reflexivity|]. intros i j Hi Hj.
    set (f := fun i => map (fun j => vsub (at_ xs i, at_ ys i) (at_ xs j, at_ ys j)) (seq 0 (length xs))).
    rewrite (nth_indep _ [] (f 0%nat)) by (rewrite map_length, seq_length; assumption).
    rewrite (map_nth f), seq_nth by assumption. unfold f. cbn [Nat.add].
    set (h := fun j => vsub (at_ xs i, at_ ys i) (at_ xs j, at_ ys j)).
    rewrite (nth_indep _ vzero (h 0%nat)) by (rewrite map_length, seq_length; assumption).
    rewrite (map_nth h), seq_nth by assumption. reflexivity.
  - intros i Hi. apply in_seq in Hi. apply rmap_total. intros j Hj. apply in_seq in Hj.
    rewrite !get_loc_ok by lia. reflexivity.
Qed.

Lemma neighbor_comp a b c d : a == b -> c == d -> neighbor a c = neighbor b d.
Proof. intros H H'. unfold neighbor, x_neighbor, y_neighbor. rewrite H, H'. reflexivity. Qed.

Lemma free_integer (xs ys : list Z) : length ys = length xs ->
  exists g, c_free_geometry (map inject_Z xs) (map inject_Z ys) None None = Ok g /\ g_n g = length xs /\
    forall i j, (i < length xs)%nat -> (j < length xs)%nat ->
      let dx := (nth i xs 0 - nth j xs 0)%Z in
      let dy := (nth i ys 0 - nth j ys 0)%Z in
      ent (g_adj g) i j = (if (Z.abs dx + Z.abs dy =? 1)%Z then 1 else 0).
Proof.
  intros Ly. unfold c_free_geometry, free_geometry.
  destruct (site_distance_ok (map inject_Z xs) (map inject_Z ys)) as (rows & -> & H); [rewrite !map_length; assumption|].
  rewrite !map_length in *. cbn [bind]. unfold checked.
  set (G := Geom _ _ _ _ _ _ _ _).
  assert (A : forall i j, (i < length xs)%nat -> (j < length xs)%nat ->
    ent (g_adj G) i j = (if (Z.abs (nth i xs 0 - nth j xs 0) + Z.abs (nth i ys 0 - nth j ys 0) =? 1)%Z then 1 else 0)).
  { intros i j Hi Hj. subst G. cbn [g_adj ent]. rewrite (H i j Hi Hj). unfold vsub. cbn [fst snd]. unfold at_.
    assert (N : forall (l : list Z) k, nth k (map inject_Z l) 0 = inject_Z (nth k l 0%Z)) by (intros l k; exact (map_nth inject_Z l 0%Z k)).
    rewrite !N.
    assert (S : forall a b, Qred (inject_Z a - inject_Z b) == inject_Z (a - b)).
    { intros a b. rewrite Qred_correct. unfold Z.sub. rewrite inject_Z_plus, inject_Z_opp. reflexivity. }
    rewrite (neighbor_comp _ _ _ _ (S _ _) (S _ _)).
    destruct (neighbor_int (nth i xs 0 - nth j xs 0)%Z (nth i ys 0 - nth j ys 0)%Z) as (_ & _ & E).
    destruct (neighbor _ _); destruct (Z.eqb_spec (Z.abs (nth i xs 0 - nth j xs 0) + Z.abs (nth i ys 0 - nth j ys 0))%Z 1) as [F|F];
      try reflexivity; exfalso.
    - destruct (proj1 E eq_refl); lia.
    - assert (false = true) by (apply E; lia). discriminate. }
  assert (V : validate_geometry valid_phases G = true).
  { unfold validate_geometry. rewrite andb_true_iff. split; [|apply ones_ok].
    unfold validate_adjacency, mat_eqb, mtr. rewrite !andb_true_iff.
    assert (R : nrow (g_adj G) = length xs) by reflexivity. assert (C : ncol (g_adj G) = length xs) by reflexivity.
    cbn [nrow ncol ent]. rewrite R, C, !Nat.eqb_refl.
    repeat match goal with |- _ /\ _ => split end; try reflexivity.
    - apply forallb_forall. intros i Hi. apply in_seq in Hi. apply forallb_forall. intros j Hj. apply in_seq in Hj.
      apply Qeq_bool_iff. rewrite !A by lia.
      replace (Z.abs (nth j xs 0 - nth i xs 0))%Z with (Z.abs (nth i xs 0 - nth j xs 0))%Z by lia.
      replace (Z.abs (nth j ys 0 - nth i ys 0))%Z with (Z.abs (nth i ys 0 - nth j ys 0))%Z by lia. reflexivity.
    - apply forallb_forall. intros i Hi. apply in_seq in Hi. apply forallb_forall. intros j Hj. apply in_seq in Hj.
      rewrite A by lia. destruct (_ =? _)%Z; reflexivity. }
  rewrite V. exists G. split; [reflexivity|]. split; [reflexivity|]. intros i j Hi Hj. apply A; assumption.
Qed.
