(** Witnesses against claims that fail for the geometry code. *)
From Coq Require Import List Arith Lia QArith Qabs Qreals Reals ZArith Bool Lqa Lra Psatz.
From Verif Require Import Scalars Res Matrix ModelGeometry ModelPhase SpecGeometry GeoArith GeoReduce GeoSites GeoSites2 GeoDist
  GeoSquare GeoPerm GeoSort GeoPhase GeoApi GeoTotal.
Import ListNotations.
Local Open Scope Q_scope.

(** * Incommensurate periodicity vectors are accepted *)
Lemma incommensurate_accepted :
  (exists L, new_lattice (1, 0) (0, 1) [vzero] (2, 1 # 2) (0, 3) 0 0 = Ok L) /\
  ~ commensurate (1, 0) (0, 1) (2, 1 # 2).
Proof.
  split.
  - eexists. vm_compute. reflexivity.
  - intros (a & b & _ & H). unfold moved in H. cbn [fst snd] in H.
    assert (E : inject_Z (2 * b) == inject_Z 1).
    { rewrite inject_Z_mult. change (inject_Z 2) with 2. change (inject_Z 1) with 1.
      assert (X : (1 # 2) == inject_Z b) by (rewrite H; ring). rewrite <- X. reflexivity. }
    apply (proj1 (inject_Z_injective _ _)) in E. lia.
Qed.

(** * The second counting matrix is symmetric *)
Lemma second_count_symmetric :
  exists L d, new_lattice (1, 0) (0, 1) [vzero] vzero vzero 0 0 = Ok L /\
    reduced_distance L [0; 0] [0; 1] = Ok d /\ d_n2 d 1 0 = 1%Z /\ d_n2 d 0 1 = 1%Z /\ d_n1 d 0 1 = 0%Z.
Proof. do 2 eexists. split; [vm_compute; reflexivity|]. split; [vm_compute; reflexivity|]. vm_compute. auto. Qed.

(** * A ring of two sites carries no phase *)
Lemma two_ring_accepts ph : exists g, c_square_geometry 2 1 ph 0 false true = Ok g.
Proof.
  apply square_accepts; try lia; try reflexivity; intros; try discriminate. apply phase_matrix_valid. assumption.
Qed.

Lemma two_ring_product ph g : c_square_geometry 2 1 ph 0 false true = Ok g ->
  snd (path_product (ent (g_phase g)) 0 [1%nat; 0%nat]) = 0%R.
Proof.
  intros Hg.
  destruct (square_ok phase_matrix valid_phases 2 1 ph 0 false true g ltac:(lia) ltac:(lia) ltac:(lia) ltac:(lia) Hg) as (N & _).
  destruct (phases_hermitian (1, 0) (0, 1) [vzero] (2, 0) (0, 1) ph 0 false true g Hg) as (_ & _ & H).
  - right. reflexivity.
  - right. reflexivity.
  - destruct (H 1%nat 0%nat) as (E & _); [rewrite N; lia|rewrite N; lia|].
    cbn [path_product]. rewrite E. unfold cr_mul, cr_conj. cbn [fst snd].
    set (u := ent (g_phase g) 0 1). ring.
Qed.

Lemma two_ring_phase : exists g, c_square_geometry 2 1 1 0 false true = Ok g /\
  path_product (ent (g_phase g)) 0 [1%nat; 0%nat] <> cexp (Q2R 1).
Proof.
  destruct (two_ring_accepts 1) as (g & Hg). exists g. split; [assumption|]. intros E.
  pose proof (two_ring_product 1 g Hg) as Z. rewrite E in Z. cbn [cexp snd] in Z.
  rewrite RMicromega.Q2R_1 in Z. assert (0 < sin 1)%R; [|lra]. apply sin_gt_0; [lra|]. pose proof PI2_1. unfold PI2 in *. lra.
Qed.

(** * Sorting by adjacency keeps the order of equivalent sites *)
Definition ones (n : nat) : mat CR := Mat n n (fun _ _ => (1, 0)%R).
Lemma ones_valid n : valid_phases n (ones n) = true.
Proof. apply ones_ok. Qed.

Definition free_value (xs ys : list Q) (rows : list (list vec)) : geometry CR :=
  let n := length xs in
  let dx i j := fst (nth j (nth i rows []) vzero) in
  let dy i j := snd (nth j (nth i rows []) vzero) in
  Geom None xs ys n (Mat n n dx) (Mat n n dy) (Mat n n (fun i j => qb (neighbor (dx i j) (dy i j)))) (ones n).

Lemma free_ok xs ys rows : site_distance xs ys = Ok rows ->
  validate_adjacency (length xs) (g_adj (free_value xs ys rows)) = true ->
  c_free_geometry xs ys None None = Ok (free_value xs ys rows).
Proof.
  intros H V. unfold c_free_geometry, free_geometry. rewrite H. cbn [bind]. unfold checked, validate_geometry.
  cbn [g_n g_adj g_phase]. cbn [free_value g_adj] in V. rewrite V.
  change (Mat (length xs) (length xs) (fun _ _ => (1, 0)%R)) with (ones (length xs)). rewrite ones_valid. reflexivity.
Qed.

(** The four sites of a 2x2 square, listed around the square and not. *)
Definition sq_x : list Q := [0; 1; 1; 0].
Definition sq_y : list Q := [0; 0; 1; 1].

Lemma adjacency_sort_depends_on_order :
  exists g g' s s' h h', c_free_geometry sq_x sq_y None None = Ok g /\
    permute_sites g [0; 2; 1; 3]%Z = Ok g' /\
    sorting_permutation g ByAdjacency = Ok s /\ sorting_permutation g' ByAdjacency = Ok s' /\
    permute_sites g (map Z.of_nat s) = Ok h /\ permute_sites g' (map Z.of_nat s') = Ok h' /\
    ent (g_adj h) 0 1 == 1 /\ ent (g_adj h') 0 1 == 0.
Proof.
  do 6 eexists. split; [apply free_ok; [vm_compute; reflexivity|vm_compute; reflexivity]|].
  split; [reflexivity|]. split; [vm_compute; reflexivity|]. split; [vm_compute; reflexivity|].
  split; [reflexivity|]. split; [reflexivity|]. split; vm_compute; reflexivity.
Qed.

(** * Sites that are not at unit distance count as neighbours *)
Lemma near_sites_are_neighbours :
  exists g, c_free_geometry [0; 4 # 5] [0; 2 # 5] None None = Ok g /\
    ent (g_adj g) 0 1 == 1 /\ ~ Qabs (ent (g_xd g) 0 1) == 1 /\ ~ Qabs (ent (g_yd g) 0 1) == 1.
Proof.
  eexists. split; [apply free_ok; [vm_compute; reflexivity|vm_compute; reflexivity]|].
  split; [vm_compute; reflexivity|]. split; vm_compute; discriminate.
Qed.

(** * Comparison with a geometry without lattice raises *)
Definition no_period_value : lattice := Lat (1, 0) (0, 1) [vzero] vzero vzero vzero vzero 0 0.

Lemma comparison_raises :
  exists a b, c_square_geometry 2 1 0 0 true true = Ok a /\ c_free_geometry [0; 1] [0; 0] None None = Ok b /\
    geometry_eqb a b = Raise AttributeError.
Proof.
  destruct (square_accepts phase_matrix valid_phases 2 1 0 0 true true ltac:(lia) ltac:(lia) ltac:(lia) ltac:(lia)
    ltac:(reflexivity) ltac:(reflexivity)) as (a & Ha).
  { intros. apply phase_matrix_valid. assumption. }
  exists a. eexists. split; [assumption|]. split; [apply free_ok; [vm_compute; reflexivity|vm_compute; reflexivity]|].
  unfold square_geometry in Ha. change ((2 =? 1)%Z && negb true) with false in Ha. change ((1 =? 1)%Z && negb true) with false in Ha.
  unfold create_lattice_geom in Ha. cbv iota in Ha. 
  apply bind_ok in Ha as (helper & Hh & Ha). apply bind_ok in Ha as (sites & Hs & Ha). apply bind_ok in Ha as (L & HL & Ha).
  vm_compute in Hh. injection Hh as <-. vm_compute in Hs. injection Hs as <-. vm_compute in HL. injection HL as <-.
  unfold lattice_geometry in Ha. apply bind_ok in Ha as (d & Hd & Ha). 
  vm_compute in Hd. injection Hd as <-. unfold checked in Ha. destruct (validate_geometry _ _); [|discriminate].
  injection Ha as <-. reflexivity.
Qed.

(** * Geometries with different phases compare equal *)
Definition minus (n : nat) : mat CR := Mat n n (fun i j => if (i =? j)%nat then (1, 0)%R else (-1, 0)%R).
Lemma minus_valid : valid_phases 2 (minus 2) = true.
Proof.
  assert (T : (0 < tiny)%R) by (unfold tiny; simpl; lra).
  unfold valid_phases. cbn [minus nrow ncol ent]. cbn [Nat.eqb andb seq forallb].
  assert (M0 : forall x, (rounds_to_0 (modulus (cr_sub (x, 0)%R (cr_conj (x, 0)%R))) = true)).
  { intros x. apply rle_b_true. unfold modulus, cr_sub, cr_conj. cbn [fst snd].
    rewrite Rminus_eq_0, Rmult_0_l, Ropp_0, Rminus_0_r, Rmult_0_l, Rplus_0_l, sqrt_0. lra. }
  assert (M1 : forall x, (x * x = 1)%R -> rounds_to_1 (modulus (x, 0)%R) = true).
  { intros x H. unfold modulus. cbn [fst snd]. rewrite H, Rmult_0_l, Rplus_0_r, sqrt_1.
    unfold rounds_to_1. rewrite andb_true_iff, !rle_b_true. lra. }
  rewrite !M0, !M1 by ring. reflexivity.
Qed.

Lemma phases_ignored :
  exists a b, c_free_geometry [0; 1] [0; 0] None None = Ok a /\ c_free_geometry [0; 1] [0; 0] None (Some (minus 2)) = Ok b /\
    geometry_eqb a b = Ok true /\ ent (g_phase a) 0 1 = (1, 0)%R /\ ent (g_phase b) 0 1 = (-1, 0)%R.
Proof.
  eexists. exists (Geom None [0; 1] [0; 0] 2 (g_xd (free_value [0; 1] [0; 0] [[vzero; (-(1), 0)]; [(1, 0); vzero]]))
     (g_yd (free_value [0; 1] [0; 0] [[vzero; (-(1), 0)]; [(1, 0); vzero]]))
     (g_adj (free_value [0; 1] [0; 0] [[vzero; (-(1), 0)]; [(1, 0); vzero]])) (minus 2)).
  split; [apply free_ok; [vm_compute; reflexivity|vm_compute; reflexivity]|].
  split.
  - unfold c_free_geometry, free_geometry. 
    assert (site_distance [0; 1] [0; 0] = Ok [[vzero; (-(1), 0)]; [(1, 0); vzero]]) as -> by (vm_compute; reflexivity).
    cbn [bind]. unfold checked, validate_geometry. cbn [g_n g_adj g_phase length]. rewrite minus_valid, andb_true_r.
    match goal with |- (if ?c then _ else _) = _ => assert (c = true) as -> by (vm_compute; reflexivity) end. reflexivity.
  - split; [reflexivity|]. split; reflexivity.
Qed.
