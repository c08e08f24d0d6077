(** Property theorems C31..C41: lattices and geometries.  Theorems only.

    Coordinates are exact rationals; the roundings the code makes explicitly
    (fourteen decimals, nearest integers) are part of the model. *)
From Coq Require Import List Arith Bool QArith Qabs Qreals Reals ZArith Sorting Permutation.
From Verif Require Import Scalars Res Matrix ModelGeometry ModelPhase SpecGeometry GeoArith GeoReduce GeoSites GeoSites2 GeoDist GeoSquare
  GeoPerm GeoSort GeoPhase GeoApi GeoTotal RefuteGeometry.
Import ListNotations.
Local Open Scope Q_scope.

(** C31.  [low] is 0 for mode positive and -1/2 for mode centered; coordinates
    with at most fourteen decimals land in the half-open cell, others within
    half a unit of the fourteenth decimal. *)
Theorem C31_reduction : forall p1 p2 md v, generators p1 p2 -> md <> OtherMode ->
  exists r n1 n2, reduce_vector p1 p2 md v = Ok (r, n1, n2) /\
    same_point v (moved r (inject_Z n1) p1 (inject_Z n2) p2) /\
    (is_zero p1 -> n1 = 0%Z) /\ (is_zero p2 -> n2 = 0%Z) /\
    (forall a b, coordinates p1 p2 v a b -> coordinates p1 p2 r (a - inject_Z n1) (b - inject_Z n2)) /\
    (forall a b, coordinates p1 p2 r a b ->
       low md - half_unit <= a <= low md + 1 - half_unit /\
       low md - half_unit <= b <= low md + 1 - half_unit) /\
    (forall a b, coordinates p1 p2 r a b -> decimal14 a -> low md <= a < low md + 1) /\
    (forall a b, coordinates p1 p2 r a b -> decimal14 b -> low md <= b < low md + 1).
Proof. exact reduce_ok. Qed.
Print Assumptions C31_reduction.

Theorem C31_canonical : forall p1 p2 md v w, generators p1 p2 -> md <> OtherMode -> equivalent p1 p2 v w ->
  exists r r' n1 n2 n1' n2', reduce_vector p1 p2 md v = Ok (r, n1, n2) /\
    reduce_vector p1 p2 md w = Ok (r', n1', n2') /\ same_point r r'.
Proof. exact reduce_canonical. Qed.
Print Assumptions C31_canonical.

Theorem C31_idempotent : forall p1 p2 md v r n1 n2, generators p1 p2 ->
  reduce_vector p1 p2 md v = Ok (r, n1, n2) ->
  exists r', reduce_vector p1 p2 md r = Ok (r', 0%Z, 0%Z) /\ same_point r' r.
Proof. exact reduce_idempotent. Qed.
Print Assumptions C31_idempotent.

(** C32, for lattices whose vectors have at most fourteen decimals (the code
    rounds the sites to fourteen decimals). *)
Theorem C32_unique_sites : forall v1 v2 basis p1 p2 ph1 ph2 L, new_lattice v1 v2 basis p1 p2 ph1 ph2 = Ok L ->
  commensurate v1 v2 p1 -> commensurate v1 v2 p2 -> long p1 -> long p2 ->
  (forall u, In u (v1 :: v2 :: basis) -> decimal_point u) ->
  exists sites, unique_sites L = Ok sites /\ sorted_points sites /\
    (forall t, In t sites -> lattice_site v1 v2 basis t) /\
    (forall s, lattice_site v1 v2 basis s -> exists t, In t sites /\ equivalent p1 p2 s t) /\
    (forall k l s t, nth_error sites k = Some s -> nth_error sites l = Some t ->
       equivalent p1 p2 s t -> k = l).
Proof. exact unique_sites_exact. Qed.
Print Assumptions C32_unique_sites.

(** C33 fails: an incommensurate periodicity vector is accepted. *)
Theorem C33_incommensurate_accepted_refuted :
  (exists L, new_lattice (1, 0) (0, 1) [vzero] (2, 1 # 2) (0, 3) 0 0 = Ok L) /\
  ~ commensurate (1, 0) (0, 1) (2, 1 # 2).
Proof. exact incommensurate_accepted. Qed.
Print Assumptions C33_incommensurate_accepted_refuted.

(** What is rejected: periodicity vectors whose remainder is along x. *)
Theorem C33_rejection_partial : forall v1 v2 basis p1 p2 ph1 ph2 p r n1 n2, p = p1 \/ p = p2 ->
  reduce_vector v1 v2 Positive p = Ok (r, n1, n2) -> ~ fst r == 0 -> snd r == 0 ->
  ~ exists L, new_lattice v1 v2 basis p1 p2 ph1 ph2 = Ok L.
Proof. exact x_remainder_rejected. Qed.
Print Assumptions C33_rejection_partial.

Theorem C33_commensurate_accepted : forall v1 v2 basis p1 p2 ph1 ph2,
  long v1 -> long v2 -> half_unit < Qabs (det v1 v2) ->
  (is_zero p1 \/ long p1) -> (is_zero p2 \/ long p2) ->
  (long p1 -> long p2 -> half_unit < Qabs (det p1 p2)) ->
  commensurate v1 v2 p1 -> commensurate v1 v2 p2 ->
  exists L, new_lattice v1 v2 basis p1 p2 ph1 ph2 = Ok L.
Proof. exact lattice_accepted. Qed.
Print Assumptions C33_commensurate_accepted.

(** C34 fails for the last of the four matrices, which is symmetric. *)
Theorem C34_second_count_refuted :
  exists L d, new_lattice (1, 0) (0, 1) [vzero] vzero vzero 0 0 = Ok L /\
    reduced_distance L [0; 0] [0; 1] = Ok d /\ d_n2 d 1 0 = 1%Z /\ d_n2 d 0 1 = 1%Z /\ d_n1 d 0 1 = 0%Z.
Proof. exact second_count_symmetric. Qed.
Print Assumptions C34_second_count_refuted.

Theorem C34_distances_partial : forall v1 v2 basis p1 p2 ph1 ph2 L,
  new_lattice v1 v2 basis p1 p2 ph1 ph2 = Ok L ->
  is_zero p1 \/ long p1 -> is_zero p2 \/ long p2 ->
  forall xs ys, length ys = length xs ->
  exists d, reduced_distance L xs ys = Ok d /\
    forall i j, (i < length xs)%nat -> (j < length xs)%nat ->
      d_x d i j == - d_x d j i /\ d_y d i j == - d_y d j i /\
      d_n1 d i j = (- d_n1 d j i)%Z /\
      equivalent p1 p2 (diff xs ys i j) (d_x d i j, d_y d i j) /\
      (forall a b, coordinates p1 p2 (d_x d i j, d_y d i j) a b ->
         Qabs a <= (1 # 2) + half_unit /\ Qabs b <= (1 # 2) + half_unit).
Proof. exact distances. Qed.
Print Assumptions C34_distances_partial.

Theorem C34_counts_partial : forall v1 v2 basis p1 p2 ph1 ph2 L,
  new_lattice v1 v2 basis p1 p2 ph1 ph2 = Ok L ->
  is_zero p1 \/ long p1 -> is_zero p2 \/ long p2 ->
  forall xs ys, length ys = length xs ->
  exists d, reduced_distance L xs ys = Ok d /\
    forall i j, (j < i)%nat -> (i < length xs)%nat ->
      exists r, same_point (d_x d i j, d_y d i j) (moved r (inject_Z (d_n1 d i j)) v1 (inject_Z (d_n2 d i j)) v2) /\
        (forall a b, coordinates v1 v2 r a b -> Qabs a <= (1 # 2) + half_unit /\ Qabs b <= (1 # 2) + half_unit).
Proof. exact distance_counts. Qed.
Print Assumptions C34_counts_partial.

(** C35.  The bound on the size is where rounding to fourteen decimals starts to
    merge sites. *)
Theorem C35_square_neighbours : forall nx ny ph1 ph2 o1 o2 g, (1 <= nx)%Z -> (1 <= ny)%Z ->
  (2 * nx <= 100000000000000)%Z -> (2 * ny <= 100000000000000)%Z ->
  c_square_geometry nx ny ph1 ph2 o1 o2 = Ok g ->
  g_n g = Z.to_nat (nx * ny) /\ length (g_x g) = g_n g /\ length (g_y g) = g_n g /\
  nrow (g_adj g) = g_n g /\ ncol (g_adj g) = g_n g /\
  (forall k, (k < g_n g)%nat -> nth k (g_x g) 0 == inject_Z (site_x ny k) /\ nth k (g_y g) 0 == inject_Z (site_y ny k)) /\
  (forall k l, (k < g_n g)%nat -> (l < g_n g)%nat ->
    (ent (g_adj g) k l = 0 \/ ent (g_adj g) k l = 1) /\
    ent (g_adj g) k l = ent (g_adj g) l k /\
    ent (g_adj g) k k = 0 /\
    (ent (g_adj g) k l = 1 <->
      (one_step o1 nx (site_x ny k - site_x ny l) /\ site_y ny k = site_y ny l) \/
      (site_x ny k = site_x ny l /\ one_step o2 ny (site_y ny k - site_y ny l)))).
Proof. exact (square_neighbours phase_matrix valid_phases). Qed.
Print Assumptions C35_square_neighbours.

Theorem C35_square_accepted : forall nx ny ph1 ph2 o1 o2, (1 <= nx)%Z -> (1 <= ny)%Z ->
  (2 * nx <= 100000000000000)%Z -> (2 * ny <= 100000000000000)%Z ->
  (nx = 1 -> o1 = true)%Z -> (ny = 1 -> o2 = true)%Z ->
  exists g, c_square_geometry nx ny ph1 ph2 o1 o2 = Ok g.
Proof. exact square_total. Qed.
Print Assumptions C35_square_accepted.

(** C36.  [tiny] is 1e-14: imaginary parts are dropped when none exceeds it. *)
Theorem C36_phase_matrix : forall v1 v2 basis p1 p2 ph1 ph2 o1 o2 g,
  c_create_lattice_geom v1 v2 basis p1 p2 ph1 ph2 o1 o2 = Ok g ->
  is_zero p1 \/ long p1 -> is_zero p2 \/ long p2 ->
  nrow (g_phase g) = g_n g /\ ncol (g_phase g) = g_n g /\
  forall i j, (i < g_n g)%nat -> (j < g_n g)%nat ->
    ent (g_phase g) i j = cr_conj (ent (g_phase g) j i) /\
    (1 - tiny * tiny <= modulus (ent (g_phase g) i j) * modulus (ent (g_phase g) i j) <= 1)%R /\
    (ph1 == 0 -> ph2 == 0 -> ent (g_phase g) i j = (1, 0)%R).
Proof. exact phases_hermitian. Qed.
Print Assumptions C36_phase_matrix.

(** Around a closed loop the phases multiply up to exp(i(w1 phase1 + w2 phase2))
    where w1, w2 count how often the steps of the loop wind around. *)
Theorem C36_loops : forall v1 v2 basis p1 p2 ph1 ph2 o1 o2 g,
  c_create_lattice_geom v1 v2 basis p1 p2 ph1 ph2 o1 o2 = Ok g ->
  is_zero p1 \/ long p1 -> is_zero p2 \/ long p2 ->
  forall k path, complex_phases g -> (k < g_n g)%nat -> Forall (fun l => (l < g_n g)%nat) path -> last path k = k ->
  exists w1 w2, (o1 = true -> w1 = 0%Z) /\ (o2 = true -> w2 = 0%Z) /\
    same_point (path_sum (ent (g_xd g)) k path, path_sum (ent (g_yd g)) k path)
      (moved (0, 0) (inject_Z w1) (periodicity o1 p1) (inject_Z w2) (periodicity o2 p2)) /\
    path_product (ent (g_phase g)) k path = cexp (Q2R (inject_Z w1 * ph1 + inject_Z w2 * ph2)).
Proof. exact phases_loop. Qed.
Print Assumptions C36_loops.

(** The ring claim holds for three sites and more ... *)
Theorem C36_ring_partial : forall n ph1 ph2 o2 g, (3 <= n)%Z -> (2 * n <= 100000000000000)%Z ->
  c_square_geometry n 1 ph1 ph2 false o2 = Ok g -> complex_phases g ->
  path_product (ent (g_phase g)) 0 (seq 1 (Z.to_nat n - 1) ++ [0%nat]) = cexp (Q2R ph1).
Proof. exact ring_phase. Qed.
Print Assumptions C36_ring_partial.

(** ... and fails for two. *)
Theorem C36_two_site_ring_refuted : exists g, c_square_geometry 2 1 1 0 false true = Ok g /\
  path_product (ent (g_phase g)) 0 [1%nat; 0%nat] <> cexp (Q2R 1).
Proof. exact two_ring_phase. Qed.
Print Assumptions C36_two_site_ring_refuted.

(** C37. *)
Theorem C37_relabelling : forall Ph (g : geometry Ph) perm, is_perm (g_n g) perm ->
  exists g', permute_sites g perm = Ok g' /\ relabelled (np perm) g g'.
Proof. exact @permute_ok. Qed.
Print Assumptions C37_relabelling.

Theorem C37_not_a_permutation : forall Ph (g : geometry Ph) perm, ~ is_perm (g_n g) perm ->
  permute_sites g perm = Raise ValueError.
Proof. exact @permute_bad. Qed.
Print Assumptions C37_not_a_permutation.

Theorem C37_composition : forall Ph (g : geometry Ph) p q, is_perm (g_n g) p -> is_perm (g_n g) q ->
  exists g1 g2 g3, permute_sites g p = Ok g1 /\ permute_sites g1 q = Ok g2 /\
    permute_sites g (compose p q) = Ok g3 /\ same_geometry g2 g3.
Proof. exact @permute_compose. Qed.
Print Assumptions C37_composition.

Theorem C37_inverse : forall Ph (g : geometry Ph) p q, is_perm (g_n g) p -> is_perm (g_n g) q ->
  (forall i, (i < g_n g)%nat -> np p (np q i) = i) ->
  exists g1 g2, permute_sites g p = Ok g1 /\ permute_sites g1 q = Ok g2 /\ same_geometry g g2.
Proof. exact @permute_inverse. Qed.
Print Assumptions C37_inverse.

(** C38, the three geometric modes.  Mode top_alternating needs rows at integer
    distances (the code raises -1 to the power of the distance). *)
Theorem C38_sorted_partial : forall Ph (g : geometry Ph) md,
  geometric md = true -> well_sized g -> (0 < g_n g)%nat -> distinct_sites g ->
  (md = TopAlternating -> integer_rows g) ->
  exists s, sorting_permutation g md = Ok s /\ Permutation s (seq 0 (g_n g)) /\
    StronglySorted (fun i j => site_before g md (site g i) (site g j)) s.
Proof. exact @sorting_ok. Qed.
Print Assumptions C38_sorted_partial.

Theorem C38_order_and_translation_partial : forall Ph f d (g g' : geometry Ph) md s s',
  geometric md = true -> well_sized g -> (0 < g_n g)%nat -> distinct_sites g ->
  (md = TopAlternating -> integer_rows g) -> same_sites f d g g' ->
  sorting_permutation g md = Ok s -> sorting_permutation g' md = Ok s' -> map f s' = s.
Proof. exact @sorting_canonical. Qed.
Print Assumptions C38_order_and_translation_partial.

Theorem C38_sorted_geometry_partial : forall Ph (g : geometry Ph) p g' md s s' h h',
  geometric md = true -> well_sized g -> (0 < g_n g)%nat -> distinct_sites g ->
  (md = TopAlternating -> integer_rows g) ->
  permute_sites g p = Ok g' ->
  sorting_permutation g md = Ok s -> sorting_permutation g' md = Ok s' ->
  permute_sites g (map Z.of_nat s) = Ok h -> permute_sites g' (map Z.of_nat s') = Ok h' ->
  same_geometry h h'.
Proof. exact @sorted_geometry. Qed.
Print Assumptions C38_sorted_geometry_partial.

(** Mode adjacency: the sorted geometry depends on the order of the input. *)
Theorem C38_adjacency_mode_refuted :
  exists g g' s s' h h', c_free_geometry sq_x sq_y None None = Ok g /\
    permute_sites g [0; 2; 1; 3]%Z = Ok g' /\
    sorting_permutation g ByAdjacency = Ok s /\ sorting_permutation g' ByAdjacency = Ok s' /\
    permute_sites g (map Z.of_nat s) = Ok h /\ permute_sites g' (map Z.of_nat s') = Ok h' /\
    ent (g_adj h) 0 1 == 1 /\ ent (g_adj h') 0 1 == 0.
Proof. exact adjacency_sort_depends_on_order. Qed.
Print Assumptions C38_adjacency_mode_refuted.

(** C39. *)
Theorem C39_near_sites_refuted :
  exists g, c_free_geometry [0; 4 # 5] [0; 2 # 5] None None = Ok g /\
    ent (g_adj g) 0 1 == 1 /\ ~ Qabs (ent (g_xd g) 0 1) == 1 /\ ~ Qabs (ent (g_yd g) 0 1) == 1.
Proof. exact near_sites_are_neighbours. Qed.
Print Assumptions C39_near_sites_refuted.

Theorem C39_integer_sites_partial : forall a b : Z,
  (x_neighbor (inject_Z a) (inject_Z b) = true <-> (Z.abs a = 1 /\ b = 0)%Z) /\
  (y_neighbor (inject_Z a) (inject_Z b) = true <-> (a = 0 /\ Z.abs b = 1)%Z) /\
  (neighbor (inject_Z a) (inject_Z b) = true <-> (Z.abs a = 1 /\ b = 0 \/ a = 0 /\ Z.abs b = 1)%Z).
Proof. exact neighbor_int. Qed.
Print Assumptions C39_integer_sites_partial.

Theorem C39_integer_geometry_partial : forall (xs ys : list Z), length ys = length xs ->
  exists g, c_free_geometry (map inject_Z xs) (map inject_Z ys) None None = Ok g /\ g_n g = length xs /\
    forall i j, (i < length xs)%nat -> (j < length xs)%nat ->
      let dx := (nth i xs 0 - nth j xs 0)%Z in
      let dy := (nth i ys 0 - nth j ys 0)%Z in
      ent (g_adj g) i j = (if (Z.abs dx + Z.abs dy =? 1)%Z then 1 else 0).
Proof. exact free_integer. Qed.
Print Assumptions C39_integer_geometry_partial.

(** C40. *)
Theorem C40_comparison_raises_refuted :
  exists a b, c_square_geometry 2 1 0 0 true true = Ok a /\ c_free_geometry [0; 1] [0; 0] None None = Ok b /\
    geometry_eqb a b = Raise AttributeError.
Proof. exact comparison_raises. Qed.
Print Assumptions C40_comparison_raises_refuted.

Theorem C40_phases_ignored_refuted :
  exists a b, c_free_geometry [0; 1] [0; 0] None None = Ok a /\ c_free_geometry [0; 1] [0; 0] None (Some (minus 2)) = Ok b /\
    geometry_eqb a b = Ok true /\ ent (g_phase a) 0 1 = (1, 0)%R /\ ent (g_phase b) 0 1 = (-1, 0)%R.
Proof. exact phases_ignored. Qed.
Print Assumptions C40_phases_ignored_refuted.

Theorem C40_reflexive : forall Ph (a : geometry Ph), geometry_eqb a a = Ok true.
Proof. exact @equality_refl. Qed.
Print Assumptions C40_reflexive.

Theorem C40_symmetric : forall Ph (a b : geometry Ph), geometry_eqb a b = geometry_eqb b a.
Proof. exact @equality_sym. Qed.
Print Assumptions C40_symmetric.

(** [agree] lists what equal geometries share: sites, distances, adjacency,
    lattice and periodicity vectors and phases.  Missing: phase matrix and basis. *)
Theorem C40_answer_partial : forall Ph (a b : geometry Ph), (g_lat a = None <-> g_lat b = None) ->
  exists r, geometry_eqb a b = Ok r /\ (r = true <-> agree a b).
Proof. exact @equality_answer. Qed.
Print Assumptions C40_answer_partial.

(** C41. *)
Theorem C41_dual_vectors : forall v1 v2, ~ det v1 v2 == 0 ->
  exists b1 b2, reciprocal_vects v1 v2 = Ok (b1, b2) /\
    dot v1 b1 == 1 /\ dot v1 b2 == 0 /\ dot v2 b1 == 0 /\ dot v2 b2 == 1.
Proof. exact reciprocal_ok. Qed.
Print Assumptions C41_dual_vectors.

Theorem C41_degenerate : forall v1 v2, det v1 v2 == 0 ->
  (~ is_zero v1 -> ~ is_zero v2 -> reciprocal_vects v1 v2 = Raise ValueError) /\
  (is_zero v1 -> ~ is_zero v2 -> exists b2, reciprocal_vects v1 v2 = Ok ((0, 0), b2) /\
     dot v2 b2 == 1 /\ det v2 b2 == 0) /\
  (~ is_zero v1 -> is_zero v2 -> exists b1, reciprocal_vects v1 v2 = Ok (b1, (0, 0)) /\
     dot v1 b1 == 1 /\ det v1 b1 == 0) /\
  (is_zero v1 -> is_zero v2 -> reciprocal_vects v1 v2 = Ok ((0, 0), (0, 0))).
Proof. exact reciprocal_degenerate. Qed.
Print Assumptions C41_degenerate.
