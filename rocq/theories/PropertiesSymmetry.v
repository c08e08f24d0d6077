(** Property theorems C42..C48 and C73: coordinate maps, site cycles and
    symmetry sectors.  Theorems only.

    [svd] stands for the singular value decomposition of numpy; what is asked of
    it is [row_basis]. *)
From Coq Require Import List Arith Bool QArith Reals ZArith Permutation.
From Verif Require Import Scalars Res Matrix SpecMat SpecPerm ModelGeometry ModelPhase ModelSites ModelSymmetry
  SpecGeometry SpecSites SpecSymmetry MapProofs SiteProofs SiteApi RefuteSites SymZn SymSpan SymTrans2 SymApi SymPerm SymSeven
  SymTorus9 CharTable.
Import ListNotations.
Local Open Scope nat_scope.

Section Maps.
Local Open Scope R_scope.

(** C42. *)
Theorem C42_rotation : forall n c, n <> 0%Z -> exists f, rotation_map n c = Ok f /\
  f c = c /\
  (forall v w, dist2 (f v) (f w) = dist2 v w) /\
  (forall u v w, area2 (f u) (f v) (f w) = area2 u v w) /\
  (forall v, iter f (Z.abs_nat n) v = v) /\
  (forall r a, f (polar c r a) = polar c r (a + 2 * PI / IZR n)).
Proof. exact rotation_ok. Qed.

Theorem C42_reflection : forall v c, v <> (0, 0) -> exists f, reflection_map v c = Ok f /\
  f c = c /\
  (forall s, f (fst c + s * fst v, snd c + s * snd v) = (fst c + s * fst v, snd c + s * snd v)) /\
  (forall s, f (fst c - s * snd v, snd c + s * fst v) = (fst c + s * snd v, snd c - s * fst v)) /\
  (forall w, f (f w) = w) /\
  (forall w z, dist2 (f w) (f z) = dist2 w z) /\
  (forall t u w, area2 (f t) (f u) (f w) = - area2 t u w).
Proof. exact reflection_ok. Qed.

Theorem C42_inversion : forall c, inversion_map c c = c /\
  (forall v, inversion_map c (inversion_map c v) = v) /\
  (forall v, (fst v + fst (inversion_map c v)) / 2 = fst c /\ (snd v + snd (inversion_map c v)) / 2 = snd c) /\
  (forall v w, dist2 (inversion_map c v) (inversion_map c w) = dist2 v w).
Proof. exact inversion_ok. Qed.

Theorem C42_half_turn : forall c, exists f, rotation_map 2 c = Ok f /\ forall v, f v = inversion_map c v.
Proof. exact half_turn. Qed.

Theorem C42_translation : forall s t v w,
  translation_map s (translation_map t v) = translation_map (fst s + fst t, snd s + snd t) v /\
  translation_map (0, 0) v = v /\
  dist2 (translation_map t v) (translation_map t w) = dist2 v w /\
  forall k, iter (translation_map t) k v = translation_map (INR k * fst t, INR k * snd t) v.
Proof. exact shift_ok. Qed.

(** The arguments which describe no map are rejected. *)
Theorem C42_degenerate : forall c, rotation_map 0 c = Raise GenericException /\ reflection_map (0, 0) c = Raise GenericException.
Proof. exact (fun c => conj (rotation_zero c) (reflection_zero c)). Qed.
End Maps.
Print Assumptions C42_rotation.
Print Assumptions C42_reflection.
Print Assumptions C42_inversion.
Print Assumptions C42_half_turn.
Print Assumptions C42_translation.
Print Assumptions C42_degenerate.

(** C43, for at least two sites.  [cycles_perm cs i] is the site following [i] in
    its cycle; [m] is the smallest positive number of applications after which
    every site is back. *)
Theorem C43_cycles : forall L coords f tol cs m, let n := length coords in
  site_cycles L coords f tol = Ok (cs, m) -> 2 <= n ->
    Permutation (concat cs) (seq 0 n) /\ ~ In [] cs /\
    (forall i, i < n -> cycles_perm cs i < n /\ near L tol (f (nth i coords vzero)) (nth (cycles_perm cs i) coords vzero)) /\
    (1 <= m <= n) /\ (forall i, i < n -> iter (cycles_perm cs) m i = i) /\
    forall k, 1 <= k < m -> exists i, i < n /\ iter (cycles_perm cs) k i <> i.
Proof. exact site_cycles_ok. Qed.
Print Assumptions C43_cycles.

Theorem C43_not_a_symmetry : forall L coords f tol i, usable L -> 2 <= length coords -> i < length coords ->
  (forall j, j < length coords -> ~ near L tol (f (nth i coords vzero)) (nth j coords vzero)) ->
  site_cycles L coords f tol = Raise GenericException.
Proof. exact no_image_raises. Qed.
Print Assumptions C43_not_a_symmetry.

(** C44.  Full statement: for every [L], [coords], [f] and [pi] such that [f]
    takes site [i] to site [pi i] and [pi] is a permutation, [site_cycles]
    returns the cycles and the length of the longest one.  False: the number of
    iterations is limited to the number of sites, which is less than the order of
    some symmetries, and the number returned is the order of the permutation. *)
Theorem C44_order_above_number_of_sites_refuted :
  exists L coords f pi, usable L /\
    (forall i, i < length coords -> pi i < length coords /\ on_site L (f (nth i coords vzero)) (nth (pi i) coords vzero)) /\
    Permutation (map pi (seq 0 (length coords))) (seq 0 (length coords)) /\
    site_cycles L coords f (1 # 10000000000) = Raise GenericException.
Proof.
  exact (ex_intro _ (Some hex_lattice) (ex_intro _ hex_sites (ex_intro _ hex_turn (ex_intro _ hex_image
    (conj hex_usable (conj hex_images (conj hex_perm hex_refused))))))).
Qed.
Print Assumptions C44_order_above_number_of_sites_refuted.

Theorem C44_longest_cycle_refuted :
  exists L coords f cs m, site_cycles L coords f (1 # 10000000000) = Ok (cs, m) /\
    forall c, In c cs -> length c < m.
Proof.
  exact (ex_intro _ (Some hex_lattice) (ex_intro _ (hex_sites ++ [(0, 0)%Q]) (ex_intro _ hex_turn (ex_intro _ [[0; 1]; [2; 4; 3]; [5]]
    (ex_intro _ 6 (conj hex_with_centre hex_short)))))).
Qed.
Print Assumptions C44_longest_cycle_refuted.

(** A single site is reported to be back after no application. *)
Theorem C44_single_site_refuted : forall L v f tol, site_cycles L [v] f tol = Ok ([[0]], 0).
Proof. exact single_site. Qed.
Print Assumptions C44_single_site_refuted.

(** What holds: symmetries of order at most the number of sites are found, the
    others are refused. *)
Theorem C44_accepted_partial : forall L coords f tol pi, let n := length coords in
  (forall i, i < n -> pi i < n /\ on_site L (f (nth i coords vzero)) (nth (pi i) coords vzero)) ->
  (forall i j, i < n -> j < n -> near L tol (nth i coords vzero) (nth j coords vzero) -> i = j) ->
  (0 < tol)%Q -> usable L -> 2 <= n ->
    (forall k, 1 <= k <= n -> (forall i, i < n -> iter pi k i = i) ->
       exists cs m, site_cycles L coords f tol = Ok (cs, m) /\ m <= k /\
         forall i, i < n -> cycles_perm cs i = pi i) /\
    ((forall k, 1 <= k <= n -> exists i, i < n /\ iter pi k i <> i) ->
       site_cycles L coords f tol = Raise GenericException).
Proof. exact site_cycles_exact. Qed.
Print Assumptions C44_accepted_partial.

(** C45.  [zn_ks n] are the momenta returned: 2 pi k / n. *)
Theorem C45_cyclic_sectors : forall N n T svd, 0 < n -> moves_states N T -> meq (mpow N T n) (meye N) ->
  exists Bs, zn_projectors svd T n = Ok Bs /\ length Bs = n /\ splits N Bs /\
    (forall k, k < n -> acts_as (nth k Bs (mzero 0 0)) T (cexp (- (2 * PI * INR k / INR n)))) /\
    (forall H, square N H -> meq (mmul T H) (mmul H T) -> block_diagonal Bs H).
Proof. exact zn_sectors. Qed.
Print Assumptions C45_cyclic_sectors.

(** C46.  [class_values]: in every sector the class sums have the values given by
    the table, so that the states transform under the representation of the row. *)
Theorem C46_D2_partial : forall N R S svd, (forall M, row_basis M (svd M)) -> dihedral_pair 2 N R S ->
  exists Bs, d2_projectors svd R S = Ok Bs /\ length Bs = 4 /\
    symmetry_sectors N [R; S] Bs /\ class_values N d2_table (d2_classes R S) Bs.
Proof. exact d2_ok. Qed.
Print Assumptions C46_D2_partial.
Theorem C46_D3_partial : forall N R S svd, (forall M, row_basis M (svd M)) -> dihedral_pair 3 N R S ->
  exists Bs, d3_projectors svd R S = Ok Bs /\ length Bs = 3 /\
    symmetry_sectors N [R; S] Bs /\ class_values N d3_table (d3_classes R S) Bs.
Proof. exact d3_ok. Qed.
Print Assumptions C46_D3_partial.
Theorem C46_D4_partial : forall N R S svd, (forall M, row_basis M (svd M)) -> dihedral_pair 4 N R S ->
  exists Bs, d4_projectors svd R S = Ok Bs /\ length Bs = 5 /\
    symmetry_sectors N [R; S] Bs /\ class_values N d4_table (d4_classes R S) Bs.
Proof. exact d4_ok. Qed.
Print Assumptions C46_D4_partial.
Theorem C46_D5_partial : forall N R S svd, (forall M, row_basis M (svd M)) -> dihedral_pair 5 N R S ->
  exists Bs, d5_projectors svd R S = Ok Bs /\ length Bs = 4 /\
    symmetry_sectors N [R; S] Bs /\ class_values N d5_table (d5_classes R S) Bs.
Proof. exact d5_ok. Qed.
Print Assumptions C46_D5_partial.
Theorem C46_D6_partial : forall N R S svd, (forall M, row_basis M (svd M)) -> dihedral_pair 6 N R S ->
  exists Bs, d6_projectors svd R S = Ok Bs /\ length Bs = 6 /\
    symmetry_sectors N [R; S] Bs /\ class_values N d6_table (d6_classes R S) Bs.
Proof. exact d6_ok. Qed.
Print Assumptions C46_D6_partial.

(** The table of D7 is attached to the wrong classes: the projectors of a ring of
    seven sites cannot be computed, although the table passes the validation. *)
Theorem C46_D7_refuted : exists R S, dihedral_pair 7 7 R S /\
  validate_table d7_table (map (@length cmat) (d7_classes R S)) = Ok true /\
  forall svd, (forall M, row_basis M (svd M)) -> d7_projectors svd R S = Raise GenericException.
Proof. exact (ex_intro _ rot7 (ex_intro _ refl7 (conj pair7 (conj d7_accepted d7_raises)))). Qed.
Print Assumptions C46_D7_refuted.

(** The 3x3 torus with a clockwise quarter turn. *)
Theorem C46_torus_clockwise_partial : forall N R S X Y svd, (forall M, row_basis M (svd M)) -> torus_group false N R S X Y ->
  exists Bs, torus_projectors svd R S X Y = Ok Bs /\ length Bs = 9 /\
    symmetry_sectors N [X; Y; R; S] Bs /\ class_values N torus_table (torus_classes R S X Y) Bs.
Proof. exact torus_cw_ok. Qed.
Print Assumptions C46_torus_clockwise_partial.

(** With the counterclockwise turn that the library's rotation gives, the lists
    of conjugacy classes are wrong: the Hamiltonian is still block diagonal, but
    some sectors are not mapped to themselves by the symmetries. *)
Theorem C46_torus_counterclockwise_partial : forall N R S X Y svd, (forall M, row_basis M (svd M)) -> torus_group true N R S X Y ->
  exists Bs, torus_projectors svd R S X Y = Ok Bs /\ length Bs = 9 /\ splits N Bs /\
    (forall H, square N H -> (forall A, In A [X; Y; R; S] -> meq (mmul A H) (mmul H A)) -> block_diagonal Bs H).
Proof. exact torus_ccw_partial. Qed.
Print Assumptions C46_torus_counterclockwise_partial.

Theorem C46_torus_sectors_refuted : exists R S X Y, torus_group true 9 R S X Y /\
  forall svd, (forall M, row_basis M (svd M)) ->
  exists Bs B, torus_projectors svd R S X Y = Ok Bs /\ In B Bs /\
    ~ meq (mmul X (mmul (madj B) B)) (mmul (mmul (madj B) B) X).
Proof. exact (ex_intro _ _ (ex_intro _ _ (ex_intro _ _ (ex_intro _ _ (conj torus9_ccw torus9_moves))))). Qed.
Print Assumptions C46_torus_sectors_refuted.

(** C47.  Full statement: for every table of the right shape,
    [validate_table T sizes = Ok true <-> orthogonal_table T sizes].  False: the
    sums are rounded to integers. *)
Theorem C47_rounding_refuted : exists T sizes, shaped T sizes /\ divide_order sizes /\
  validate_table T sizes = Ok true /\ ~ orthogonal_table T sizes.
Proof. exact wrong_table. Qed.
Print Assumptions C47_rounding_refuted.

Theorem C47_accepts_partial : forall T sizes, shaped T sizes -> divide_order sizes -> orthogonal_table T sizes ->
  validate_table T sizes = Ok true.
Proof. exact validate_accepts. Qed.
Print Assumptions C47_accepts_partial.

Theorem C47_integer_tables_partial : forall rows sizes, shaped (int_table rows) sizes -> divide_order sizes ->
  (validate_table (int_table rows) sizes = Ok true <-> orthogonal_table (int_table rows) sizes).
Proof. exact validate_integers. Qed.
Print Assumptions C47_integer_tables_partial.

Theorem C47_within_half_partial : forall T sizes, shaped T sizes -> divide_order sizes -> validate_table T sizes = Ok true ->
  forall i j, i < length sizes -> j < length sizes ->
    (Rabs (fst (column_product T i j) - (if (i =? j)%nat then INR (list_sum sizes) / INR (nth i sizes O) else 0)) <= 1 / 2 /\
     Rabs (fst (row_product T sizes i j) - (if (i =? j)%nat then INR (list_sum sizes) else 0)) <= 1 / 2)%R.
Proof. exact validate_near. Qed.
Print Assumptions C47_within_half_partial.

(** Tables of another shape are not accepted, apart from those with one row. *)
Theorem C47_shape_partial : forall T sizes, validate_table T sizes = Ok true -> 2 <= nrow T -> shaped T sizes.
Proof. exact validate_shape. Qed.
Print Assumptions C47_shape_partial.
Theorem C47_shape_refuted : exists T sizes, validate_table T sizes = Ok true /\ nrow T = 1 /\ ncol T = 3.
Proof. exact validate_one_row. Qed.
Print Assumptions C47_shape_refuted.

(** C48. *)
Theorem C48_sector_basis : forall N n T svd, 0 < n -> moves_states N T -> meq (mpow N T n) (meye N) ->
  exists Bs, zn_projectors svd T n = Ok Bs /\ length Bs = n /\
    forall k, k < n -> let B := nth k Bs (mzero 0 0) in
      ncol B = N /\ meq (mmul B (madj B)) (meye (nrow B)) /\
      forall x, nrow x = N -> ncol x = 1 ->
        (meq (mmul T x) (mscale (cexp (- nth k (zn_ks n) 0%R)) x) <->
         exists y, nrow y = nrow B /\ ncol y = 1 /\ meq x (mmul (madj B) y)).
Proof. exact zn_span. Qed.
Print Assumptions C48_sector_basis.

(** C73.  Every entry of the list returned is a basis of a sector and its two
    momenta. *)
Theorem C73_translation_sectors : forall N n1 n2 T1 T2 svd, 0 < n1 -> 0 < n2 ->
  moves_states N T1 -> moves_states N T2 -> meq (mpow N T1 n1) (meye N) -> meq (mpow N T2 n2) (meye N) ->
  meq (mmul T1 T2) (mmul T2 T1) -> 0 < N ->
  exists l, translation_projectors svd T1 n1 T2 n2 = Ok l /\
    splits N (map (fun c => fst (fst c)) l) /\
    NoDup (map (fun c => (snd (fst c), snd c)) l) /\
    (forall c, In c l -> 0 < nrow (fst (fst c)) /\ In (snd (fst c)) (zn_ks n1) /\ In (snd c) (zn_ks n2) /\
       acts_as (fst (fst c)) T1 (cexp (- snd (fst c))) /\ acts_as (fst (fst c)) T2 (cexp (- snd c))) /\
    (forall H, square N H -> meq (mmul T1 H) (mmul H T1) -> meq (mmul T2 H) (mmul H T2) ->
       block_diagonal (map (fun c => fst (fst c)) l) H).
Proof. exact translation_ok. Qed.
Print Assumptions C73_translation_sectors.
