(** Property theorems C126..C129: symmetries of rectangular lattices, found from
    maps of the plane, and what they do to the Hubbard model.  Theorems only. *)
From Coq Require Import List Arith Reals ZArith QArith Bool Permutation.
From Verif Require Import Scalars Res Matrix SpecMat ModelBase ModelFermions ModelGeometry ModelPhase ModelSymmetry SpecGeometry SpecSites ModelSites SpecPerm
  ModelThermal SpecThermal SpecFermiGas ModelFreeLattice SpecFreeLattice SpecSymmetry GeoSquare SpecSpace SpaceMaps SpaceSites SpaceHubbard SpaceGroup SpaceReal SpaceExist SpaceFinal.
Import ListNotations.
Local Open Scope R_scope.

(** C126. *)
Theorem C126_cycles : forall (nx ny : Z) (ph1 ph2 : Q) (o1 o2 : bool) g M fn,
  (1 <= nx)%Z -> (1 <= ny)%Z -> (2 * nx <= 100000000000000)%Z -> (2 * ny <= 100000000000000)%Z ->
  c_square_geometry nx ny ph1 ph2 o1 o2 = Ok g -> (2 <= nx * ny)%Z -> keeps nx ny o1 o2 M -> gives nx ny g M fn ->
  let n := Z.to_nat (nx * ny) in
  exists cs m, find_site_cycles fn g = Ok (cs, m) /\
    (forall i, (i < n)%nat -> cycles_perm cs i = spot_at nx ny (move_z M (site_x ny i, site_y ny i))) /\
    Permutation (concat cs) (seq 0 n) /\ (1 <= m <= n)%nat /\ (forall i, (i < n)%nat -> iter (cycles_perm cs) m i = i) /\
    (forall k, (1 <= k < m)%nat -> exists i, (i < n)%nat /\ iter (cycles_perm cs) k i <> i) /\
    forall i j, (i < n)%nat -> (j < n)%nat -> ent (g_adj g) (cycles_perm cs i) (cycles_perm cs j) = ent (g_adj g) i j.
Proof. exact cycles_of_motion. Qed.
Print Assumptions C126_cycles.

Theorem C126_maps : (forall n, exists f, rotation_map 4 (centre n n) = Ok f /\ forall v, f v = move_r (quarter_turn n) v) /\
  (forall n, exists f, rotation_map (-4) (centre n n) = Ok f /\ forall v, f v = move_r (back_turn n) v) /\
  (forall nx ny y, y <> 0 -> exists f, reflection_map (0, y) (centre nx ny) = Ok f /\ forall v, f v = move_r (mirror nx) v) /\
  (forall nx ny x, x <> 0 -> exists f, reflection_map (x, 0) (centre nx ny) = Ok f /\ forall v, f v = move_r (mirror_y ny) v) /\
  (forall nx ny v, inversion_map (centre nx ny) v = move_r (half_turn nx ny) v) /\
  (forall a b v, translation_map (IZR a, IZR b) v = move_r (shift a b) v).
Proof. exact library_maps. Qed.
Print Assumptions C126_maps.

(** C127. *)
Theorem C127_sectors : forall nx ny o1 o2 g u w t v mu m f, (1 <= nx)%Z -> (1 <= ny)%Z -> (2 * nx <= 100000000000000)%Z -> (2 * ny <= 100000000000000)%Z ->
  c_square_geometry nx ny 0 0 o1 o2 = Ok g ->
  fermions_init (fgeom_of g) (number u) (numbers m t) None (numbers m mu) (number w) (numbers m v) m = Ok f ->
  (2 <= m)%nat \/ u = 0 -> (1 <= m)%nat -> (2 <= nx * ny)%Z ->
  forall M fn, keeps nx ny o1 o2 M -> gives nx ny g M fn -> moves_some nx ny M ->
  forall svd, let N := nstates (f_sys f) in
  exists cs ord T H Bs,
    find_site_cycles fn g = Ok (cs, ord) /\
    (forall i, (i < Z.to_nat (nx * ny))%nat -> cycles_perm cs i = spot_at nx ny (move_z M (site_x ny i, site_y ny i))) /\
    xform_op (f_sys f) (f_swap_op (f_sys f)) cs = Ok (Some T) /\ signed N T /\ meq (mpow N T ord) (meye N) /\
    createH f None = Ok H /\ meq (mmul T H) (mmul H T) /\
    zn_projectors svd T ord = Ok Bs /\ length Bs = ord /\ splits N Bs /\
    (forall k, (k < ord)%nat -> acts_as (nth k Bs (mzero 0 0)) T (cexp (- (2 * PI * INR k / INR ord)))) /\
    (forall k, (k < ord)%nat -> (0 < nrow (nth k Bs (mzero 0 0)))%nat) /\
    block_diagonal Bs H /\
    (forall B, In B Bs -> exists HB, createH f (Some B) = Ok HB /\ hermitian (nrow B) HB /\ meq HB (seen_in B H)).
Proof. exact sectors_of_motion. Qed.
Print Assumptions C127_sectors.

(** C128. *)
Theorem C128_averages : forall nx ny o1 o2 g u w t v mu m f, (1 <= nx)%Z -> (1 <= ny)%Z -> (2 * nx <= 100000000000000)%Z -> (2 * ny <= 100000000000000)%Z ->
  c_square_geometry nx ny 0 0 o1 o2 = Ok g ->
  fermions_init (fgeom_of g) (number u) (numbers m t) None (numbers m mu) (number w) (numbers m v) m = Ok f ->
  (2 <= m)%nat \/ u = 0 -> (1 <= m)%nat -> (2 <= nx * ny)%Z ->
  forall M fn, keeps nx ny o1 o2 M -> gives nx ny g M fn -> moves_some nx ny M ->
  forall svd, let N := nstates (f_sys f) in
  forall cs ord T H Bs (l : list (mat CR * mat CR * list R)) V E O Te, find_site_cycles fn g = Ok (cs, ord) ->
    xform_op (f_sys f) (f_swap_op (f_sys f)) cs = Ok (Some T) -> createH f None = Ok H -> zn_projectors svd T ord = Ok Bs ->
    map (fun x => fst (fst x)) l = Bs ->
    (forall x, In x l -> exists HB, createH f (Some (fst (fst x))) = Ok HB /\ eigenbasis HB (snd (fst x)) (snd x)) ->
    eigenbasis H V E -> square N O ->
    Te <> 0 \/ (sorted_list E /\ (forall x, In x l -> sorted_list (snd x)) /\ apart gap13 E) ->
    (vals <- rmap (fun x => exp_vals_thermal (snd (fst x)) (seen_in (fst (fst x)) O) (snd x) Te) l ;;
     combine_sectors vals (map (fun x => snd x) l) Te) = exp_vals_thermal V O E Te.
Proof. exact averages_of_motion. Qed.
Print Assumptions C128_averages.

(** C129. *)
Theorem C129_rectangle : forall nx ny o1 o2 g u w t v mu m f, (2 * nx <= 100000000000000)%Z -> (2 * ny <= 100000000000000)%Z ->
  c_square_geometry nx ny 0 0 o1 o2 = Ok g ->
  fermions_init (fgeom_of g) (number u) (numbers m t) None (numbers m mu) (number w) (numbers m v) m = Ok f ->
  (2 <= m)%nat \/ u = 0 -> (1 <= m)%nat -> 
  forall fr fs svd, (2 <= nx)%Z -> (1 <= ny)%Z ->
  gives nx ny g (half_turn nx ny) fr -> gives nx ny g (mirror nx) fs -> (forall A, row_basis A (svd A)) -> let N := nstates (f_sys f) in
  exists R S H Bs, operator_of f g fr R /\ operator_of f g fs S /\ createH f None = Ok H /\ dihedral_pair 2 N R S /\
    d2_projectors svd R S = Ok Bs /\ length Bs = 4%nat /\ symmetry_sectors N [R; S] Bs /\ block_diagonal Bs H.
Proof. exact rectangle. Qed.
Print Assumptions C129_rectangle.

Theorem C129_square : forall n o g u w t v mu m f, (2 <= n)%Z -> (2 * n <= 100000000000000)%Z -> c_square_geometry n n 0 0 o o = Ok g ->
  fermions_init (fgeom_of g) (number u) (numbers m t) None (numbers m mu) (number w) (numbers m v) m = Ok f ->
  (2 <= m)%nat \/ u = 0 -> (1 <= m)%nat ->
  forall fr fs svd, gives n n g (quarter_turn n) fr -> gives n n g (mirror n) fs -> (forall A, row_basis A (svd A)) -> let N := nstates (f_sys f) in
  exists R S H Bs, operator_of f g fr R /\ operator_of f g fs S /\ createH f None = Ok H /\ dihedral_pair 4 N R S /\
    d4_projectors svd R S = Ok Bs /\ length Bs = 5%nat /\ symmetry_sectors N [R; S] Bs /\ block_diagonal Bs H.
Proof. exact square_case. Qed.
Print Assumptions C129_square.

Theorem C129_torus : forall g u w t v mu m f, c_square_geometry 3 3 0 0 false false = Ok g ->
  fermions_init (fgeom_of g) (number u) (numbers m t) None (numbers m mu) (number w) (numbers m v) m = Ok f ->
  (2 <= m)%nat \/ u = 0 -> (1 <= m)%nat ->
  forall (ccw : bool) fr fs fx fy svd,
  gives 3 3 g (if ccw then quarter_turn 3 else back_turn 3) fr -> gives 3 3 g (mirror 3) fs -> gives 3 3 g (shift 1 0) fx -> gives 3 3 g (shift 0 1) fy ->
  (forall A, row_basis A (svd A)) -> let N := nstates (f_sys f) in
  exists R S X Y H Bs, operator_of f g fr R /\ operator_of f g fs S /\ operator_of f g fx X /\ operator_of f g fy Y /\
    createH f None = Ok H /\ torus_group ccw N R S X Y /\ torus_projectors svd R S X Y = Ok Bs /\ length Bs = 9%nat /\ splits N Bs /\ block_diagonal Bs H /\
    (ccw = false -> symmetry_sectors N [X; Y; R; S] Bs).
Proof. exact torus_sectors. Qed.
Print Assumptions C129_torus.
