(** Symmetries of rectangular lattices: final forms. *)
From Coq Require Import List Arith Lia Reals ZArith QArith Bool Permutation.
From Verif Require Import Scalars Res Matrix SpecMat ModelBase ModelFermions ModelGeometry ModelPhase ModelSymmetry SpecGeometry SpecSites ModelSites SpecPerm
  ModelThermal SpecThermal SpecFermiGas ModelFreeLattice SpecFreeLattice SpecSymmetry GeoSquare SpecSpace SpaceMaps SpaceSites SpaceHubbard SpaceGroup.
Import ListNotations.
Local Open Scope R_scope.

Lemma cycles_of_motion (nx ny : Z) (ph1 ph2 : Q) (o1 o2 : bool) g M fn :
  (1 <= nx)%Z -> (1 <= ny)%Z -> (2 * nx <= 100000000000000)%Z -> (2 * ny <= 100000000000000)%Z ->
  c_square_geometry nx ny ph1 ph2 o1 o2 = Ok g -> (2 <= nx * ny)%Z -> keeps nx ny o1 o2 M -> gives nx ny g M fn ->
  let n := Z.to_nat (nx * ny) in
  exists cs m, find_site_cycles fn g = Ok (cs, m) /\
    (forall i, (i < n)%nat -> cycles_perm cs i = spot_at nx ny (move_z M (site_x ny i, site_y ny i))) /\
    Permutation (concat cs) (seq 0 n) /\ (1 <= m <= n)%nat /\ (forall i, (i < n)%nat -> iter (cycles_perm cs) m i = i) /\
    (forall k, (1 <= k < m)%nat -> exists i, (i < n)%nat /\ iter (cycles_perm cs) k i <> i) /\
    forall i j, (i < n)%nat -> (j < n)%nat -> ent (g_adj g) (cycles_perm cs i) (cycles_perm cs j) = ent (g_adj g) i j.
Proof.
  intros X1 Y1 X2 Y2 LG two KP FM n.
  destruct (found_near phase_matrix valid_phases nx ny ph1 ph2 o1 o2 g M fn X1 Y1 X2 Y2 LG KP two FM) as (cs & m & E & CP & _ & PE & OB & OC & OM).
  exists cs, m. split; [exact E|]. split; [exact CP|]. split; [exact PE|]. split; [exact OB|]. split; [exact OC|]. split; [exact OM|].
  intros i j Hi Hj. rewrite !CP by assumption. exact (neighbours_kept phase_matrix valid_phases nx ny ph1 ph2 o1 o2 g M X1 Y1 X2 Y2 LG KP i j Hi Hj).
Qed.
Definition sectors_of_motion nx ny o1 o2 g u w t v mu m f X1 Y1 X2 Y2 LG made species m1 two M fn KP (FM : gives nx ny g M fn) MS svd :=
  space_symmetry nx ny o1 o2 g u w t v mu m f X1 Y1 X2 Y2 LG made species m1 two M fn KP FM MS svd.
Definition averages_of_motion nx ny o1 o2 g u w t v mu m f X1 Y1 X2 Y2 LG made species m1 two M fn KP (FM : gives nx ny g M fn) MS svd :=
  space_thermal nx ny o1 o2 g u w t v mu m f X1 Y1 X2 Y2 LG made species m1 two M fn KP FM MS svd.
Lemma square_case n o g u w t v mu m f : (2 <= n)%Z -> (2 * n <= 100000000000000)%Z -> c_square_geometry n n 0 0 o o = Ok g ->
  fermions_init (fgeom_of g) (number u) (numbers m t) None (numbers m mu) (number w) (numbers m v) m = Ok f ->
  (2 <= m)%nat \/ u = 0 -> (1 <= m)%nat ->
  forall fr fs svd, gives n n g (quarter_turn n) fr -> gives n n g (mirror n) fs -> (forall A, row_basis A (svd A)) -> let N := nstates (f_sys f) in
  exists R S H Bs, operator_of f g fr R /\ operator_of f g fs S /\ createH f None = Ok H /\ dihedral_pair 4 N R S /\
    d4_projectors svd R S = Ok Bs /\ length Bs = 5%nat /\ symmetry_sectors N [R; S] Bs /\ block_diagonal Bs H.
Proof.
  intros N2 NB LG made species m1 fr fs svd FR FS SV. exact (square_group n n o o g u w t v mu m f NB NB LG made species m1 fr fs svd N2 eq_refl eq_refl FR FS SV).
Qed.
