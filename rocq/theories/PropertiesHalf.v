(** Property theorems C130..C132: averages fixed by symmetries of the Hubbard
    model (half filling, motions of the lattice, rotations of the spin).  Theorems only. *)
From Coq Require Import List Arith Reals ZArith QArith Bool.
From Verif Require Import Scalars Res Matrix SpecMat ModelBase ModelFermions ModelGeometry ModelPhase ModelSymmetry SpecGeometry SpecSites
  ModelThermal SpecThermal SpecFermiGas ModelFreeLattice SpecFreeLattice SpecSpace SpecHalf HalfHam HalfLattice SpinRotate SpinLattice.
Import ListNotations.
Local Open Scope R_scope.

(** C130. *)
Theorem C130_density : forall f side, two_coloured f side -> balanced f ->
  (2 <= f_nspecies f)%nat \/ (forall i, (i < fg_nsites (f_geom f))%nat -> f_us f i = k0) ->
  forall H V E T, createH f None = Ok H -> eigenbasis H V E -> T <> 0 \/ (sorted_list E /\ apart gap13 E) ->
  forall i k A, (i < fg_nsites (f_geom f))%nat -> (k < f_nspecies f)%nat -> single_site_op (f_sys f) i k n_op Boson = Ok A ->
  exp_vals_thermal V A E T = Ok (1 / 2).
Proof. exact half_density. Qed.
Print Assumptions C130_density.

Theorem C130_bond : forall f side, two_coloured f side -> balanced f ->
  (2 <= f_nspecies f)%nat \/ (forall i, (i < fg_nsites (f_geom f))%nat -> f_us f i = k0) ->
  forall H V E T, createH f None = Ok H -> eigenbasis H V E -> T <> 0 \/ (sorted_list E /\ apart gap13 E) ->
  forall i j k A, (i < fg_nsites (f_geom f))%nat -> (j < fg_nsites (f_geom f))%nat -> (k < f_nspecies f)%nat -> i <> j -> side i = side j ->
  two_site_op (f_sys f) i k j k cdag_op c_op Fermion = Ok A -> exp_vals_thermal V A E T = Ok 0.
Proof. exact half_bond. Qed.
Print Assumptions C130_bond.

Theorem C130_lattice_density : forall nx ny o1 o2 g u w t v mu m f, (1 <= nx)%Z -> (1 <= ny)%Z -> (2 * nx <= 100000000000000)%Z -> (2 * ny <= 100000000000000)%Z ->
  c_square_geometry nx ny 0 0 o1 o2 = Ok g ->
  fermions_init (fgeom_of g) (number u) (numbers m t) None (numbers m mu) (number w) (numbers m v) m = Ok f ->
  (2 <= m)%nat \/ u = 0 ->
  forall H V E T, createH f None = Ok H -> eigenbasis H V E -> T <> 0 \/ (sorted_list E /\ apart gap13 E) ->
  o1 = true \/ Z.even nx = true -> o2 = true \/ Z.even ny = true -> (forall k, (k < m)%nat -> v k = 0) ->
  (forall k, (k < m)%nat -> mu k = w + (if (k <? 2)%nat then u / 2 else 0)) ->
  forall i k A, (i < Z.to_nat (nx * ny))%nat -> (k < m)%nat -> single_site_op (f_sys f) i k n_op Boson = Ok A ->
  exp_vals_thermal V A E T = Ok (1 / 2).
Proof. exact lattice_half_density. Qed.
Print Assumptions C130_lattice_density.

Theorem C130_lattice_bond : forall nx ny o1 o2 g u w t v mu m f, (1 <= nx)%Z -> (1 <= ny)%Z -> (2 * nx <= 100000000000000)%Z -> (2 * ny <= 100000000000000)%Z ->
  c_square_geometry nx ny 0 0 o1 o2 = Ok g ->
  fermions_init (fgeom_of g) (number u) (numbers m t) None (numbers m mu) (number w) (numbers m v) m = Ok f ->
  (2 <= m)%nat \/ u = 0 ->
  forall H V E T, createH f None = Ok H -> eigenbasis H V E -> T <> 0 \/ (sorted_list E /\ apart gap13 E) ->
  o1 = true \/ Z.even nx = true -> o2 = true \/ Z.even ny = true -> (forall k, (k < m)%nat -> v k = 0) ->
  (forall k, (k < m)%nat -> mu k = w + (if (k <? 2)%nat then u / 2 else 0)) ->
  forall i j k A, (i < Z.to_nat (nx * ny))%nat -> (j < Z.to_nat (nx * ny))%nat -> (k < m)%nat -> i <> j -> chess ny i = chess ny j ->
  two_site_op (f_sys f) i k j k cdag_op c_op Fermion = Ok A -> exp_vals_thermal V A E T = Ok 0.
Proof. exact lattice_half_bond. Qed.
Print Assumptions C130_lattice_bond.

(** C131. *)
Theorem C131_density : forall nx ny o1 o2 g u w t v mu m f, (1 <= nx)%Z -> (1 <= ny)%Z -> (2 * nx <= 100000000000000)%Z -> (2 * ny <= 100000000000000)%Z ->
  c_square_geometry nx ny 0 0 o1 o2 = Ok g ->
  fermions_init (fgeom_of g) (number u) (numbers m t) None (numbers m mu) (number w) (numbers m v) m = Ok f ->
  (2 <= m)%nat \/ u = 0 ->
  forall H V E T, createH f None = Ok H -> eigenbasis H V E -> T <> 0 \/ (sorted_list E /\ apart gap13 E) ->
  forall M, keeps nx ny o1 o2 M -> let moved i := spot_at nx ny (move_z M (site_x ny i, site_y ny i)) in
  forall i k A B, (i < Z.to_nat (nx * ny))%nat -> (k < m)%nat ->
  single_site_op (f_sys f) i k n_op Boson = Ok A -> single_site_op (f_sys f) (moved i) k n_op Boson = Ok B ->
  exp_vals_thermal V A E T = exp_vals_thermal V B E T.
Proof. exact moved_density. Qed.
Print Assumptions C131_density.

Theorem C131_pair : forall nx ny o1 o2 g u w t v mu m f, (1 <= nx)%Z -> (1 <= ny)%Z -> (2 * nx <= 100000000000000)%Z -> (2 * ny <= 100000000000000)%Z ->
  c_square_geometry nx ny 0 0 o1 o2 = Ok g ->
  fermions_init (fgeom_of g) (number u) (numbers m t) None (numbers m mu) (number w) (numbers m v) m = Ok f ->
  (2 <= m)%nat \/ u = 0 ->
  forall H V E T, createH f None = Ok H -> eigenbasis H V E -> T <> 0 \/ (sorted_list E /\ apart gap13 E) ->
  forall M, keeps nx ny o1 o2 M -> let moved i := spot_at nx ny (move_z M (site_x ny i, site_y ny i)) in
  forall i k j k' a b fl A B, (i < Z.to_nat (nx * ny))%nat -> (k < m)%nat -> (j < Z.to_nat (nx * ny))%nat -> (k' < m)%nat ->
  (a, b, fl) = (n_op, n_op, Boson) \/ (a, b, fl) = (cdag_op, c_op, Fermion) ->
  two_site_op (f_sys f) i k j k' a b fl = Ok A -> two_site_op (f_sys f) (moved i) k (moved j) k' a b fl = Ok B ->
  exp_vals_thermal V A E T = exp_vals_thermal V B E T.
Proof. exact moved_pair. Qed.
Print Assumptions C131_pair.

Theorem C131_uniform : forall nx ny o1 o2 g u w t v mu m f, (1 <= nx)%Z -> (1 <= ny)%Z -> (2 * nx <= 100000000000000)%Z -> (2 * ny <= 100000000000000)%Z ->
  c_square_geometry nx ny 0 0 o1 o2 = Ok g ->
  fermions_init (fgeom_of g) (number u) (numbers m t) None (numbers m mu) (number w) (numbers m v) m = Ok f ->
  (2 <= m)%nat \/ u = 0 ->
  forall H V E T, createH f None = Ok H -> eigenbasis H V E -> T <> 0 \/ (sorted_list E /\ apart gap13 E) ->
  forall i j k A B, o1 = false -> o2 = false -> (i < Z.to_nat (nx * ny))%nat -> (j < Z.to_nat (nx * ny))%nat -> (k < m)%nat ->
  single_site_op (f_sys f) i k n_op Boson = Ok A -> single_site_op (f_sys f) j k n_op Boson = Ok B ->
  exp_vals_thermal V A E T = exp_vals_thermal V B E T.
Proof. exact uniform_density. Qed.
Print Assumptions C131_uniform.

(** C132. *)
Theorem C132_commutes : forall f, spin_symmetric f -> forall H, createH f None = Ok H ->
  forall A : nat -> mat CR, (forall i, (i < fg_nsites (f_geom f))%nat -> two_site_op (f_sys f) i 0 i 1 cdag_op c_op Fermion = Ok (A i)) ->
  forall a b, (a < 2 ^ nlog (f_sys f))%nat -> (b < 2 ^ nlog (f_sys f))%nat ->
  ksum (fg_nsites (f_geom f)) (fun i => ent (mmul (A i) H) a b) = ksum (fg_nsites (f_geom f)) (fun i => ent (mmul H (A i)) a b).
Proof. exact spin_commutes. Qed.
Print Assumptions C132_commutes.

Theorem C132_density : forall f, spin_symmetric f -> forall H V E, createH f None = Ok H -> eigenbasis H V E -> forall T, T <> 0 \/ (sorted_list E /\ apart gap13 E) ->
  forall i A B, (i < fg_nsites (f_geom f))%nat -> single_site_op (f_sys f) i 0 n_op Boson = Ok A -> single_site_op (f_sys f) i 1 n_op Boson = Ok B ->
  exp_vals_thermal V A E T = exp_vals_thermal V B E T.
Proof. exact spin_density. Qed.
Print Assumptions C132_density.

Theorem C132_bond : forall f, spin_symmetric f -> forall H V E, createH f None = Ok H -> eigenbasis H V E -> forall T, T <> 0 \/ (sorted_list E /\ apart gap13 E) ->
  forall i j A B, (i < fg_nsites (f_geom f))%nat -> (j < fg_nsites (f_geom f))%nat ->
  two_site_op (f_sys f) i 0 j 0 cdag_op c_op Fermion = Ok A -> two_site_op (f_sys f) i 1 j 1 cdag_op c_op Fermion = Ok B ->
  exp_vals_thermal V A E T = exp_vals_thermal V B E T.
Proof. exact spin_bond. Qed.
Print Assumptions C132_bond.

Theorem C132_isotropic : forall f, spin_symmetric f -> forall H V E, createH f None = Ok H -> eigenbasis H V E -> forall T, T <> 0 \/ (sorted_list E /\ apart gap13 E) ->
  forall i j A B U1 D1 U2 D2, (i < fg_nsites (f_geom f))%nat -> (j < fg_nsites (f_geom f))%nat ->
  two_site_op (f_sys f) i 0 i 1 cdag_op c_op Fermion = Ok A -> two_site_op (f_sys f) j 1 j 0 cdag_op c_op Fermion = Ok B ->
  single_site_op (f_sys f) i 0 n_op Boson = Ok U1 -> single_site_op (f_sys f) i 1 n_op Boson = Ok D1 ->
  single_site_op (f_sys f) j 0 n_op Boson = Ok U2 -> single_site_op (f_sys f) j 1 n_op Boson = Ok D2 ->
  forall x, exp_vals_thermal V (mmul A B) E T = Ok x -> exp_vals_thermal V (mmul (msub U1 D1) (msub U2 D2)) E T = Ok (2 * x).
Proof. exact spin_isotropic. Qed.
Print Assumptions C132_isotropic.

Theorem C132_lattice : forall nx ny o1 o2 g u w t v mu m f, c_square_geometry nx ny 0 0 o1 o2 = Ok g ->
  fermions_init (fgeom_of g) (number u) (numbers m t) None (numbers m mu) (number w) (numbers m v) m = Ok f ->
  (2 <= m)%nat -> t 0%nat = t 1%nat -> mu 0%nat = mu 1%nat -> v 0%nat = 0 -> v 1%nat = 0 -> spin_symmetric f.
Proof. exact lattice_spin. Qed.
Print Assumptions C132_lattice.
