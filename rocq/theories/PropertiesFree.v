(** Property theorems C117..C120: particles that do not interact, the comparison of
    exact diagonalization with the formulas for the Fermi gas, and eigenbases.
    Theorems only. *)
From Coq Require Import List Arith Reals ZArith QArith Bool Permutation.
From Verif Require Import Scalars Res Matrix ModelGeometry ModelPhase ModelBase ModelFermions ModelThermal SpecThermal
  SpecFermiGas ModelFermiGas FermiModes SpecFree ModelFreeLattice SpecFreeLattice FreeThermal FreeSpectrum FreeLattice FreeExist FreeTwo Spectral.
Import ListNotations.
Local Open Scope R_scope.

(** C117. *)
Theorem C117_density : forall f, non_interacting f -> forall H V E T, createH f None = Ok H -> eigenbasis H V E -> T <> 0 ->
  forall k U e, (k < f_nspecies f)%nat -> eigenbasis (particle_matrix f k) U e ->
  forall i A, (i < fg_nsites (f_geom f))%nat -> single_site_op (f_sys f) i k n_op Boson = Ok A ->
  exp_vals_thermal V A E T = Ok (fst (filled T U e i i)).
Proof. exact density_avg. Qed.
Print Assumptions C117_density.

Theorem C117_bond : forall f, non_interacting f -> forall H V E T, createH f None = Ok H -> eigenbasis H V E -> T <> 0 ->
  forall k U e, (k < f_nspecies f)%nat -> eigenbasis (particle_matrix f k) U e ->
  forall i j k' A, (i < fg_nsites (f_geom f))%nat -> (j < fg_nsites (f_geom f))%nat -> (k' < f_nspecies f)%nat ->
  two_site_op (f_sys f) i k j k' cdag_op c_op Fermion = Ok A ->
  exp_vals_thermal V A E T = Ok (if (k' =? k)%nat then fst (filled T U e i j) else 0).
Proof. exact bond_avg. Qed.
Print Assumptions C117_bond.

Theorem C117_density_pair : forall f, non_interacting f -> forall H V E T, createH f None = Ok H -> eigenbasis H V E -> T <> 0 ->
  forall k U e, (k < f_nspecies f)%nat -> eigenbasis (particle_matrix f k) U e ->
  forall i j A, (i < fg_nsites (f_geom f))%nat -> (j < fg_nsites (f_geom f))%nat -> two_site_op (f_sys f) i k j k n_op n_op Boson = Ok A ->
  exp_vals_thermal V A E T = Ok (fst (filled T U e i i) * fst (filled T U e j j) +
    (if (i =? j)%nat then fst (filled T U e i i) else 0) - abs2 (filled T U e i j)).
Proof. exact pair_avg. Qed.
Print Assumptions C117_density_pair.

Theorem C117_two_species : forall f, non_interacting f -> forall H V E T, createH f None = Ok H -> eigenbasis H V E -> T <> 0 ->
  forall U e, (forall k, (k < f_nspecies f)%nat -> eigenbasis (particle_matrix f k) (U k) (e k)) ->
  forall k k' i j A, (k < f_nspecies f)%nat -> (k' < f_nspecies f)%nat -> k <> k' -> (i < fg_nsites (f_geom f))%nat -> (j < fg_nsites (f_geom f))%nat -> 
  two_site_op (f_sys f) i k j k' n_op n_op Boson = Ok A ->
  exp_vals_thermal V A E T = Ok (fst (filled T (U k) (e k) i i) * fst (filled T (U k') (e k') j j)).
Proof. exact species_avg. Qed.
Print Assumptions C117_two_species.

(** C118. *)
Theorem C118_energy : forall f, non_interacting f -> forall H V E T, createH f None = Ok H -> eigenbasis H V E -> T <> 0 ->
  forall U e, (forall k, (k < f_nspecies f)%nat -> eigenbasis (particle_matrix f k) (U k) (e k)) ->
  exp_vals_thermal V H E T = Ok (total (fun k => total (fun x => x * fermi_weight T x) (e k)) (seq 0 (f_nspecies f))).
Proof. exact energy_avg. Qed.
Print Assumptions C118_energy.

Theorem C118_partition : forall f, non_interacting f -> forall H V E, createH f None = Ok H -> eigenbasis H V E ->
  forall U e, (forall k, (k < f_nspecies f)%nat -> eigenbasis (particle_matrix f k) (U k) (e k)) ->
  forall T, T <> 0 ->
  exists w, thermal_weights false E T = Ok (w, fermi_partition T (flat_map e (seq 0 (f_nspecies f)))).
Proof. exact partition_ok. Qed.
Print Assumptions C118_partition.

Theorem C118_spectrum : forall f, non_interacting f -> forall H V E, createH f None = Ok H -> eigenbasis H V E ->
  forall U e, (forall k, (k < f_nspecies f)%nat -> eigenbasis (particle_matrix f k) (U k) (e k)) ->
  Permutation E (subset_sums (flat_map e (seq 0 (f_nspecies f)))).
Proof. exact spectrum_ok. Qed.
Print Assumptions C118_spectrum.

(** C119 fails for two sites: the two bonds of the ring are one bond for the
    Hamiltonian and two for the formulas. *)
Theorem C119_two_sites_refuted : exists g f H V E A x y,
  c_square_geometry 2 1 0 0 false true = Ok g /\
  fermions_init (fgeom_of g) (number 0) (number 1) None (numbers 1 (fun _ => 1)) (number 0) (number 0) 1 = Ok f /\
  createH f None = Ok H /\ eigenbasis H V E /\
  single_site_op (f_sys f) 0 0 n_op Boson = Ok A /\
  exp_vals_thermal V A E 1 = Ok x /\ fg_density (Beta 1) 1 2 (dim_of Chain) = Ok y /\ x <> y.
Proof. exact two_sites_refuted. Qed.
Print Assumptions C119_two_sites_refuted.

(** What holds: from three sites on.  Missing: two sites. *)
Theorem C119_density_partial : forall s n g t m mu f, (3 <= n)%nat -> (2 * Z.of_nat n <= 100000000000000)%Z ->
  c_square_geometry (Z.of_nat n) (Z.of_nat (depth s n)) 0 0 false (flat_shape s) = Ok g ->
  fermions_init (fgeom_of g) (number 0) (number t) None (numbers m mu) (number 0) (number 0) m = Ok f ->
  forall H V E T, createH f None = Ok H -> eigenbasis H V E -> T <> 0 -> t <> 0 -> good_size s n ->
  forall k i A, (k < m)%nat -> (i < n * depth s n)%nat -> single_site_op (f_sys f) i k n_op Boson = Ok A ->
  exp_vals_thermal V A E T = fg_density (Beta (t / T)) (mu k / t) n (dim_of s).
Proof. exact lattice_density. Qed.
Print Assumptions C119_density_partial.

Theorem C119_correlation_partial : forall s n g t m mu f, (3 <= n)%nat -> (2 * Z.of_nat n <= 100000000000000)%Z ->
  c_square_geometry (Z.of_nat n) (Z.of_nat (depth s n)) 0 0 false (flat_shape s) = Ok g ->
  fermions_init (fgeom_of g) (number 0) (number t) None (numbers m mu) (number 0) (number 0) m = Ok f ->
  forall H V E T, createH f None = Ok H -> eigenbasis H V E -> T <> 0 -> t <> 0 -> good_size s n ->
  forall k i j A x, (k < m)%nat -> (i < n * depth s n)%nat -> (j < n * depth s n)%nat ->
  two_site_op (f_sys f) i k j k n_op n_op Boson = Ok A -> exp_vals_thermal V A E T = Ok x ->
  exists d c, fg_density (Beta (t / T)) (mu k / t) n (dim_of s) = Ok d /\
    fg_corr (Beta (t / T)) (mu k / t) (displacement s n i j) n (dim_of s) = Ok c /\ x = d * d + c.
Proof. exact lattice_corr. Qed.
Print Assumptions C119_correlation_partial.

Theorem C119_green_partial : forall s n g t m mu f, (3 <= n)%nat -> (2 * Z.of_nat n <= 100000000000000)%Z ->
  c_square_geometry (Z.of_nat n) (Z.of_nat (depth s n)) 0 0 false (flat_shape s) = Ok g ->
  fermions_init (fgeom_of g) (number 0) (number t) None (numbers m mu) (number 0) (number 0) m = Ok f ->
  forall H V E T, createH f None = Ok H -> eigenbasis H V E -> T <> 0 -> t <> 0 -> good_size s n ->
  forall k i j A x, (k < m)%nat -> (i < n * depth s n)%nat -> (j < n * depth s n)%nat ->
  two_site_op (f_sys f) i k j k cdag_op c_op Fermion = Ok A -> exp_vals_thermal V A E T = Ok x ->
  exists z, realspace_gfn (Beta (t / T)) (mu k / t) (displacement s n i j) 0 n (dim_of s) Lesser = Ok z /\ x = snd z.
Proof. exact lattice_bond. Qed.
Print Assumptions C119_green_partial.

Theorem C119_doubles_partial : forall s n g t m mu f, (3 <= n)%nat -> (2 * Z.of_nat n <= 100000000000000)%Z ->
  c_square_geometry (Z.of_nat n) (Z.of_nat (depth s n)) 0 0 false (flat_shape s) = Ok g ->
  fermions_init (fgeom_of g) (number 0) (number t) None (numbers m mu) (number 0) (number 0) m = Ok f ->
  forall H V E T, createH f None = Ok H -> eigenbasis H V E -> T <> 0 -> t <> 0 -> good_size s n ->
  forall i A, m = 2%nat -> (i < n * depth s n)%nat -> two_site_op (f_sys f) i 0 i 1 n_op n_op Boson = Ok A ->
  exp_vals_thermal V A E T = fg_doubles (Beta (t / T)) (mu 0%nat / t) (mu 1%nat / t) n (dim_of s).
Proof. exact lattice_doubles. Qed.
Print Assumptions C119_doubles_partial.

(** C120. *)
Theorem C120_eigenbasis : forall n H, hermitian n H -> nrow H = n -> ncol H = n -> exists V E, eigenbasis H V E.
Proof. exact spectral. Qed.
Print Assumptions C120_eigenbasis.

Theorem C120_hubbard : forall nx ny o1 o2 u t m mu, (1 <= nx)%Z -> (1 <= ny)%Z ->
  (2 * nx <= 100000000000000)%Z -> (2 * ny <= 100000000000000)%Z -> (nx = 1%Z -> o1 = true) -> (ny = 1%Z -> o2 = true) -> (2 <= m)%nat \/ u = 0 ->
  exists g f H V E, c_square_geometry nx ny 0 0 o1 o2 = Ok g /\
    fermions_init (fgeom_of g) (number u) (number t) None (numbers m mu) (number 0) (number 0) m = Ok f /\
    createH f None = Ok H /\ eigenbasis H V E.
Proof. exact lattice_exists. Qed.
Print Assumptions C120_hubbard.
