(** Property theorems C136..C138: particles that do not interact at zero temperature,
    their agreement with the formulas for the Fermi gas, and sites without bonds.
    Theorems only. *)
From Coq Require Import List Arith Reals ZArith QArith Bool Permutation.
From Verif Require Import Scalars Res Matrix SpecMat ModelBase ModelFermions ModelGeometry ModelPhase ModelSymmetry ModelThermal SpecThermal
  SpecFermiGas ModelFermiGas FermiModes SpecFree ModelFreeLattice SpecFreeLattice SpecZero FreeZero LatticeZero SpecAtomic Atomic.
Import ListNotations.
Local Open Scope R_scope.

(** C136. *)
Theorem C136_density : forall f, non_interacting f -> forall H V E, createH f None = Ok H -> eigenbasis H V E -> sorted_list E ->
  apart gap13 E -> forall k U e, (k < f_nspecies f)%nat -> eigenbasis (particle_matrix f k) U e ->
  forall i A, (i < fg_nsites (f_geom f))%nat -> single_site_op (f_sys f) i k n_op Boson = Ok A ->
  exp_vals_thermal V A E 0 = Ok (fst (filled_zero U e i i)).
Proof. exact density_zero. Qed.
Print Assumptions C136_density.

Theorem C136_bond : forall f, non_interacting f -> forall H V E, createH f None = Ok H -> eigenbasis H V E -> sorted_list E ->
  apart gap13 E -> forall k U e, (k < f_nspecies f)%nat -> eigenbasis (particle_matrix f k) U e ->
  forall i j k' A, (i < fg_nsites (f_geom f))%nat -> (j < fg_nsites (f_geom f))%nat -> (k' < f_nspecies f)%nat -> two_site_op (f_sys f) i k j k' cdag_op c_op Fermion = Ok A ->
  exp_vals_thermal V A E 0 = Ok (if (k' =? k)%nat then fst (filled_zero U e i j) else 0).
Proof. exact bond_zero. Qed.
Print Assumptions C136_bond.

Theorem C136_pair : forall f, non_interacting f -> forall H V E, createH f None = Ok H -> eigenbasis H V E -> sorted_list E ->
  apart gap13 E -> forall k U e, (k < f_nspecies f)%nat -> eigenbasis (particle_matrix f k) U e ->
  forall i j A, (i < fg_nsites (f_geom f))%nat -> (j < fg_nsites (f_geom f))%nat -> two_site_op (f_sys f) i k j k n_op n_op Boson = Ok A ->
  let G := filled_zero U e in
  exp_vals_thermal V A E 0 = Ok (fst (G i i) * fst (G j j) + (if (i =? j)%nat then fst (G i i) else 0) - abs2 (G i j)).
Proof. exact pair_zero. Qed.
Print Assumptions C136_pair.

Theorem C136_species : forall f, non_interacting f -> forall H V E, createH f None = Ok H -> eigenbasis H V E -> sorted_list E ->
  apart gap13 E -> forall U e, (forall k, (k < f_nspecies f)%nat -> eigenbasis (particle_matrix f k) (U k) (e k)) ->
  forall k k' i j A, (k < f_nspecies f)%nat -> (k' < f_nspecies f)%nat -> k <> k' -> (i < fg_nsites (f_geom f))%nat -> (j < fg_nsites (f_geom f))%nat -> two_site_op (f_sys f) i k j k' n_op n_op Boson = Ok A ->
  exp_vals_thermal V A E 0 = Ok (fst (filled_zero (U k) (e k) i i) * fst (filled_zero (U k') (e k') j j)).
Proof. exact species_zero. Qed.
Print Assumptions C136_species.

Theorem C136_ground : forall f, non_interacting f -> forall H V E, createH f None = Ok H -> eigenbasis H V E -> sorted_list E ->
  forall U e, (forall k, (k < f_nspecies f)%nat -> eigenbasis (particle_matrix f k) (U k) (e k)) ->
  nth 0 E 0 = sea (flat_map e (seq 0 (f_nspecies f))).
Proof. exact ground_energy. Qed.
Print Assumptions C136_ground.

Theorem C136_degeneracy : forall f, non_interacting f -> forall H V E, createH f None = Ok H -> eigenbasis H V E -> sorted_list E ->
  forall U e, (forall k, (k < f_nspecies f)%nat -> eigenbasis (particle_matrix f k) (U k) (e k)) ->
  times (nth 0 E 0) E = (2 ^ times 0 (flat_map e (seq 0 (f_nspecies f))))%nat.
Proof. exact ground_times. Qed.
Print Assumptions C136_degeneracy.

Theorem C136_energy : forall f, non_interacting f -> forall H V E, createH f None = Ok H -> eigenbasis H V E -> sorted_list E ->
  apart gap13 E -> forall U e, (forall k, (k < f_nspecies f)%nat -> eigenbasis (particle_matrix f k) (U k) (e k)) ->
  exp_vals_thermal V H E 0 = Ok (sea (flat_map e (seq 0 (f_nspecies f)))).
Proof. exact energy_zero. Qed.
Print Assumptions C136_energy.

(** C137.  The full statement: at zero temperature the averages of the many-particle
    Hamiltonian of a closed lattice without interactions are those of the formulas for
    the Fermi gas.  It fails when a level lies at the chemical potential, which the
    formulas count as full and the average over the ground states as half full; it is
    proved when no level does. *)
Theorem C137_level_refuted : exists g f H V E A, c_square_geometry 4 1 0 0 false true = Ok g /\
  fermions_init (fgeom_of g) (number 0) (number 1) None (numbers 1 (fun _ => -2)) (number 0) (number 0) 1 = Ok f /\
  createH f None = Ok H /\ eigenbasis H V E /\ sorted_list E /\ apart gap13 E /\
  single_site_op (f_sys f) 0 0 n_op Boson = Ok A /\
  exp_vals_thermal V A E 0 = Ok (1 / 8) /\ fg_density BetaInf (-2) 4 (dim_of Chain) = Ok (1 / 4).
Proof. exact bottom_refuted. Qed.
Print Assumptions C137_level_refuted.

Theorem C137_density_partial : forall s n g t m mu f, (3 <= n)%nat -> (2 * Z.of_nat n <= 100000000000000)%Z ->
  c_square_geometry (Z.of_nat n) (Z.of_nat (depth s n)) 0 0 false (flat_shape s) = Ok g ->
  fermions_init (fgeom_of g) (number 0) (number t) None (numbers m mu) (number 0) (number 0) m = Ok f ->
  forall H V E, createH f None = Ok H -> eigenbasis H V E -> sorted_list E -> apart gap13 E -> 0 < t -> good_size s n ->
  forall k i A, (forall p, In p (modes s n) -> level_of s n p <> mu k / t) -> (k < m)%nat ->
  (i < n * depth s n)%nat -> single_site_op (f_sys f) i k n_op Boson = Ok A ->
  exp_vals_thermal V A E 0 = fg_density BetaInf (mu k / t) n (dim_of s).
Proof. exact density_closed. Qed.
Print Assumptions C137_density_partial.

Theorem C137_correlation_partial : forall s n g t m mu f, (3 <= n)%nat -> (2 * Z.of_nat n <= 100000000000000)%Z ->
  c_square_geometry (Z.of_nat n) (Z.of_nat (depth s n)) 0 0 false (flat_shape s) = Ok g ->
  fermions_init (fgeom_of g) (number 0) (number t) None (numbers m mu) (number 0) (number 0) m = Ok f ->
  forall H V E, createH f None = Ok H -> eigenbasis H V E -> sorted_list E -> apart gap13 E -> 0 < t -> good_size s n ->
  forall k i j A x, (forall p, In p (modes s n) -> level_of s n p <> mu k / t) -> (k < m)%nat ->
  (i < n * depth s n)%nat -> (j < n * depth s n)%nat -> two_site_op (f_sys f) i k j k n_op n_op Boson = Ok A ->
  exp_vals_thermal V A E 0 = Ok x -> exists d cc, fg_density BetaInf (mu k / t) n (dim_of s) = Ok d /\
    fg_corr BetaInf (mu k / t) (displacement s n i j) n (dim_of s) = Ok cc /\ x = d * d + cc.
Proof. exact corr_closed. Qed.
Print Assumptions C137_correlation_partial.

Theorem C137_green_partial : forall s n g t m mu f, (3 <= n)%nat -> (2 * Z.of_nat n <= 100000000000000)%Z ->
  c_square_geometry (Z.of_nat n) (Z.of_nat (depth s n)) 0 0 false (flat_shape s) = Ok g ->
  fermions_init (fgeom_of g) (number 0) (number t) None (numbers m mu) (number 0) (number 0) m = Ok f ->
  forall H V E, createH f None = Ok H -> eigenbasis H V E -> sorted_list E -> apart gap13 E -> 0 < t -> good_size s n ->
  forall k i j A x, (forall p, In p (modes s n) -> level_of s n p <> mu k / t) -> (k < m)%nat ->
  (i < n * depth s n)%nat -> (j < n * depth s n)%nat -> two_site_op (f_sys f) i k j k cdag_op c_op Fermion = Ok A ->
  exp_vals_thermal V A E 0 = Ok x -> exists z, realspace_gfn BetaInf (mu k / t) (displacement s n i j) 0 n (dim_of s) Lesser = Ok z /\ x = snd z.
Proof. exact bond_closed. Qed.
Print Assumptions C137_green_partial.

Theorem C137_doubles_partial : forall s n g t m mu f, (3 <= n)%nat -> (2 * Z.of_nat n <= 100000000000000)%Z ->
  c_square_geometry (Z.of_nat n) (Z.of_nat (depth s n)) 0 0 false (flat_shape s) = Ok g ->
  fermions_init (fgeom_of g) (number 0) (number t) None (numbers m mu) (number 0) (number 0) m = Ok f ->
  forall H V E, createH f None = Ok H -> eigenbasis H V E -> sorted_list E -> apart gap13 E -> 0 < t -> good_size s n ->
  forall i A, (forall p, In p (modes s n) -> level_of s n p <> mu 0%nat / t) ->
  (forall p, In p (modes s n) -> level_of s n p <> mu 1%nat / t) ->
  m = 2%nat -> (i < n * depth s n)%nat -> two_site_op (f_sys f) i 0 i 1 n_op n_op Boson = Ok A ->
  exp_vals_thermal V A E 0 = fg_doubles BetaInf (mu 0%nat / t) (mu 1%nat / t) n (dim_of s).
Proof. exact doubles_closed. Qed.
Print Assumptions C137_doubles_partial.

(** C138. *)
Theorem C138_density : forall f i a0 a1 u, (2 <= f_nspecies f)%nat -> (i < fg_nsites (f_geom f))%nat -> isolated f i -> site_energies f i a0 a1 u ->
  forall H V E T, createH f None = Ok H -> eigenbasis H V E -> T <> 0 ->
  forall k A, (k < 2)%nat -> single_site_op (f_sys f) i k n_op Boson = Ok A -> exp_vals_thermal V A E T = Ok (atom_density T a0 a1 u k).
Proof. exact atom_density_avg. Qed.
Print Assumptions C138_density.

Theorem C138_double : forall f i a0 a1 u, (2 <= f_nspecies f)%nat -> (i < fg_nsites (f_geom f))%nat -> isolated f i -> site_energies f i a0 a1 u ->
  forall H V E T, createH f None = Ok H -> eigenbasis H V E -> T <> 0 ->
  forall A, two_site_op (f_sys f) i 0 i 1 n_op n_op Boson = Ok A -> exp_vals_thermal V A E T = Ok (atom_prob T a0 a1 u true true).
Proof. exact atom_double_avg. Qed.
Print Assumptions C138_double.

Theorem C138_uncorrelated : forall f i a0 a1 u, (2 <= f_nspecies f)%nat -> (i < fg_nsites (f_geom f))%nat -> isolated f i -> site_energies f i a0 a1 u ->
  forall H V E T, createH f None = Ok H -> eigenbasis H V E -> T <> 0 ->
  forall k j k' A B r, (k < 2)%nat -> (j < fg_nsites (f_geom f))%nat -> j <> i -> (k' < f_nspecies f)%nat ->
  two_site_op (f_sys f) i k j k' n_op n_op Boson = Ok A -> single_site_op (f_sys f) j k' n_op Boson = Ok B ->
  exp_vals_thermal V B E T = Ok r -> exp_vals_thermal V A E T = Ok (atom_density T a0 a1 u k * r).
Proof. exact atom_uncorrelated. Qed.
Print Assumptions C138_uncorrelated.
