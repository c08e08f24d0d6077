(** Property theorems C145: how free energies, lowest energies and averages follow
    changes of the Hamiltonian.  Theorems only. *)
From Coq Require Import List Arith Reals.
From Verif Require Import Scalars Res Matrix ModelBase ModelFermions ModelSpins ModelThermal SpecThermal SpecFermiGas SpecHeat SpecConvex HamProofs Convex ConvexRun ConvexHubbard ConvexSpins.
Import ListNotations.
Local Open Scope R_scope.

Theorem C145_states : forall (H V : mat CR) (E : list R) (n : nat), eigenbasis H V E -> nrow V = n ->
   forall psi e, smallest e E -> e * norm2 n psi <= expect n H psi.
Proof. exact variational. Qed.
Print Assumptions C145_states.

Theorem C145_free_energy : forall (H1 V1 H2 V2 : mat CR) (E1 E2 : list R), eigenbasis H1 V1 E1 -> eigenbasis H2 V2 E2 -> nrow V2 = nrow V1 -> nrow V1 <> 0%nat ->
   forall T x1 x2, 0 < T -> exp_vals_thermal V1 (msub H2 H1) E1 T = Ok x1 -> exp_vals_thermal V2 (msub H2 H1) E2 T = Ok x2 ->
    x2 <= free_energy T E2 - free_energy T E1 <= x1.
Proof. exact free_energy_bounds. Qed.
Print Assumptions C145_free_energy.

Theorem C145_lowest : forall (H1 V1 H2 V2 : mat CR) (E1 E2 : list R), eigenbasis H1 V1 E1 -> eigenbasis H2 V2 E2 -> nrow V2 = nrow V1 -> nrow V1 <> 0%nat ->
   forall e1 e2 x1 x2, sorted_list E1 -> sorted_list E2 -> apart gap13 E1 -> apart gap13 E2 -> smallest e1 E1 -> smallest e2 E2 ->
    exp_vals_thermal V1 (msub H2 H1) E1 0 = Ok x1 -> exp_vals_thermal V2 (msub H2 H1) E2 0 = Ok x2 -> x2 <= e2 - e1 <= x1.
Proof. exact lowest_bounds. Qed.
Print Assumptions C145_lowest.

Theorem C145_averages : forall (H1 V1 H2 V2 : mat CR) (E1 E2 : list R), eigenbasis H1 V1 E1 -> eigenbasis H2 V2 E2 -> nrow V2 = nrow V1 -> nrow V1 <> 0%nat ->
   forall T x1 x2, 0 <= T -> allowed T E1 -> allowed T E2 -> exp_vals_thermal V1 (msub H2 H1) E1 T = Ok x1 -> exp_vals_thermal V2 (msub H2 H1) E2 T = Ok x2 -> x2 <= x1.
Proof. exact average_falls. Qed.
Print Assumptions C145_averages.

Theorem C145_concave : forall (H1 V1 H2 V2 V : mat CR) (E1 E2 E : list R) (s : R), eigenbasis H1 V1 E1 -> eigenbasis H2 V2 E2 -> eigenbasis (between s H1 H2) V E ->
  nrow V1 = nrow V -> nrow V2 = nrow V -> nrow V <> 0%nat -> 0 <= s <= 1 ->  forall T, 0 < T -> (1 - s) * free_energy T E1 + s * free_energy T E2 <= free_energy T E.
Proof. exact free_energy_concave. Qed.
Print Assumptions C145_concave.

Theorem C145_lowest_concave : forall (H1 V1 H2 V2 V : mat CR) (E1 E2 E : list R) (s : R), eigenbasis H1 V1 E1 -> eigenbasis H2 V2 E2 -> eigenbasis (between s H1 H2) V E ->
  nrow V1 = nrow V -> nrow V2 = nrow V -> nrow V <> 0%nat -> 0 <= s <= 1 ->  forall e1 e2 e, smallest e1 E1 -> smallest e2 E2 -> smallest e E -> (1 - s) * e1 + s * e2 <= e.
Proof. exact lowest_concave. Qed.
Print Assumptions C145_lowest_concave.

Theorem C145_doubles : forall (f : fermions CR) (u1 u2 : nat -> R), (2 <= f_nspecies f)%nat -> forall (H1 V1 H2 V2 : mat CR) (E1 E2 : list R),
  createH (with_interactions f u1) None = Ok H1 -> createH (with_interactions f u2) None = Ok H2 -> eigenbasis H1 V1 E1 -> eigenbasis H2 V2 E2 ->
  forall O : nat -> mat CR, (forall i, (i < fg_nsites (f_geom f))%nat -> two_site_op (f_sys f) i 0 i 1 n_op n_op Boson = Ok (O i)) ->
  forall T d1 d2, (forall i, (i < fg_nsites (f_geom f))%nat -> exp_vals_thermal V1 (O i) E1 T = Ok (d1 i)) ->
  (forall i, (i < fg_nsites (f_geom f))%nat -> exp_vals_thermal V2 (O i) E2 T = Ok (d2 i)) ->
  0 <= T -> allowed T E1 -> allowed T E2 -> total (fun i => (u2 i - u1 i) * (d2 i - d1 i)) (seq 0 (fg_nsites (f_geom f))) <= 0.
Proof. exact doubles_respond. Qed.
Print Assumptions C145_doubles.

Theorem C145_interactions : forall (f : fermions CR) (u1 u2 : nat -> R), (2 <= f_nspecies f)%nat -> forall (H1 V1 H2 V2 : mat CR) (E1 E2 : list R),
  createH (with_interactions f u1) None = Ok H1 -> createH (with_interactions f u2) None = Ok H2 -> eigenbasis H1 V1 E1 -> eigenbasis H2 V2 E2 ->
  forall O : nat -> mat CR, (forall i, (i < fg_nsites (f_geom f))%nat -> two_site_op (f_sys f) i 0 i 1 n_op n_op Boson = Ok (O i)) ->
  forall T d1 d2, (forall i, (i < fg_nsites (f_geom f))%nat -> exp_vals_thermal V1 (O i) E1 T = Ok (d1 i)) ->
  (forall i, (i < fg_nsites (f_geom f))%nat -> exp_vals_thermal V2 (O i) E2 T = Ok (d2 i)) ->
  0 < T -> total (fun i => (u2 i - u1 i) * d2 i) (seq 0 (fg_nsites (f_geom f))) <= free_energy T E2 - free_energy T E1 <= total (fun i => (u2 i - u1 i) * d1 i) (seq 0 (fg_nsites (f_geom f))).
Proof. exact interactions_free_energy. Qed.
Print Assumptions C145_interactions.

Theorem C145_repulsion : forall (f : fermions CR) (u1 u2 : nat -> R), (2 <= f_nspecies f)%nat -> forall (H1 V1 H2 V2 : mat CR) (E1 E2 : list R),
  createH (with_interactions f u1) None = Ok H1 -> createH (with_interactions f u2) None = Ok H2 -> eigenbasis H1 V1 E1 -> eigenbasis H2 V2 E2 ->
  forall O : nat -> mat CR, (forall i, (i < fg_nsites (f_geom f))%nat -> two_site_op (f_sys f) i 0 i 1 n_op n_op Boson = Ok (O i)) ->
  forall T d1 d2, (forall i, (i < fg_nsites (f_geom f))%nat -> exp_vals_thermal V1 (O i) E1 T = Ok (d1 i)) ->
  (forall i, (i < fg_nsites (f_geom f))%nat -> exp_vals_thermal V2 (O i) E2 T = Ok (d2 i)) ->
  0 < T -> (forall i, (i < (fg_nsites (f_geom f)))%nat -> u1 i <= u2 i) -> free_energy T E1 <= free_energy T E2.
Proof. exact repulsion_costs. Qed.
Print Assumptions C145_repulsion.

Theorem C145_densities : forall (f : fermions CR) (v1 v2 : nat -> nat -> R), (2 <= f_nspecies f)%nat \/ (forall i, (i < fg_nsites (f_geom f))%nat -> f_us f i = k0) -> forall (H1 V1 H2 V2 : mat CR) (E1 E2 : list R),
  createH (with_potentials f v1) None = Ok H1 -> createH (with_potentials f v2) None = Ok H2 -> eigenbasis H1 V1 E1 -> eigenbasis H2 V2 E2 ->
  forall O : nat -> nat -> mat CR, (forall i k, (i < fg_nsites (f_geom f))%nat -> (k < f_nspecies f)%nat -> single_site_op (f_sys f) i k n_op Boson = Ok (O i k)) ->
  forall T d1 d2, (forall i k, (i < fg_nsites (f_geom f))%nat -> (k < f_nspecies f)%nat -> exp_vals_thermal V1 (O i k) E1 T = Ok (d1 i k)) ->
  (forall i k, (i < fg_nsites (f_geom f))%nat -> (k < f_nspecies f)%nat -> exp_vals_thermal V2 (O i k) E2 T = Ok (d2 i k)) ->
  0 <= T -> allowed T E1 -> allowed T E2 -> total (fun i => total (fun k => (v2 i k - v1 i k) * (d2 i k - d1 i k)) (seq 0 (f_nspecies f))) (seq 0 (fg_nsites (f_geom f))) <= 0.
Proof. exact densities_respond. Qed.
Print Assumptions C145_densities.

Theorem C145_potentials : forall (f : fermions CR) (v1 v2 : nat -> nat -> R), (2 <= f_nspecies f)%nat \/ (forall i, (i < fg_nsites (f_geom f))%nat -> f_us f i = k0) -> forall (H1 V1 H2 V2 : mat CR) (E1 E2 : list R),
  createH (with_potentials f v1) None = Ok H1 -> createH (with_potentials f v2) None = Ok H2 -> eigenbasis H1 V1 E1 -> eigenbasis H2 V2 E2 ->
  forall O : nat -> nat -> mat CR, (forall i k, (i < fg_nsites (f_geom f))%nat -> (k < f_nspecies f)%nat -> single_site_op (f_sys f) i k n_op Boson = Ok (O i k)) ->
  forall T d1 d2, (forall i k, (i < fg_nsites (f_geom f))%nat -> (k < f_nspecies f)%nat -> exp_vals_thermal V1 (O i k) E1 T = Ok (d1 i k)) ->
  (forall i k, (i < fg_nsites (f_geom f))%nat -> (k < f_nspecies f)%nat -> exp_vals_thermal V2 (O i k) E2 T = Ok (d2 i k)) ->
   0 < T -> total (fun i => total (fun k => (v2 i k - v1 i k) * d2 i k) (seq 0 (f_nspecies f))) (seq 0 (fg_nsites (f_geom f))) <= free_energy T E2 - free_energy T E1
      <= total (fun i => total (fun k => (v2 i k - v1 i k) * d1 i k) (seq 0 (f_nspecies f))) (seq 0 (fg_nsites (f_geom f))).
Proof. exact potentials_free_energy. Qed.
Print Assumptions C145_potentials.

Theorem C145_moments : forall (rt : nat -> CR) (s : spins CR) (h1 h2 : nat -> nat -> R), sp_two s = 1%nat -> forall (H1 V1 H2 V2 : mat CR) (E1 E2 : list R),
  sp_createH rt (with_fields s h1) None = Ok H1 -> sp_createH rt (with_fields s h2) None = Ok H2 -> eigenbasis H1 V1 E1 -> eigenbasis H2 V2 E2 ->
  forall O : nat -> nat -> mat CR, (forall c i, (c < 3)%nat -> (i < sg_nsites (sp_geom s))%nat -> single_site_op (sp_sys s) i 0 (axis_op rt c) Boson = Ok (O c i)) ->
  forall T p1 p2, (forall c i, (c < 3)%nat -> (i < sg_nsites (sp_geom s))%nat -> exp_vals_thermal V1 (O c i) E1 T = Ok (p1 c i)) ->
  (forall c i, (c < 3)%nat -> (i < sg_nsites (sp_geom s))%nat -> exp_vals_thermal V2 (O c i) E2 T = Ok (p2 c i)) ->
  0 <= T -> allowed T E1 -> allowed T E2 -> 0 <= total (fun i => total (fun c => (h2 c i - h1 c i) * (p2 c i - p1 c i)) (seq 0 3)) (seq 0 (sg_nsites (sp_geom s))).
Proof. exact moments_respond. Qed.
Print Assumptions C145_moments.

Theorem C145_fields : forall (rt : nat -> CR) (s : spins CR) (h1 h2 : nat -> nat -> R), sp_two s = 1%nat -> forall (H1 V1 H2 V2 : mat CR) (E1 E2 : list R),
  sp_createH rt (with_fields s h1) None = Ok H1 -> sp_createH rt (with_fields s h2) None = Ok H2 -> eigenbasis H1 V1 E1 -> eigenbasis H2 V2 E2 ->
  forall O : nat -> nat -> mat CR, (forall c i, (c < 3)%nat -> (i < sg_nsites (sp_geom s))%nat -> single_site_op (sp_sys s) i 0 (axis_op rt c) Boson = Ok (O c i)) ->
  forall T p1 p2, (forall c i, (c < 3)%nat -> (i < sg_nsites (sp_geom s))%nat -> exp_vals_thermal V1 (O c i) E1 T = Ok (p1 c i)) ->
  (forall c i, (c < 3)%nat -> (i < sg_nsites (sp_geom s))%nat -> exp_vals_thermal V2 (O c i) E2 T = Ok (p2 c i)) ->
   0 < T -> total (fun i => total (fun c => (h2 c i - h1 c i) * p1 c i) (seq 0 3)) (seq 0 (sg_nsites (sp_geom s))) <= free_energy T E1 - free_energy T E2
      <= total (fun i => total (fun c => (h2 c i - h1 c i) * p2 c i) (seq 0 3)) (seq 0 (sg_nsites (sp_geom s))).
Proof. exact fields_free_energy. Qed.
Print Assumptions C145_fields.
