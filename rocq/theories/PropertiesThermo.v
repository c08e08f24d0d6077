(** Property theorems C139, C140: pairs of particles on lattices with two classes of
    sites, and thermal averages as functions of the temperature and the chemical
    potential.  Theorems only. *)
From Coq Require Import List Arith Reals ZArith QArith Bool.
From Verif Require Import Scalars Res Matrix SpecMat ModelBase ModelFermions ModelGeometry ModelPhase ModelSymmetry ModelThermal SpecThermal
  SpecFermiGas SpecHalf ModelFreeLattice SpecFreeLattice HamProofs SpecEta EtaPair EtaLattice SpecThermo Thermo ThermoMu.
Import ListNotations.
Local Open Scope R_scope.

(** C139. *)
Theorem C139_states : forall f side e, pair_symmetric f side e -> forall H, createH f None = Ok H -> forall A : nat -> mat CR, (forall i, (i < fg_nsites (f_geom f))%nat -> two_site_op (f_sys f) i 0 i 1 cdag_op cdag_op Fermion = Ok (A i)) ->
  forall (w : nat -> CR) x, (forall a, (a < 2 ^ nlog (f_sys f))%nat -> ksum (2 ^ nlog (f_sys f)) (fun b => kmul (ent H a b) (w b)) = kmul (re x) (w a)) ->
  let z := fun a => ksum (fg_nsites (f_geom f)) (fun i => kmul (re (sign side i)) (ksum (2 ^ nlog (f_sys f)) (fun b => kmul (ent (A i) a b) (w b)))) in
  forall a, (a < 2 ^ nlog (f_sys f))%nat -> ksum (2 ^ nlog (f_sys f)) (fun b => kmul (ent H a b) (z b)) = kmul (re (x + e)) (z a).
Proof. exact pair_states. Qed.
Print Assumptions C139_states.

Theorem C139_rule : forall f side e, pair_symmetric f side e -> forall H V E, createH f None = Ok H -> eigenbasis H V E -> forall T, T <> 0 -> forall (A : nat -> mat CR) j B U D (P : nat -> R) x y,
  (forall i, (i < fg_nsites (f_geom f))%nat -> two_site_op (f_sys f) i 0 i 1 cdag_op cdag_op Fermion = Ok (A i)) ->
  (j < fg_nsites (f_geom f))%nat -> two_site_op (f_sys f) j 1 j 0 c_op c_op Fermion = Ok B ->
  single_site_op (f_sys f) j 0 n_op Boson = Ok U -> single_site_op (f_sys f) j 1 n_op Boson = Ok D -> 
  (forall i, (i < fg_nsites (f_geom f))%nat -> exp_vals_thermal V (mmul (A i) B) E T = Ok (P i)) ->
  exp_vals_thermal V U E T = Ok x -> exp_vals_thermal V D E T = Ok y ->
  1 - x - y = (exp (e / T) - 1) * total (fun i => sign side i * sign side j * P i) (seq 0 (fg_nsites (f_geom f))).
Proof. exact pair_rule. Qed.
Print Assumptions C139_rule.

Theorem C139_isotropic : forall f side e, pair_symmetric f side e -> forall H V E, createH f None = Ok H -> eigenbasis H V E -> forall T, T <> 0 \/ (sorted_list E /\ apart gap13 E) -> forall i j A B U1 D1 U2 D2 I,
  e = 0 -> (i < fg_nsites (f_geom f))%nat -> (j < fg_nsites (f_geom f))%nat -> two_site_op (f_sys f) i 0 i 1 cdag_op cdag_op Fermion = Ok A -> two_site_op (f_sys f) j 1 j 0 c_op c_op Fermion = Ok B ->
  single_site_op (f_sys f) i 0 n_op Boson = Ok U1 -> single_site_op (f_sys f) i 1 n_op Boson = Ok D1 -> 
  single_site_op (f_sys f) j 0 n_op Boson = Ok U2 -> single_site_op (f_sys f) j 1 n_op Boson = Ok D2 -> I = meye (2 ^ nlog (f_sys f)) ->
  forall x, exp_vals_thermal V (mmul A B) E T = Ok x ->
  exp_vals_thermal V (mmul (msub I (madd U1 D1)) (msub I (madd U2 D2))) E T = Ok (2 * sign side i * sign side j * x).
Proof. exact pair_isotropic. Qed.
Print Assumptions C139_isotropic.

Theorem C139_lattice : forall nx ny o1 o2 g u w t v mu m f, (1 <= nx)%Z -> (1 <= ny)%Z -> (2 * nx <= 100000000000000)%Z -> (2 * ny <= 100000000000000)%Z ->
  c_square_geometry nx ny 0 0 o1 o2 = Ok g ->
  fermions_init (fgeom_of g) (number u) (numbers m t) None (numbers m mu) (number w) (numbers m v) m = Ok f ->
  o1 = true \/ Z.even nx = true -> o2 = true \/ Z.even ny = true ->
  (2 <= m)%nat -> t 0%nat = t 1%nat -> v 0%nat = 0 -> v 1%nat = 0 -> pair_symmetric f (chess ny) (u + (w - mu 0%nat) + (w - mu 1%nat)).
Proof. exact lattice_pair. Qed.
Print Assumptions C139_lattice.

(** C140. *)
Theorem C140_temperature : forall H V E, eigenbasis H V E -> nrow V <> 0%nat -> forall O, nrow O = nrow V /\ ncol O = nrow V -> exists F,
  (forall T, T <> 0 -> exp_vals_thermal V O E T = Ok (F T)) /\
  forall T x y z, T <> 0 -> exp_vals_thermal V H E T = Ok x -> exp_vals_thermal V O E T = Ok y -> exp_vals_thermal V (mmul H O) E T = Ok z ->
    derivable_pt_lim F T ((z - x * y) / T ^ 2).
Proof. exact thermal_slope. Qed.
Print Assumptions C140_temperature.

Theorem C140_energy : forall H V E, eigenbasis H V E -> nrow V <> 0%nat -> forall T1 T2 x1 x2, 0 < T1 <= T2 ->
  exp_vals_thermal V H E T1 = Ok x1 -> exp_vals_thermal V H E T2 = Ok x2 -> x1 <= x2.
Proof. exact energy_rises. Qed.
Print Assumptions C140_energy.

Theorem C140_hot : forall H V E, eigenbasis H V E -> nrow V <> 0%nat -> forall O, nrow O = nrow V /\ ncol O = nrow V -> forall eps, 0 < eps ->
  exists T0, 0 < T0 /\ forall T x, T0 < T -> exp_vals_thermal V O E T = Ok x ->
    Rabs (x - total (fun i => fst (ent O i i)) (seq 0 (nrow V)) / INR (nrow V)) < eps.
Proof. exact hot_limit. Qed.
Print Assumptions C140_hot.

Theorem C140_potential : forall f k, (k < f_nspecies f)%nat -> fg_nsites (f_geom f) <> 0%nat -> (2 <= f_nspecies f)%nat \/ (forall i, (i < fg_nsites (f_geom f))%nat -> f_us f i = k0) -> real_couplings f ->
  forall T, T <> 0 -> forall O Nk, sum_op (f_sys f) n_op k Boson = Ok Nk -> nrow O = (2 ^ nlog (f_sys f))%nat /\ ncol O = (2 ^ nlog (f_sys f))%nat -> exists F,
  (forall x H V E, createH (with_mu f k x) None = Ok H -> eigenbasis H V E -> exp_vals_thermal V O E T = Ok (F x)) /\
  forall x H V E y z w, createH (with_mu f k x) None = Ok H -> eigenbasis H V E ->
    exp_vals_thermal V Nk E T = Ok y -> exp_vals_thermal V O E T = Ok z -> exp_vals_thermal V (mmul Nk O) E T = Ok w ->
    derivable_pt_lim F x ((w - y * z) / T).
Proof. exact mu_slope. Qed.
Print Assumptions C140_potential.

Theorem C140_number : forall f k, (k < f_nspecies f)%nat -> fg_nsites (f_geom f) <> 0%nat -> (2 <= f_nspecies f)%nat \/ (forall i, (i < fg_nsites (f_geom f))%nat -> f_us f i = k0) -> real_couplings f ->
  forall T, T <> 0 -> forall Nk x1 x2 H1 H2 V1 V2 E1 E2 y1 y2, sum_op (f_sys f) n_op k Boson = Ok Nk -> 0 < T -> x1 <= x2 ->
  createH (with_mu f k x1) None = Ok H1 -> createH (with_mu f k x2) None = Ok H2 -> eigenbasis H1 V1 E1 -> eigenbasis H2 V2 E2 ->
  exp_vals_thermal V1 Nk E1 T = Ok y1 -> exp_vals_thermal V2 Nk E2 T = Ok y2 -> y1 <= y2.
Proof. exact density_rises. Qed.
Print Assumptions C140_number.
