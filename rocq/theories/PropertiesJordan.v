(** Property theorems C133..C135: chains of spins 1/2 and chains of fermions, free
    particles on rectangles, open chains of spins coupled along x and y.  Theorems only. *)
From Coq Require Import List Arith Reals ZArith QArith Bool Permutation.
From Verif Require Import Scalars Res Matrix SpecMat ModelBase ModelFermions ModelSpins ModelGeometry ModelPhase ModelSymmetry ModelThermal SpecThermal
  SpecFermiGas SpecFree ModelFreeLattice SpecFreeLattice FreeThermal ModelSpinLattice SpecJordan SpinJordan SpinJordanLattice SpecRect RectFree.
Import ListNotations.
Local Open Scope R_scope.

(** C133. *)
Theorem C133_hamiltonian : forall K (SR : StarRing K) (rt : nat -> K), rt 1%nat = k1 -> forall s f, same_chain s f ->
  exists Hs Hf, sp_createH rt s None = Ok Hs /\ createH f None = Ok Hf /\
    square (2 ^ fg_nsites (f_geom f)) Hs /\ square (2 ^ fg_nsites (f_geom f)) Hf /\
    forall a b, (a < 2 ^ fg_nsites (f_geom f))%nat -> (b < 2 ^ fg_nsites (f_geom f))%nat ->
    ent Hs a b = kadd (ent Hf a b) (kmul (chain_offset s) (kb (a =? b)%nat)).
Proof. exact (fun K SR => @chains_agree K SR). Qed.
Print Assumptions C133_hamiltonian.

Theorem C133_energies : forall rt s f Hs Hf c, rt 1%nat = k1 -> same_chain s f -> sp_createH rt s None = Ok Hs -> createH f None = Ok Hf -> chain_offset s = real c ->
  forall V E, eigenbasis Hf V E -> eigenbasis Hs V (map (fun e => e + c) E).
Proof. exact chain_energies. Qed.
Print Assumptions C133_energies.

Theorem C133_averages : forall rt s f Hs Hf c, rt 1%nat = k1 -> same_chain s f -> sp_createH rt s None = Ok Hs -> createH f None = Ok Hf -> chain_offset s = real c ->
  forall V E V' E' O T, eigenbasis Hf V E -> eigenbasis Hs V' E' -> square (2 ^ fg_nsites (f_geom f)) O ->
  T <> 0 \/ (sorted_list E /\ sorted_list E' /\ apart gap13 E) -> exp_vals_thermal V' O E' T = exp_vals_thermal V O E T.
Proof. exact chain_averages. Qed.
Print Assumptions C133_averages.

Theorem C133_moment : forall rt s f Hs Hf c, rt 1%nat = k1 -> same_chain s f -> sp_createH rt s None = Ok Hs -> createH f None = Ok Hf -> chain_offset s = real c ->
  forall V E V' E' T i A B x, eigenbasis Hf V E -> eigenbasis Hs V' E' ->
  T <> 0 \/ (sorted_list E /\ sorted_list E' /\ apart gap13 E) -> (i < fg_nsites (f_geom f))%nat ->
  single_site_op (sp_sys s) i 0 (sz_op 1) Boson = Ok A -> single_site_op (f_sys f) i 0 n_op Boson = Ok B ->
  exp_vals_thermal V B E T = Ok x -> exp_vals_thermal V' A E' T = Ok (1 / 2 - x).
Proof. exact chain_moment. Qed.
Print Assumptions C133_moment.

Theorem C133_open : forall nx g w t v mu ip, (1 <= nx)%Z -> (2 * nx <= 100000000000000)%Z -> c_square_geometry nx 1 0 0 true true = Ok g ->
  forall f, fermions_init (fgeom_of g) (number 0) (numbers 1 (fun _ => t)) None (numbers 1 (fun _ => mu)) (number w) (numbers 1 (fun _ => v)) 1 = Ok f ->
  exists s, spins_init ip (sgeom_of g) (JNum (real (- t))) (JNum (real (- t))) (JNum (real (v / 2))) (HNum k0) (HNum k0)
    (HArr (map (fun i => real (w - mu + v / 2 * INR (chain_degree (Z.to_nat nx) i))) (seq 0 (Z.to_nat nx)))) false 1 = Ok s /\
    same_chain s f /\ chain_offset s = real (- (INR (Z.to_nat nx) * (w - mu) + (INR (Z.to_nat nx) - 1) * (v / 2)) / 2).
Proof. exact open_chain. Qed.
Print Assumptions C133_open.

(** C134. *)
Theorem C134_particle : forall nx ny o1 o2 g w t mu m f, (1 <= nx)%nat -> (1 <= ny)%nat -> (2 * Z.of_nat nx <= 100000000000000)%Z -> (2 * Z.of_nat ny <= 100000000000000)%Z ->
  c_square_geometry (Z.of_nat nx) (Z.of_nat ny) 0 0 o1 o2 = Ok g ->
  fermions_init (fgeom_of g) (number 0) (numbers m t) None (numbers m mu) (number w) (numbers m (fun _ => 0)) m = Ok f ->
  forall k, (k < m)%nat -> eigenbasis (particle_matrix f k) (rect_waves o1 o2 nx ny) (rect_levels o1 o2 nx ny (t k) (w - mu k)).
Proof. exact rect_particle. Qed.
Print Assumptions C134_particle.

Theorem C134_spectrum : forall nx ny o1 o2 g w t mu m f, (1 <= nx)%nat -> (1 <= ny)%nat -> (2 * Z.of_nat nx <= 100000000000000)%Z -> (2 * Z.of_nat ny <= 100000000000000)%Z ->
  c_square_geometry (Z.of_nat nx) (Z.of_nat ny) 0 0 o1 o2 = Ok g ->
  fermions_init (fgeom_of g) (number 0) (numbers m t) None (numbers m mu) (number w) (numbers m (fun _ => 0)) m = Ok f ->
  forall H V E, createH f None = Ok H -> eigenbasis H V E ->
  Permutation E (subset_sums (flat_map (fun k => rect_levels o1 o2 nx ny (t k) (w - mu k)) (seq 0 m))).
Proof. exact rect_spectrum. Qed.
Print Assumptions C134_spectrum.

Theorem C134_density : forall nx ny o1 o2 g w t mu m f, (1 <= nx)%nat -> (1 <= ny)%nat -> (2 * Z.of_nat nx <= 100000000000000)%Z -> (2 * Z.of_nat ny <= 100000000000000)%Z ->
  c_square_geometry (Z.of_nat nx) (Z.of_nat ny) 0 0 o1 o2 = Ok g ->
  fermions_init (fgeom_of g) (number 0) (numbers m t) None (numbers m mu) (number w) (numbers m (fun _ => 0)) m = Ok f ->
  forall H V E, createH f None = Ok H -> eigenbasis H V E ->
  forall k T i A, T <> 0 -> (k < m)%nat -> (i < nx * ny)%nat -> single_site_op (f_sys f) i k n_op Boson = Ok A ->
  exp_vals_thermal V A E T = Ok (fst (filled T (rect_waves o1 o2 nx ny) (rect_levels o1 o2 nx ny (t k) (w - mu k)) i i)).
Proof. exact rect_density. Qed.
Print Assumptions C134_density.

Theorem C134_bond : forall nx ny o1 o2 g w t mu m f, (1 <= nx)%nat -> (1 <= ny)%nat -> (2 * Z.of_nat nx <= 100000000000000)%Z -> (2 * Z.of_nat ny <= 100000000000000)%Z ->
  c_square_geometry (Z.of_nat nx) (Z.of_nat ny) 0 0 o1 o2 = Ok g ->
  fermions_init (fgeom_of g) (number 0) (numbers m t) None (numbers m mu) (number w) (numbers m (fun _ => 0)) m = Ok f ->
  forall H V E, createH f None = Ok H -> eigenbasis H V E ->
  forall k T i j A, T <> 0 -> (k < m)%nat -> (i < nx * ny)%nat -> (j < nx * ny)%nat -> two_site_op (f_sys f) i k j k cdag_op c_op Fermion = Ok A ->
  exp_vals_thermal V A E T = Ok (fst (filled T (rect_waves o1 o2 nx ny) (rect_levels o1 o2 nx ny (t k) (w - mu k)) i j)).
Proof. exact rect_bond. Qed.
Print Assumptions C134_bond.

Theorem C134_pair : forall nx ny o1 o2 g w t mu m f, (1 <= nx)%nat -> (1 <= ny)%nat -> (2 * Z.of_nat nx <= 100000000000000)%Z -> (2 * Z.of_nat ny <= 100000000000000)%Z ->
  c_square_geometry (Z.of_nat nx) (Z.of_nat ny) 0 0 o1 o2 = Ok g ->
  fermions_init (fgeom_of g) (number 0) (numbers m t) None (numbers m mu) (number w) (numbers m (fun _ => 0)) m = Ok f ->
  forall H V E, createH f None = Ok H -> eigenbasis H V E ->
  forall k T i j A, T <> 0 -> (k < m)%nat -> (i < nx * ny)%nat -> (j < nx * ny)%nat -> two_site_op (f_sys f) i k j k n_op n_op Boson = Ok A ->
  let G := filled T (rect_waves o1 o2 nx ny) (rect_levels o1 o2 nx ny (t k) (w - mu k)) in
  exp_vals_thermal V A E T = Ok (fst (G i i) * fst (G j j) + (if (i =? j)%nat then fst (G i i) else 0) - abs2 (G i j)).
Proof. exact rect_pair. Qed.
Print Assumptions C134_pair.

(** C135. *)
Theorem C135_spectrum : forall n g j h ip s rt Hs Vs Es, (1 <= n)%nat -> (2 * Z.of_nat n <= 100000000000000)%Z -> c_square_geometry (Z.of_nat n) 1 0 0 true true = Ok g ->
  spins_init ip (sgeom_of g) (JNum (real j)) (JNum (real j)) (JNum k0) (HNum k0) (HNum k0) (HNum (real h)) false 1 = Ok s -> rt 1%nat = k1 ->
  sp_createH rt s None = Ok Hs -> eigenbasis Hs Vs Es ->
  Permutation Es (map (fun x => x - INR n * h / 2) (subset_sums (map (chain_level n j h) (seq 0 n)))).
Proof. exact xx_spectrum. Qed.
Print Assumptions C135_spectrum.

Theorem C135_moment : forall n g j h ip s rt Hs Vs Es, (1 <= n)%nat -> (2 * Z.of_nat n <= 100000000000000)%Z -> c_square_geometry (Z.of_nat n) 1 0 0 true true = Ok g ->
  spins_init ip (sgeom_of g) (JNum (real j)) (JNum (real j)) (JNum k0) (HNum k0) (HNum k0) (HNum (real h)) false 1 = Ok s -> rt 1%nat = k1 ->
  sp_createH rt s None = Ok Hs -> eigenbasis Hs Vs Es ->
  forall T, T <> 0 -> forall i A, (i < n)%nat -> single_site_op (sp_sys s) i 0 (sz_op 1) Boson = Ok A ->
  exp_vals_thermal Vs A Es T = Ok (1 / 2 - chain_green n j h T i i).
Proof. exact xx_moment. Qed.
Print Assumptions C135_moment.

Theorem C135_correlation : forall n g j h ip s rt Hs Vs Es, (1 <= n)%nat -> (2 * Z.of_nat n <= 100000000000000)%Z -> c_square_geometry (Z.of_nat n) 1 0 0 true true = Ok g ->
  spins_init ip (sgeom_of g) (JNum (real j)) (JNum (real j)) (JNum k0) (HNum k0) (HNum k0) (HNum (real h)) false 1 = Ok s -> rt 1%nat = k1 ->
  sp_createH rt s None = Ok Hs -> eigenbasis Hs Vs Es ->
  forall T, T <> 0 -> forall i k A, (i < n)%nat -> (k < n)%nat -> i <> k ->
  two_site_op (sp_sys s) i 0 k 0 (sz_op 1) (sz_op 1) Boson = Ok A ->
  exp_vals_thermal Vs A Es T = Ok ((1 / 2 - chain_green n j h T i i) * (1 / 2 - chain_green n j h T k k) - chain_green n j h T i k ^ 2).
Proof. exact xx_correlation. Qed.
Print Assumptions C135_correlation.
