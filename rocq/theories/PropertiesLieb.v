(** Property theorems C150: ground states of fermions that attract each other.  Theorems
    only. *)
From Coq Require Import List Arith Reals.
From Verif Require Import Scalars Res Matrix ModelBase ModelFermions ModelThermal SpecThermal ThermalBase SpecConvex Thermo SpecSigns SpecShells SpecHalf SpecLieb LiebApi.
From Verif Require SpecSinglet.
Import ListNotations.
Local Open Scope R_scope.

Theorem C150_unique : forall (f : fermions CR) (M : nat) (P : mat CR) (idx : list nat) (H V : mat CR) (E : list R) (e : R), let ns := fg_nsites (f_geom f) in
  attracting f -> connected_hops f -> shell ns 2 [M; M] P idx -> createH f (Some P) = Ok H -> eigenbasis H V E -> smallest e E ->
  forall k j, (k < length E)%nat -> (j < length E)%nat -> nth k E 0 = e -> nth j E 0 = e -> k = j.
Proof. exact pair_unique. Qed.
Print Assumptions C150_unique.
Theorem C150_state : forall (f : fermions CR) (M : nat) (P : mat CR) (idx : list nat) (H V : mat CR) (E : list R) (e : R), let ns := fg_nsites (f_geom f) in
  attracting f -> connected_hops f -> shell ns 2 [M; M] P idx -> createH f (Some P) = Ok H -> eigenbasis H V E -> smallest e E ->
  exists G : nat -> nat -> R,
    (forall x y, G x y = G y x) /\
    (forall w : nat -> CR, (exists x, config ns M x /\ w x <> k0) -> 0 < fst (ksum (2 ^ ns) (fun x => ksum (2 ^ ns) (fun y => kmul (kconj (w x)) (@kmul CR _ (G x y, 0) (w y)))))) /\
    (forall psi, state_of (length idx) H e psi <-> exists z, forall p, (p < length idx)%nat -> psi p = @kmul CR _ z (G (nth p idx 0 / 2 ^ ns)%nat (nth p idx 0 mod 2 ^ ns)%nat, 0)).
Proof. exact pair_state. Qed.
Print Assumptions C150_state.
Theorem C150_pairs : forall (f : fermions CR) (M : nat) (P : mat CR) (idx : list nat) (H V : mat CR) (E : list R) (e : R), let ns := fg_nsites (f_geom f) in
  attracting f -> connected_hops f -> shell ns 2 [M; M] P idx -> createH f (Some P) = Ok H -> eigenbasis H V E -> smallest e E ->
  forall i j A0 A1 O psi, i <> j -> (i < ns)%nat -> (j < ns)%nat ->
  two_site_op (f_sys f) i 0 j 0 cdag_op c_op Fermion = Ok A0 -> two_site_op (f_sys f) i 1 j 1 cdag_op c_op Fermion = Ok A1 -> sandwich P (mmul A0 A1) = Ok O ->
  state_of (length idx) H e psi -> 0 <= expect (length idx) O psi.
Proof. exact pair_pairs. Qed.
Print Assumptions C150_pairs.
Theorem C150_densities : forall (f : fermions CR) (M : nat) (P : mat CR) (idx : list nat) (H V : mat CR) (E : list R) (e : R), let ns := fg_nsites (f_geom f) in
  attracting f -> connected_hops f -> shell ns 2 [M; M] P idx -> createH f (Some P) = Ok H -> eigenbasis H V E -> smallest e E ->
  forall (w : nat -> R) (O : nat -> nat -> mat CR) psi,
  (forall i j, (i < ns)%nat -> (j < ns)%nat -> exists A, two_site_op (f_sys f) i 0 j 1 n_op n_op Boson = Ok A /\ sandwich P A = Ok (O i j)) ->
  state_of (length idx) H e psi -> 0 <= total (fun i => total (fun j => w i * w j * expect (length idx) (O i j) psi) (seq 0 ns)) (seq 0 ns).
Proof. exact pair_densities. Qed.
Print Assumptions C150_densities.
Theorem C150_singlet : forall (f : fermions CR) (M : nat) (P : mat CR) (idx : list nat) (H V : mat CR) (E : list R) (e : R), let ns := fg_nsites (f_geom f) in
  attracting f -> connected_hops f -> shell ns 2 [M; M] P idx -> createH f (Some P) = Ok H -> eigenbasis H V E -> smallest e E ->
  forall (A : nat -> mat CR) psi, spin_symmetric f -> (forall i, (i < ns)%nat -> two_site_op (f_sys f) i 0 i 1 cdag_op c_op Fermion = Ok (A i)) -> state_of (length idx) H e psi ->
  forall a, (a < 2 ^ (ns * 2))%nat ->
    ksum ns (fun i => apply (2 ^ (ns * 2)) (A i) (SpecSinglet.spread idx psi) a) = k0 /\ ksum ns (fun i => apply (2 ^ (ns * 2)) (madj (A i)) (SpecSinglet.spread idx psi) a) = k0.
Proof. exact pair_singlet. Qed.
Print Assumptions C150_singlet.
