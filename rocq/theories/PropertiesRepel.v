(** Property theorems C154: ground states of fermions that repel each other on two kinds of
    sites, as many particles as sites.  Theorems only. *)
From Coq Require Import List Arith Reals.
From Verif Require Import Scalars Res Matrix ModelBase ModelFermions ModelThermal SpecThermal ThermalBase SpecConvex Thermo SpecSigns SpecShells SpecLieb SpecRepel RepelApi.
Import ListNotations.
Local Open Scope R_scope.

Theorem C154_unique : forall (part : nat -> bool) (f : fermions CR) (M : nat) (P : mat CR) (idx : list nat) (H V : mat CR) (E : list R) (e : R), let ns := fg_nsites (f_geom f) in
  repelling part f -> connected_hops f -> (M <= ns)%nat -> shell ns 2 [M; ns - M]%nat P idx -> createH f (Some P) = Ok H -> eigenbasis H V E -> smallest e E ->
  forall k j, (k < length E)%nat -> (j < length E)%nat -> nth k E 0 = e -> nth j E 0 = e -> k = j.
Proof. exact repel_unique. Qed.
Print Assumptions C154_unique.
Theorem C154_state : forall (part : nat -> bool) (f : fermions CR) (M : nat) (P : mat CR) (idx : list nat) (H V : mat CR) (E : list R) (e : R), let ns := fg_nsites (f_geom f) in
  repelling part f -> connected_hops f -> (M <= ns)%nat -> shell ns 2 [M; ns - M]%nat P idx -> createH f (Some P) = Ok H -> eigenbasis H V E -> smallest e E ->
  exists G : nat -> nat -> R,
    (forall x y, G x y = G y x) /\
    (forall w : nat -> CR, (exists x, config ns M x /\ w x <> k0) -> 0 < fst (ksum (2 ^ ns) (fun x => ksum (2 ^ ns) (fun y => kmul (kconj (w x)) (@kmul CR _ (G x y, 0) (w y)))))) /\
    (forall psi, state_of (length idx) H e psi <-> exists z, forall p, (p < length idx)%nat ->
      let x := (nth p idx 0 / 2 ^ ns)%nat in let y := holes ns (nth p idx 0 mod 2 ^ ns)%nat in psi p = @kmul CR _ z (hole_sign part ns y * G x y, 0)).
Proof. exact repel_state. Qed.
Print Assumptions C154_state.
Theorem C154_spins : forall (part : nat -> bool) (f : fermions CR) (M : nat) (P : mat CR) (idx : list nat) (H V : mat CR) (E : list R) (e : R), let ns := fg_nsites (f_geom f) in
  repelling part f -> connected_hops f -> (M <= ns)%nat -> shell ns 2 [M; ns - M]%nat P idx -> createH f (Some P) = Ok H -> eigenbasis H V E -> smallest e E ->
  forall i j A C O psi, (i < ns)%nat -> (j < ns)%nat ->
  two_site_op (f_sys f) i 0 i 1 cdag_op c_op Fermion = Ok A -> two_site_op (f_sys f) j 1 j 0 cdag_op c_op Fermion = Ok C -> sandwich P (mmul A C) = Ok O ->
  state_of (length idx) H e psi -> 0 <= side part i * side part j * expect (length idx) O psi.
Proof. exact repel_spins. Qed.
Print Assumptions C154_spins.
Theorem C154_density : forall (part : nat -> bool) (f : fermions CR) (M : nat) (P : mat CR) (idx : list nat) (H V : mat CR) (E : list R) (e : R), let ns := fg_nsites (f_geom f) in
  repelling part f -> connected_hops f -> (M <= ns)%nat -> shell ns 2 [M; ns - M]%nat P idx -> createH f (Some P) = Ok H -> eigenbasis H V E -> smallest e E ->
  forall i A0 A1 O0 O1 psi, (i < ns)%nat ->
  single_site_op (f_sys f) i 0 n_op Boson = Ok A0 -> single_site_op (f_sys f) i 1 n_op Boson = Ok A1 -> sandwich P A0 = Ok O0 -> sandwich P A1 = Ok O1 ->
  state_of (length idx) H e psi -> expect (length idx) O0 psi + expect (length idx) O1 psi = norm2 (length idx) psi.
Proof. exact repel_density. Qed.
Print Assumptions C154_density.
