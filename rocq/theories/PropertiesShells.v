(** Property theorems C148: ground states of fermions with fixed numbers of particles.
    Theorems only. *)
From Coq Require Import List Arith Reals.
From Verif Require Import Scalars Res Matrix ModelBase ModelFermions FermiApi ModelThermal SpecThermal SpecConvex Thermo SpecSigns SpecShells Shells ShellsRun ShellsRing.
Import ListNotations.
Local Open Scope R_scope.

Theorem C148_projectors : forall (f : fermions CR) (counts : list nat) (P : mat CR), fg_nsites (f_geom f) <> 0%nat -> length counts = f_nspecies f -> n_projector (f_sys f) (Some (map Some counts)) = Ok P ->
  exists idx, shell (fg_nsites (f_geom f)) (f_nspecies f) counts P idx.
Proof. exact shell_projector. Qed.
Print Assumptions C148_projectors.

Theorem C148_unique : forall (f : fermions CR) (part : nat -> bool) (counts : list nat) (P : mat CR) (idx : list nat) (H V : mat CR) (E : list R), let ns := fg_nsites (f_geom f) in let m := f_nspecies f in
  us_ok f -> orderly part f counts -> shell ns m counts P idx -> createH f (Some P) = Ok H -> eigenbasis H V E -> connected_hops f ->
  forall e k j, smallest e E -> (k < length E)%nat -> (j < length E)%nat -> nth k E 0 = e -> nth j E 0 = e -> k = j.
Proof. exact shell_unique. Qed.
Print Assumptions C148_unique.

Theorem C148_state : forall (f : fermions CR) (part : nat -> bool) (counts : list nat) (P : mat CR) (idx : list nat) (H V : mat CR) (E : list R), let ns := fg_nsites (f_geom f) in let m := f_nspecies f in
  us_ok f -> orderly part f counts -> shell ns m counts P idx -> createH f (Some P) = Ok H -> eigenbasis H V E -> connected_hops f ->
  forall e psi, smallest e E -> state_of (length idx) H e psi -> (exists a, (a < length idx)%nat /\ psi a <> k0) ->
  exists z, abs2 z = 1 /\ forall a, (a < length idx)%nat -> psi a <> k0 /\ psi a = kmul z (state_sign part (ns * m) (nth a idx 0%nat) * sqrt (abs2 (psi a)), 0).
Proof. exact shell_state. Qed.
Print Assumptions C148_state.

Theorem C148_overlap : forall f1 f2 part counts P idx H1 V1 E1 H2 V2 E2 psi phi e1 e2, us_ok f1 -> us_ok f2 -> fg_nsites (f_geom f2) = fg_nsites (f_geom f1) -> f_nspecies f2 = f_nspecies f1 ->
  orderly part f1 counts -> orderly part f2 counts -> connected_hops f1 -> connected_hops f2 -> shell (fg_nsites (f_geom f1)) (f_nspecies f1) counts P idx ->
  createH f1 (Some P) = Ok H1 -> createH f2 (Some P) = Ok H2 -> eigenbasis H1 V1 E1 -> eigenbasis H2 V2 E2 -> smallest e1 E1 -> smallest e2 E2 ->
  state_of (length idx) H1 e1 psi -> state_of (length idx) H2 e2 phi -> (exists a, (a < length idx)%nat /\ psi a <> k0) -> (exists a, (a < length idx)%nat /\ phi a <> k0) -> inner (length idx) psi phi <> k0.
Proof. exact shell_overlap. Qed.
Print Assumptions C148_overlap.

Theorem C148_hops : forall (f : fermions CR) (part : nat -> bool) (counts : list nat) (P : mat CR) (idx : list nat) (H V : mat CR) (E : list R), let ns := fg_nsites (f_geom f) in let m := f_nspecies f in
  us_ok f -> orderly part f counts -> shell ns m counts P idx -> createH f (Some P) = Ok H -> eigenbasis H V E ->
  forall i j s A O T x, length idx <> 0%nat -> (j < i < ns)%nat -> (s < m)%nat -> passes_even ns (nth s counts 0%nat) i j -> two_site_op (f_sys f) i s j s cdag_op c_op Fermion = Ok A -> sandwich P A = Ok O ->
  0 <= T -> allowed T E -> exp_vals_thermal V O E T = Ok x -> 0 <= side part (ns * s + i) * side part (ns * s + j) * x.
Proof. exact hop_average. Qed.
Print Assumptions C148_hops.

(** The odd numbers are needed: two particles on a ring of four sites have several
    ground states. *)
Theorem C148_open_shell : exists (f : fermions CR) (P : mat CR) (idx : list nat) (H V : mat CR) (E : list R) (psi phi : nat -> CR) (e : R),
  us_ok f /\ connected_hops f /\ (forall count, Nat.Odd count -> orderly (fun _ => false) f [count]) /\ shell (fg_nsites (f_geom f)) (f_nspecies f) [2%nat] P idx /\ createH f (Some P) = Ok H /\ eigenbasis H V E /\ smallest e E /\
  state_of (length idx) H e psi /\ state_of (length idx) H e phi /\ psi 0%nat = k0 /\ psi 1%nat <> k0 /\ phi 0%nat <> k0.
Proof. exact open_shell. Qed.
Print Assumptions C148_open_shell.
