(** Vocabulary for fermions with a fixed number of particles of every species. *)
From Coq Require Import List Arith Reals QArith Qabs.
From Verif Require Import Scalars Matrix SpecMat SpecFock ModelFermions SpecSigns.
Local Open Scope R_scope.

(** The rows of [P] are all configurations with [nth s counts 0] particles of species
    [s], each once. *)
Definition shell (ns m : nat) (counts : list nat) (P : mat CR) (idx : list nat) : Prop :=
  rows_are (2 ^ (ns * m)) P idx /\ NoDup idx /\
  forall a, In a idx <-> (a < 2 ^ (ns * m))%nat /\ forall s, (s < m)%nat -> occ_species (ns * m) ns a s = nth s counts 0%nat.
(** Amplitude for hopping between sites [i > j] (see C14). *)
Definition amplitude (f : fermions CR) (i j s : nat) : CR :=
  kmul (f_ts f i j s) (kQ (Qabs (fg_xdist (f_geom f) i j) + Qabs (fg_ydist (f_geom f) i j))).
(** A particle that hops between sites [i > j] passes no other particles of its species,
    or an even number of them: the sites follow each other, or they are the first and the
    last site and the number of particles is odd, or there is one particle at most. *)
Definition passes_even (ns count i j : nat) : Prop :=
  i = S j \/ (j = 0%nat /\ S i = ns /\ Nat.Odd count) \/ (count <= 1)%nat.
(** Orbital [ns * s + i] is site [i] of species [s]; [part] tells the kind of an orbital.
    Amplitudes are real, positive within a kind and negative between kinds. *)
Definition orderly (part : nat -> bool) (f : fermions CR) (counts : list nat) : Prop :=
  let ns := fg_nsites (f_geom f) in
  forall i j s, (j < i < ns)%nat -> (s < f_nspecies f)%nat -> exists t, amplitude f i j s = (t, 0) /\
    0 <= side part (ns * s + i) * side part (ns * s + j) * t /\ (t <> 0 -> passes_even ns (nth s counts 0%nat) i j).
(** Sites between which species [s] hops, directly or over other sites. *)
Definition hopping (f : fermions CR) (s i j : nat) : Prop := i <> j /\ amplitude f (Nat.max i j) (Nat.min i j) s <> (0, 0).
Inductive hop_linked (f : fermions CR) (s i : nat) : nat -> Prop :=
| hop_same : hop_linked f s i i
| hop_next j k : hop_linked f s i j -> (j < fg_nsites (f_geom f))%nat -> (k < fg_nsites (f_geom f))%nat -> hopping f s j k -> hop_linked f s i k.
Definition connected_hops (f : fermions CR) : Prop :=
  forall s i j, (s < f_nspecies f)%nat -> (i < fg_nsites (f_geom f))%nat -> (j < fg_nsites (f_geom f))%nat -> hop_linked f s i j.
