(** Vocabulary for spins 1/2 with a fixed number of flipped spins. *)
From Coq Require Import List Arith Reals.
From Verif Require Import Scalars Matrix SpecMat ModelSpins SpecSpins SpecThermal SpecSigns.
Local Open Scope R_scope.

(** The rows of [P] are all configurations with [m] flipped spins, each once. *)
Definition flipped (n m : nat) (P : mat CR) (idx : list nat) : Prop :=
  rows_are (2 ^ n) P idx /\ NoDup idx /\ forall k, In k idx <-> (k < 2 ^ n)%nat /\ digit_sum 2 n k = m.
(** Couplings along x and y are equal and there are no fields along x and y. *)
Definition round_axis (s : spins CR) : Prop :=
  let n := sg_nsites (sp_geom s) in
  (forall i j, (j < i < n)%nat -> sp_jx s i j = sp_jy s i j) /\ (forall i, (i < n)%nat -> sp_hx s i = (0, 0) /\ sp_hy s i = (0, 0)).
(** Two sites exchange their spins; sites linked by such pairs. *)
Definition exchanging (s : spins CR) (i j : nat) : Prop := i <> j /\ sp_jx s (Nat.max i j) (Nat.min i j) <> (0, 0).
Inductive linked_sites (s : spins CR) (i : nat) : nat -> Prop :=
| linked_same : linked_sites s i i
| linked_next j k : linked_sites s i j -> (j < sg_nsites (sp_geom s))%nat -> (k < sg_nsites (sp_geom s))%nat -> exchanging s j k -> linked_sites s i k.
Definition connected_spins (s : spins CR) : Prop :=
  forall i j, (i < sg_nsites (sp_geom s))%nat -> (j < sg_nsites (sp_geom s))%nat -> linked_sites s i j.
(** The couplings are the same along the three axes and not positive. *)
Definition aligning (s : spins CR) (J : nat -> nat -> R) : Prop :=
  let n := sg_nsites (sp_geom s) in
  (forall i j, (j < i < n)%nat -> sp_jx s i j = (J i j, 0) /\ sp_jy s i j = (J i j, 0) /\ sp_jz s i j = (J i j, 0) /\ J i j <= 0) /\
  (forall i, (i < n)%nat -> sp_hx s i = (0, 0) /\ sp_hy s i = (0, 0) /\ sp_hz s i = (0, 0)).
(** Energy of all spins aligned. *)
Definition aligned_energy (n : nat) (J : nat -> nat -> R) : R := total (fun i => total (fun j => J i j / 2) (seq 0 i)) (seq 0 n).
