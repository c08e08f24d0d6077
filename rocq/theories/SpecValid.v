(** Vocabulary for the matrices of a geometry. *)
From Coq Require Import List Arith QArith Reals.
From Verif Require Import Scalars Matrix.
Local Open Scope R_scope.

(** Neighbours: a symmetric matrix of zeros and ones, one row per site. *)
Definition sensible_adjacency (n : nat) (A : mat Q) : Prop :=
  nrow A = n /\ ncol A = n /\ forall i j, (i < n)%nat -> (j < n)%nat -> (ent A i j == ent A j i)%Q /\ ((ent A i j == 0)%Q \/ (ent A i j == 1)%Q).
(** Phases: numbers of modulus one, those of a bond in the two directions complex
    conjugate; half a unit of the fourteenth decimal is allowed. *)
Definition length_of (z : CR) : R := sqrt (fst z * fst z + snd z * snd z).
Definition sensible_phases (eps : R) (n : nat) (P : mat CR) : Prop :=
  nrow P = n /\ ncol P = n /\ forall i j, (i < n)%nat -> (j < n)%nat ->
    length_of (fst (ent P i j) - fst (ent P j i), snd (ent P i j) + snd (ent P j i)) <= eps /\ Rabs (length_of (ent P i j) - 1) <= eps.
Definition slack : R := / 10 ^ 14 / 2.
