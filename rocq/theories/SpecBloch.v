(** Vocabulary for the motion of one spin, written without reference to the model of the functions. *)
From Coq Require Import List Arith Reals.
From Verif Require Import Scalars Matrix ModelSpins SpecThermal.
Local Open Scope R_scope.

(** All couplings and fields are real. *)
Definition real_terms (s : spins CR) : Prop :=
  let n := sg_nsites (sp_geom s) in
  (forall i j, (j < i < n)%nat -> snd (sp_jx s i j) = 0 /\ snd (sp_jy s i j) = 0 /\ snd (sp_jz s i j) = 0) /\
  forall i, (i < n)%nat -> snd (sp_hx s i) = 0 /\ snd (sp_hy s i) = 0 /\ snd (sp_hz s i) = 0.
(** Coupling of two spins along an axis, in either order. *)
Definition bond_along (J : nat -> nat -> CR) (i j : nat) : R := fst (J (Nat.max i j) (Nat.min i j)).
