(** Vocabulary for real and imaginary operators, written without reference to the model. *)
From Coq Require Import Arith Reals.
From Verif Require Import Scalars Matrix ModelSpins.
Local Open Scope R_scope.

Definition real_op (n : nat) (A : mat CR) : Prop := forall a b, (a < n)%nat -> (b < n)%nat -> snd (ent A a b) = 0.
Definition imaginary_op (n : nat) (A : mat CR) : Prop := forall a b, (a < n)%nat -> (b < n)%nat -> fst (ent A a b) = 0.
(** Spins with real couplings and fields, and no field along y. *)
Definition no_y_field (s : spins CR) : Prop :=
  let n := sg_nsites (sp_geom s) in
  (forall i j, (j < i < n)%nat -> snd (sp_jx s i j) = 0 /\ snd (sp_jy s i j) = 0 /\ snd (sp_jz s i j) = 0) /\
  forall i, (i < n)%nat -> snd (sp_hx s i) = 0 /\ sp_hy s i = (0, 0) /\ snd (sp_hz s i) = 0.
