(** Vectors and their presentations as arrays, written without reference to the functions that
    change shapes. *)
From Coq Require Import List Arith.
From Verif Require Import ModelShape.
Import ListNotations.

(** Number of elements that belong to a shape, and the place of an element. *)
Fixpoint volume (shape : list nat) : nat := match shape with [] => 1 | n :: t => n * volume t end.
Fixpoint place_of (shape idx : list nat) : nat :=
  match shape, idx with n :: t, i :: u => i * volume t + place_of t u | _, _ => 0 end.
Definition well_formed {A} (a : nd A) : Prop := volume (nd_shape a) = length (nd_data a).
(** Element with the given indices. *)
Definition element {A} (a : nd A) (idx : list nat) : option A := nth_error (nd_data a) (place_of (nd_shape a) idx).
(** The vector [v] as an array with one index, as a column and as a row. *)
Definition flat {A} (v : list A) (a : nd A) : Prop :=
  well_formed a /\ nd_shape a = [length v] /\ forall i, i < length v -> element a [i] = nth_error v i.
Definition column {A} (v : list A) (a : nd A) : Prop :=
  well_formed a /\ nd_shape a = [length v; 1] /\ forall i, i < length v -> element a [i; 0] = nth_error v i.
Definition row {A} (v : list A) (a : nd A) : Prop :=
  well_formed a /\ nd_shape a = [1; length v] /\ forall i, i < length v -> element a [0; i] = nth_error v i.
Definition shows {A} (v : list A) (a : nd A) : Prop := flat v a \/ column v a \/ row v a.
