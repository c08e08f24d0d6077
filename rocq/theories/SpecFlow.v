(** Vocabulary for the flow of particles between two sites, written without reference to the model. *)
From Coq Require Import List Arith Reals Bool.
From Verif Require Import Scalars Matrix ModelFermions SpecShells.
Local Open Scope R_scope.

(** [i (A - A')], where [A] moves a particle to a site and [A'] moves it back. *)
Definition flow_op (A A' : mat CR) : mat CR :=
  Mat (nrow A) (nrow A) (fun a b => kmul ((0, 1) : CR) (ksub (ent A a b) (ent A' a b))).
(** Amplitude for hopping between two sites, in either order. *)
Definition strength (f : fermions CR) (i j s : nat) : R := fst (amplitude f (Nat.max i j) (Nat.min i j) s).
(** Amplitudes are real. *)
Definition real_hops (f : fermions CR) : Prop :=
  forall i j s, (j < i < fg_nsites (f_geom f))%nat -> (s < f_nspecies f)%nat -> snd (amplitude f i j s) = 0.
