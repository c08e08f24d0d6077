(** Vocabulary of the statements about sectors inside sectors. *)
From Coq Require Import List Arith Reals.
From Verif Require Import Scalars Matrix SpecMat SpecSymmetry ModelPhase ModelSymmetry.
Import ListNotations.
Local Open Scope R_scope.

(** Symmetries of a ring of [n] spins on a space of dimension [N]: the total
    magnetisation [Sz], the translation [T] by one site, the reversal [F] of all
    spins and the inversion [I]. *)
Definition ring_symmetries (N n : nat) (Sz T F I : mat CR) : Prop :=
  diagonal_mat N Sz /\ moves_states N T /\ moves_states N F /\ moves_states N I /\
  meq (mpow N T n) (meye N) /\ meq (mpow N F 2) (meye N) /\ meq (mpow N I 2) (meye N) /\
  meq (mmul T Sz) (mmul Sz T) /\ meq (mmul I Sz) (mmul Sz I) /\ meq (mmul F Sz) (mscale (kopp k1) (mmul Sz F)) /\
  meq (mmul T F) (mmul F T) /\ meq (mmul F I) (mmul I F) /\ meq (mmul T (mmul I T)) I.

(** What the numbers belonging to a sector mean for its states. *)
Definition labelled (n : nat) (Sz T F I B : mat CR) (mz : CR) (k spin space : R) : Prop :=
  acts_as B Sz mz /\
  (exists l, (l < n)%nat /\ k = 2 * PI * INR l / INR n) /\ acts_as B T (cexp (- k)) /\
  (mz = k0 -> (spin = 1 \/ spin = -1) /\ acts_as B F (spin, 0)) /\
  (mz <> k0 -> spin = 0) /\
  (k = 0 \/ k = PI -> (space = 1 \/ space = -1) /\ acts_as B I (space, 0)) /\
  (k <> 0 -> k <> PI -> space = 0).
