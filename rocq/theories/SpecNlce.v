(** Vocabulary of the statements about linked cluster sums. *)
From Coq Require Import List Reals.
Import ListNotations.
Local Open Scope R_scope.

(** The sum of [f 0], ..., [f (n - 1)]. *)
Fixpoint rsum (n : nat) (f : nat -> R) : R := match n with O => 0 | S n => rsum n f + f n end.
(** Entry of a table. *)
Definition ment (sc : list (list R)) (i j : nat) : R := nth j (nth i sc []) 0.
(** Only earlier clusters have a share. *)
Definition strictly_lower (sc : list (list R)) : Prop := forall i j, (i <= j)%nat -> ment sc i j = 0.
