(** Vocabulary for uncertainties, written without reference to the model. *)
From Coq Require Import List Arith Reals Bool.
From Verif Require Import Scalars Matrix SpecThermal.
Import ListNotations.
Local Open Scope R_scope.

(** Variance of the values [O] may take, from the mean of [O] and the mean of its square. *)
Definition variance (mean mean_square : R) : R := mean_square - mean * mean.
Definition hermitian_op (n : nat) (O : mat CR) : Prop := nrow O = n /\ ncol O = n /\ hermitian n O.
