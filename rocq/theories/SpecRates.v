(** Vocabulary for rates of change, written without reference to the model. *)
From Coq Require Import List Arith Reals Bool.
From Verif Require Import Scalars Matrix SpecThermal.
Import ListNotations.
Local Open Scope R_scope.

(** [i (H O - O H)], the operator of the rate of change of [O]. *)
Definition rate_op (H O : mat CR) : mat CR :=
  Mat (nrow H) (nrow H) (fun i j => kmul ((0, 1) : CR) (ksum (nrow H) (fun k => ksub (kmul (ent H i k) (ent O k j)) (kmul (ent O i k) (ent H k j))))).
Definition commute_on (n : nat) (H O : mat CR) : Prop :=
  forall i j, (i < n)%nat -> (j < n)%nat -> ksum n (fun k => @kmul CR _ (ent H i k) (ent O k j)) = ksum n (fun k => @kmul CR _ (ent O i k) (ent H k j)).
(** The state has the energy [e] for certain. *)
Definition stationary (n : nat) (H : mat CR) (psi : nat -> CR) (e : R) : Prop :=
  forall i, (i < n)%nat -> apply n H psi i = @kmul CR _ (e, 0) (psi i).
