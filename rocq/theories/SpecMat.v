(** Vocabulary of the property statements about matrices: notions a reader of
    the API would use, defined directly on entries. *)
From Coq Require Import List Arith Bool QArith.
From Verif Require Import Scalars Res Matrix ModelBase ModelFermions.
Import ListNotations.
Local Open Scope nat_scope.

Section SpecMat.
  Context {K : Type} {SR : StarRing K}.

  Definition anticomm (A B : mat K) : mat K := madd (mmul A B) (mmul B A).

  Definition msum (n : nat) (l : list (mat K)) : mat K := fold_right madd (mzero n n) l.

  Definition diagonal_mat (n : nat) (O : mat K) : Prop :=
    square n O /\ forall i j, i < n -> j < n -> i <> j -> ent O i j = k0.

  (** The rows of [P] are the unit vectors listed in [idx]. *)
  Definition rows_are (n : nat) (P : mat K) (idx : list nat) : Prop :=
    nrow P = length idx /\ ncol P = n /\
    forall i j, i < length idx -> j < n -> ent P i j = if nth i idx 0 =? j then k1 else k0.

  (** Repeated product. *)
  Fixpoint mpow (n : nat) (A : mat K) (k : nat) : mat K :=
    match k with O => meye n | S k => mmul A (mpow n A k) end.

  (** [T] is unitary of dimension [n]. *)
  Definition unitary_mat (n : nat) (T : mat K) : Prop :=
    square n T /\ meq (mmul (madj T) T) (meye n) /\ meq (mmul T (madj T)) (meye n).

  (** The first basis vector (the vacuum) is left alone. *)
  Definition fixes_first (n : nat) (T : mat K) : Prop :=
    forall a, a < n -> ent T a 0 = if a =? 0 then k1 else k0.

  (** Conjugation by [T] carries the annihilation and creation operators of
      site [i] of species [k] to those of site [pi k i] of the same species. *)
  Definition carries (s : sys) (T : mat K) (pi : nat -> nat -> nat) : Prop :=
    forall i k, i < s_nsites s -> k < s_nspecies s ->
    exists c c' d d',
      single_site_op s i k c_op Fermion = Ok c /\ single_site_op s i k cdag_op Fermion = Ok c' /\
      single_site_op s (pi k i) k c_op Fermion = Ok d /\ single_site_op s (pi k i) k cdag_op Fermion = Ok d' /\
      meq (mmul T c) (mmul d T) /\ meq (mmul T c') (mmul d' T).
End SpecMat.
