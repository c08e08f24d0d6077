(** Vocabulary for parts of a spin system, written without reference to the model of the functions. *)
From Coq Require Import List Arith Reals Bool.
From Verif Require Import Scalars Matrix ModelSpins SpecSpins.
Local Open Scope R_scope.

(** The matrix acts on the spins of the part only: it leaves the other spins as they are, and what it does does not depend on them. *)
Definition acts_on (n : nat) (part : nat -> bool) (M : nat -> nat -> CR) : Prop :=
  (forall a b p, (a < 2 ^ n)%nat -> (b < 2 ^ n)%nat -> (p < n)%nat -> part p = false -> digit 2 n p a <> digit 2 n p b -> M a b = (0, 0)) /\
  forall a b a' b', (a < 2 ^ n)%nat -> (b < 2 ^ n)%nat -> (a' < 2 ^ n)%nat -> (b' < 2 ^ n)%nat ->
    (forall p, (p < n)%nat -> part p = true -> digit 2 n p a = digit 2 n p a' /\ digit 2 n p b = digit 2 n p b') ->
    (forall p, (p < n)%nat -> part p = false -> digit 2 n p a = digit 2 n p b /\ digit 2 n p a' = digit 2 n p b') -> M a b = M a' b'.
(** No coupling joins the part and the rest. *)
Definition uncoupled (s : spins CR) (part : nat -> bool) : Prop :=
  forall i j, (j < i < sg_nsites (sp_geom s))%nat -> part i <> part j -> sp_jx s i j = (0, 0) /\ sp_jy s i j = (0, 0) /\ sp_jz s i j = (0, 0).
(** The two systems have the same couplings and fields in the part. *)
Definition same_inside (s s' : spins CR) (part : nat -> bool) : Prop :=
  (forall i j, (j < i < sg_nsites (sp_geom s))%nat -> part i = true -> part j = true -> sp_jx s' i j = sp_jx s i j /\ sp_jy s' i j = sp_jy s i j /\ sp_jz s' i j = sp_jz s i j) /\
  forall i, (i < sg_nsites (sp_geom s))%nat -> part i = true -> sp_hx s' i = sp_hx s i /\ sp_hy s' i = sp_hy s i /\ sp_hz s' i = sp_hz s i.
