(** Vocabulary for pairs of particles of two species on lattices with two classes of
    sites. *)
From Coq Require Import List Arith Reals Bool.
From Verif Require Import Scalars Matrix ModelFermions SpecFermiGas SpecHalf.
Local Open Scope R_scope.

(** 1 on one class of sites and -1 on the other. *)
Definition sign (side : nat -> bool) (i : nat) : R := if side i then 1 else -1.
(** The first two species hop alike and between sites of different class only,
    interact with each other only, and a pair of them costs the energy [e] on every
    site. *)
Definition pair_symmetric (f : fermions CR) (side : nat -> bool) (e : R) : Prop :=
  let n := fg_nsites (f_geom f) in
  (2 <= f_nspecies f)%nat /\
  (forall i j, (j < i < n)%nat -> f_ts f i j 0%nat = f_ts f i j 1%nat) /\
  (forall i j, (j < i < n)%nat -> f_ts f i j 0%nat <> k0 -> side i <> side j) /\
  (forall i j, (j <= i < n)%nat -> f_same f i j 0%nat = k0 /\ f_same f i j 1%nat = k0) /\
  (forall i, (i < n)%nat -> kadd (f_us f i) (kadd (ksub (f_pot f i 0%nat) (f_mus f 0%nat)) (ksub (f_pot f i 1%nat) (f_mus f 1%nat))) = re e).
