(** Vocabulary for two kinds of fermions that repel each other on two kinds of sites. *)
From Coq Require Import List Arith Reals.
From Verif Require Import Scalars Matrix SpecMat SpecFock ModelFermions SpecSigns SpecShells.
Local Open Scope R_scope.

(** Two species with the same real energies hop between sites of different kinds only.
    Particles of different species repel each other on every site, particles of one species
    do not interact.  The potential makes up for differences of the repulsion: none is
    needed if the repulsion is the same on all sites. *)
Definition repelling (part : nat -> bool) (f : fermions CR) : Prop :=
  let ns := fg_nsites (f_geom f) in
  f_nspecies f = 2%nat /\
  (forall i j, (j < i < ns)%nat -> exists t, amplitude f i j 0 = (t, 0) /\ amplitude f i j 1 = (t, 0) /\ (t <> 0 -> part i <> part j)) /\
  (forall i j, (j <= i < ns)%nat -> f_same f i j 0%nat = (0, 0) /\ f_same f i j 1%nat = (0, 0)) /\
  (exists mu, f_mus f 0%nat = (mu, 0) /\ f_mus f 1%nat = (mu, 0)) /\
  (exists c, forall i, (i < ns)%nat -> exists v u, f_pot f i 0%nat = (v, 0) /\ f_pot f i 1%nat = (v, 0) /\ f_us f i = (u, 0) /\ 0 < u /\ v + u / 2 = c).
(** The configuration of one species with particles where [y] has none. *)
Definition holes (ns y : nat) : nat := (2 ^ ns - 1 - y)%nat.
(** A factor -1 for every particle of [y] on a site of the second kind, and one for every
    particle on a site with an odd number. *)
Definition hole_sign (part : nat -> bool) (ns y : nat) : R := state_sign part ns y * state_sign Nat.odd ns y.
