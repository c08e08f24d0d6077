(** Vocabulary for the total spin of two species of fermions. *)
From Coq Require Import List Arith Reals.
From Verif Require Import Scalars Res Matrix SpecMat ModelBase ModelFermions SpecSinglet.
Local Open Scope R_scope.

(** [X], [Y], [Z] are the components of the total spin: [A i] turns a particle of the second
    species on site [i] into one of the first, [C i] does the opposite, and half the
    difference of the numbers of particles is the moment along z. *)
Definition fermi_spin (f : fermions CR) (X Y Z : mat CR) : Prop :=
  let n := fg_nsites (f_geom f) in
  exists (A C : nat -> mat CR) (N0 N1 : mat CR),
    (forall i, (i < n)%nat -> two_site_op (f_sys f) i 0 i 1 cdag_op c_op Fermion = Ok (A i) /\ two_site_op (f_sys f) i 1 i 0 cdag_op c_op Fermion = Ok (C i)) /\
    sum_op (f_sys f) n_op 0 Boson = Ok N0 /\ sum_op (f_sys f) n_op 1 Boson = Ok N1 /\
    forall a b, (a < 2 ^ (n * 2))%nat -> (b < 2 ^ (n * 2))%nat ->
      ent X a b = @kmul CR _ (1 / 2, 0) (ksum n (fun i => kadd (ent (A i) a b) (ent (C i) a b))) /\
      ent Y a b = @kmul CR _ (0, - (1 / 2)) (ksum n (fun i => ksub (ent (A i) a b) (ent (C i) a b))) /\
      ent Z a b = @kmul CR _ (1 / 2, 0) (ksub (ent N0 a b) (ent N1 a b)).
(** The total spin of the lowest states with [M] of [n] particles in the first species:
    as small as the numbers of particles and of sites of both kinds permit. *)
Definition sector_spin (part : nat -> bool) (n M : nat) : R := Rmax (Rabs (INR M - INR n / 2)) (Rabs (INR (of_kind part n true) - INR (of_kind part n false)) / 2).
