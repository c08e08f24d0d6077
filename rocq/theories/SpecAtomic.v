(** Vocabulary for a site without bonds. *)
From Coq Require Import List Arith Reals Bool.
From Verif Require Import Scalars Matrix ModelFermions SpecThermal SpecFermiGas.
Local Open Scope R_scope.

(** No hopping from or to site [i] and no interaction of its particles with those of
    other sites or of the same species. *)
Definition isolated (f : fermions CR) (i : nat) : Prop :=
  forall j k, (j < fg_nsites (f_geom f))%nat -> (k < f_nspecies f)%nat ->
    f_ts f i j k = k0 /\ f_ts f j i k = k0 /\ f_same f i j k = k0 /\ f_same f j i k = k0.
(** The energies of a site: [a0] and [a1] for one particle, [u] more for two. *)
Definition site_energies (f : fermions CR) (i : nat) (a0 a1 u : R) : Prop :=
  f_us f i = re u /\ ksub (f_pot f i 0%nat) (f_mus f 0%nat) = re a0 /\ ksub (f_pot f i 1%nat) (f_mus f 1%nat) = re a1.
Definition atom_weight (T a0 a1 u : R) (b0 b1 : bool) : R :=
  exp (- (bit b0 * a0 + bit b1 * a1 + bit b0 * bit b1 * u) / T).
Definition atom_partition (T a0 a1 u : R) : R :=
  atom_weight T a0 a1 u false false + atom_weight T a0 a1 u true false + atom_weight T a0 a1 u false true + atom_weight T a0 a1 u true true.
(** The probability that the site is occupied as given. *)
Definition atom_prob (T a0 a1 u : R) (b0 b1 : bool) : R := atom_weight T a0 a1 u b0 b1 / atom_partition T a0 a1 u.
(** The average number of particles of one species. *)
Definition atom_density (T a0 a1 u : R) (k : nat) : R :=
  (if (k =? 0)%nat then atom_prob T a0 a1 u true false else atom_prob T a0 a1 u false true) + atom_prob T a0 a1 u true true.
