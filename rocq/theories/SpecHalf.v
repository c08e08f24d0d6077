(** Vocabulary for symmetries of the Hubbard model, written without reference to
    the many-particle matrices. *)
From Coq Require Import List Arith Reals ZArith QArith Bool.
From Verif Require Import Scalars Matrix Res ModelFermions SpecFermiGas SpecGeometry.
Import ListNotations.

(** The sites are of two kinds, and particles hop between sites of different
    kind only. *)
Definition two_coloured (f : fermions CR) (side : nat -> bool) : Prop :=
  forall i j k, (j < i < fg_nsites (f_geom f))%nat -> (k < f_nspecies f)%nat -> f_ts f i j k <> k0 -> side i <> side j.

(** Interaction of species [k] between two different sites; the code reads the
    entry with the larger site first. *)
Definition same_pair (f : fermions CR) (i j k : nat) : CR := if (j <? i)%nat then f_same f i j k else f_same f j i k.
(** Energy of a particle of species [k] on site [i], half of the possible partners
    being present. *)
Definition mean_field (f : fermions CR) (i k : nat) : CR :=
  kadd (kadd (kadd (ksub (f_pot f i k) (f_mus f k)) (f_same f i i k))
             (kmul (re (1 / 2)) (ksum (fg_nsites (f_geom f)) (fun j => if (j =? i)%nat then k0 else same_pair f i j k))))
       (if (k <? 2)%nat then kmul (re (1 / 2)) (f_us f i) else k0).
Definition balanced (f : fermions CR) : Prop :=
  forall i k, (i < fg_nsites (f_geom f))%nat -> (k < f_nspecies f)%nat -> mean_field f i k = k0.

(** The first two species are treated alike, and there are no interactions within
    a species. *)
Definition spin_symmetric (f : fermions CR) : Prop :=
  let n := fg_nsites (f_geom f) in
  (2 <= f_nspecies f)%nat /\
  (forall i j, (j < i < n)%nat -> f_ts f i j 0 = f_ts f i j 1) /\
  f_mus f 0 = f_mus f 1 /\ (forall i, (i < n)%nat -> f_pot f i 0 = f_pot f i 1) /\
  (forall i j, (j <= i < n)%nat -> f_same f i j 0 = k0 /\ f_same f i j 1 = k0).

(** Sites of even and odd coordinate sum. *)
Definition chess (ny : Z) (i : nat) : bool := Z.even (site_x ny i + site_y ny i).
