(** Vocabulary for statements about chemical potentials, written without reference to the
    many-particle matrices. *)
From Coq Require Import List Arith Reals Bool.
From Verif Require Import Scalars Res Matrix SpecMat SpecFock ModelBase ModelFermions SpecThermal SpecFermiGas.
Import ListNotations.
Local Open Scope R_scope.

(** The same couplings but the chemical potential of species [k], which is larger by [x k]. *)
Definition raised (x : nat -> R) (f f' : fermions CR) : Prop :=
  let n := fg_nsites (f_geom f) in let m := f_nspecies f in
  f_geom f' = f_geom f /\ f_nspecies f' = f_nspecies f /\
  (forall i j k, (j < i < n)%nat -> (k < m)%nat -> f_ts f' i j k = f_ts f i j k) /\
  (forall i, (i < n)%nat -> f_us f' i = f_us f i) /\
  (forall i j k, (j <= i < n)%nat -> (k < m)%nat -> f_same f' i j k = f_same f i j k) /\
  (forall k, (k < m)%nat -> f_mus f' k = kadd (f_mus f k) (re (x k))) /\
  (forall i k, (i < n)%nat -> (k < m)%nat -> f_pot f' i k = f_pot f i k).

(** Energy gained by the particles of a configuration: the number of particles of every
    species times the change of its chemical potential. *)
Definition gain (f : fermions CR) (x : nat -> R) (a : nat) : R :=
  total (fun k => x k * INR (occ_species (fg_nsites (f_geom f) * f_nspecies f) (fg_nsites (f_geom f)) a k)) (seq 0 (f_nspecies f)).
(** All configurations have [count k] particles of species [k]. *)
Definition same_numbers (f : fermions CR) (count : nat -> nat) (idx : list nat) : Prop :=
  forall a k, In a idx -> (k < f_nspecies f)%nat -> occ_species (fg_nsites (f_geom f) * f_nspecies f) (fg_nsites (f_geom f)) a k = count k.
