(** Vocabulary for systems that differ in a chemical potential. *)
From Coq Require Import List Arith Reals Bool.
From Verif Require Import Scalars Matrix ModelFermions SpecFermiGas.

(** The same system with the chemical potential [x] for species [k]. *)
Definition with_mu (f : fermions CR) (k : nat) (x : R) : fermions CR :=
  Ferm (f_geom f) (f_nspecies f) (f_ts f) (f_us f) (f_same f) (fun k' => if (k' =? k)%nat then re x else f_mus f k') (f_pot f) (f_proj f).
