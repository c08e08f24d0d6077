(** Vocabulary for systems that differ in their couplings. *)
From Coq Require Import List Arith Reals Bool.
From Verif Require Import Scalars Matrix ModelFermions ModelSpins SpecFermiGas SpecThermal SpecHeat.
Local Open Scope R_scope.

(** Free energy of a list of energies. *)
Definition free_energy (T : R) (E : list R) : R := - T * ln (zustand T E).
(** The same system with the interactions [u], the potentials [v]. *)
Definition with_interactions (f : fermions CR) (u : nat -> R) : fermions CR :=
  Ferm (f_geom f) (f_nspecies f) (f_ts f) (fun i => re (u i)) (f_same f) (f_mus f) (f_pot f) (f_proj f).
Definition with_potentials (f : fermions CR) (v : nat -> nat -> R) : fermions CR :=
  Ferm (f_geom f) (f_nspecies f) (f_ts f) (f_us f) (f_same f) (f_mus f) (fun i k => re (v i k)) (f_proj f).
(** The same spins in the fields [h]: axis 0 is x, 1 is y and 2 is z. *)
Definition with_fields (s : spins CR) (h : nat -> nat -> R) : spins CR :=
  Spins (sp_geom s) (sp_two s) (sp_jx s) (sp_jy s) (sp_jz s) (fun i => re (h 0%nat i)) (fun i => re (h 1%nat i)) (fun i => re (h 2%nat i)).
(** At zero temperature energies must be sorted and equal or far apart. *)
Definition allowed (T : R) (E : list R) : Prop := T <> 0 \/ (sorted_list E /\ apart gap13 E).
(** The Hamiltonian between two others. *)
Definition between (s : R) (H1 H2 : mat CR) : mat CR := madd (mscale ((1 - s, 0) : CR) H1) (mscale ((s, 0) : CR) H2).
(** The spin operators of one site, by axis. *)
Definition axis_op (rt : nat -> CR) (c : nat) : mat CR := match c with 0%nat => sx_op rt 1 | 1%nat => sy_op rt 1 | _ => sz_op 1 end.
