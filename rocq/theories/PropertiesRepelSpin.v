(** Property theorems C155: total spin of fermions that repel each other on two kinds of
    sites, as many particles as sites.  Theorems only. *)
From Coq Require Import List Arith Reals.
From Verif Require Import Scalars Res Matrix ModelBase ModelFermions ModelThermal SpecThermal ThermalBase SpecConvex Thermo SpecSigns SpecShells SpecHalf SpecSinglet SpecRepel SpecRepelSpin RepelSpinApi.
Import ListNotations.
Local Open Scope R_scope.

Theorem C155_spin : forall (part : nat -> bool) (f : fermions CR), let ns := fg_nsites (f_geom f) in repelling part f -> spin_symmetric f -> connected_hops f ->
  forall M P idx H V E e X Y Z psi, (M <= ns)%nat -> shell ns 2 [M; ns - M]%nat P idx -> createH f (Some P) = Ok H -> eigenbasis H V E -> smallest e E -> fermi_spin f X Y Z ->
  state_of (length idx) H e psi -> has_spin (2 ^ (ns * 2)) X Y Z (sector_spin part ns M) (spread idx psi).
Proof. exact repel_spin. Qed.
Print Assumptions C155_spin.
Theorem C155_order : forall (part : nat -> bool) (f : fermions CR), let ns := fg_nsites (f_geom f) in repelling part f -> spin_symmetric f -> connected_hops f ->
  forall M P idx H V E e M' P' idx' H' V' E' e',
  (M <= ns)%nat -> shell ns 2 [M; ns - M]%nat P idx -> createH f (Some P) = Ok H -> eigenbasis H V E -> smallest e E ->
  (M' <= ns)%nat -> shell ns 2 [M'; ns - M']%nat P' idx' -> createH f (Some P') = Ok H' -> eigenbasis H' V' E' -> smallest e' E' ->
  (sector_spin part ns M < sector_spin part ns M' -> e < e') /\ (sector_spin part ns M = sector_spin part ns M' -> e = e').
Proof. exact repel_order. Qed.
Print Assumptions C155_order.
