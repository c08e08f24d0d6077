(** Property theorems C186: terms that change the basis states lower the free energy.  Theorems only. *)
From Coq Require Import List Arith Reals QArith Bool.
From Verif Require Import Scalars Res Matrix SpecMat ModelBase ModelFermions ModelSpins HamProofs FermiApi Sectors ModelGeometry ModelPhase ModelSymmetry ModelThermal SpecThermal SymBase SpecHeat SpecConvex SpecPinned Pinned.
Import ListNotations.
Local Open Scope R_scope.

(** C186. *)
Theorem C186_hopping : forall f P idx H D, us_ok f -> rows_are (nstates (f_sys f)) P idx -> NoDup idx -> (forall a, In a idx -> (a < nstates (f_sys f))%nat) ->
  createH f (Some P) = Ok H -> createH (without_hops f) (Some P) = Ok D ->
  forall V E W F, eigenbasis H V E -> eigenbasis D W F -> (forall T, idx <> [] -> 0 < T -> free_energy T E <= free_energy T F) /\ (forall e g, smallest e E -> smallest g F -> e <= g).
Proof. exact hops_lower. Qed.
Print Assumptions C186_hopping.
Theorem C186_localised : forall f P idx H D, us_ok f -> rows_are (nstates (f_sys f)) P idx -> NoDup idx -> (forall a, In a idx -> (a < nstates (f_sys f))%nat) ->
  createH f (Some P) = Ok H -> createH (without_hops f) (Some P) = Ok D ->
  forall V E, eigenbasis H V E -> eigenbasis D (meye (length idx)) (map (fun a => fst (ent H a a)) (seq 0 (length idx))).
Proof. exact hops_basis. Qed.
Print Assumptions C186_localised.
Theorem C186_spins : forall rt s P idx H D, rt 1%nat = k1 -> sp_two s = 1%nat -> rows_are (2 ^ sg_nsites (sp_geom s)) P idx -> NoDup idx -> (forall a, In a idx -> (a < 2 ^ sg_nsites (sp_geom s))%nat) ->
  sp_createH rt s (Some P) = Ok H -> sp_createH rt (along_z s) (Some P) = Ok D ->
  forall V E W F, eigenbasis H V E -> eigenbasis D W F -> (forall T, idx <> [] -> 0 < T -> free_energy T E <= free_energy T F) /\ (forall e g, smallest e E -> smallest g F -> e <= g).
Proof. exact z_lower. Qed.
Print Assumptions C186_spins.
Theorem C186_classical : forall rt s P idx H D, rt 1%nat = k1 -> sp_two s = 1%nat -> rows_are (2 ^ sg_nsites (sp_geom s)) P idx -> NoDup idx -> (forall a, In a idx -> (a < 2 ^ sg_nsites (sp_geom s))%nat) ->
  sp_createH rt s (Some P) = Ok H -> sp_createH rt (along_z s) (Some P) = Ok D ->
  forall V E, eigenbasis H V E -> eigenbasis D (meye (length idx)) (map (fun a => fst (ent H a a)) (seq 0 (length idx))).
Proof. exact z_basis. Qed.
Print Assumptions C186_classical.
