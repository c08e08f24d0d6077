(** Property theorems C184: real Hamiltonians and the direction of time.  Theorems only. *)
From Coq Require Import List Arith Reals QArith Bool.
From Verif Require Import Scalars Res Matrix SpecMat ModelBase ModelFermions HamProofs FermiApi ModelGeometry ModelPhase ModelSymmetry ModelThermal SpecThermal SymBase
  ModelSpins SpecFlow SpecReversal Reversal ReversalSpins.
Import ListNotations.
Local Open Scope R_scope.

(** C184. *)
Theorem C184_average : forall H V E O T x, eigenbasis H V E -> real_op (nrow V) H -> nrow O = nrow V -> ncol O = nrow V -> imaginary_op (nrow V) O -> E <> [] -> T <> 0 \/ (sorted_list E /\ apart gap13 E) ->
  exp_vals_thermal V O E T = Ok x -> x = 0.
Proof. exact thermal_imaginary. Qed.
Print Assumptions C184_average.
Theorem C184_reversal : forall H V E O st k times Ms Ms' v v', eigenbasis H V E -> real_op (nrow V) H -> (k < ncol (as_columns st))%nat -> (forall i, (i < nrow V)%nat -> snd (ent (as_columns st) i k) = 0) -> nrow O = nrow V -> ncol O = nrow V ->
  quench st V E times = Ok Ms -> quench st V E (map Ropp times) = Ok Ms' -> exp_vals (Columns (nth k Ms (mzero 0 0))) O = Ok v -> exp_vals (Columns (nth k Ms' (mzero 0 0))) O = Ok v' ->
  forall a, (a < length times)%nat -> (real_op (nrow V) O -> nth a v' 0 = nth a v 0) /\ (imaginary_op (nrow V) O -> nth a v' 0 = - nth a v 0).
Proof. exact reversal_api. Qed.
Print Assumptions C184_reversal.
Theorem C184_fermions : forall (f : fermions CR) P idx H V E, us_ok f -> rows_are (nstates (f_sys f)) P idx -> (forall a, In a idx -> (a < nstates (f_sys f))%nat) -> createH f (Some P) = Ok H -> eigenbasis H V E ->
  nrow V = length idx /\ real_op (length idx) H.
Proof. exact ham_real. Qed.
Print Assumptions C184_fermions.
Theorem C184_flow : forall (f : fermions CR) P idx H V E, us_ok f -> rows_are (nstates (f_sys f)) P idx -> (forall a, In a idx -> (a < nstates (f_sys f))%nat) -> createH f (Some P) = Ok H -> eigenbasis H V E ->
  forall i j s A B A' B' T x, (i < fg_nsites (f_geom f))%nat -> (j < fg_nsites (f_geom f))%nat -> (s < f_nspecies f)%nat -> i <> j ->
  two_site_op (f_sys f) i s j s cdag_op c_op Fermion = Ok A -> sandwich P A = Ok B -> two_site_op (f_sys f) j s i s cdag_op c_op Fermion = Ok A' -> sandwich P A' = Ok B' ->
  idx <> [] -> T <> 0 \/ (sorted_list E /\ apart gap13 E) -> exp_vals_thermal V (flow_op B B') E T = Ok x -> x = 0.
Proof. exact no_flow. Qed.
Print Assumptions C184_flow.
Theorem C184_spins : forall rt (s : spins CR) H, rt 1%nat = k1 -> sp_two s = 1%nat -> no_y_field s -> sp_createH rt s None = Ok H ->
  nrow H = (2 ^ sg_nsites (sp_geom s))%nat /\ ncol H = (2 ^ sg_nsites (sp_geom s))%nat /\ real_op (2 ^ sg_nsites (sp_geom s)) H.
Proof. exact spins_real. Qed.
Print Assumptions C184_spins.
Theorem C184_moment : forall rt (s : spins CR) H V E, rt 1%nat = k1 -> sp_two s = 1%nat -> no_y_field s -> sp_createH rt s None = Ok H -> eigenbasis H V E ->
  forall i Y T x, (i < sg_nsites (sp_geom s))%nat -> single_site_op (sp_sys s) i 0 (sy_op rt 1) Boson = Ok Y -> T <> 0 \/ (sorted_list E /\ apart gap13 E) -> exp_vals_thermal V Y E T = Ok x -> x = 0.
Proof. exact no_moment. Qed.
Print Assumptions C184_moment.
