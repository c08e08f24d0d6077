(** Property theorems C177: statistics of level spacings.  Theorems only. *)
From Coq Require Import List Arith Reals Bool Permutation.
From Verif Require Import Scalars Res Matrix SpecMat ModelBase ModelFermions FermiApi ModelGeometry ModelPhase ModelSymmetry ModelThermal SpecThermal SpecFermiGas ModelFreeLattice SpecFreeLattice SpecHalf SpecGauge GaugeApi SpecMus SpecRatios ModelRatios Ratios RatiosApi.
Import ListNotations.
Local Open Scope R_scope.

(** C177. *)
Theorem C177_ratios : forall E, sorted_list E -> rn E = map (fun k => Fin (spacing_ratio E k)) (seq 0 (length E - 2)).
Proof. exact rn_spec. Qed.
Print Assumptions C177_ratios.
Theorem C177_bounds : forall E k, sorted_list E -> (k + 2 < length E)%nat -> 0 <= spacing_ratio E k <= 1.
Proof. exact ratio_bounds. Qed.
Print Assumptions C177_bounds.
Theorem C177_mean : forall E, sorted_list E -> (3 <= length E)%nat -> r_mean E = Fin (total (spacing_ratio E) (seq 0 (length E - 2)) / INR (length E - 2)).
Proof. exact mean_spec. Qed.
Print Assumptions C177_mean.
Theorem C177_mean_bounds : forall E, sorted_list E -> (3 <= length E)%nat -> exists m, r_mean E = Fin m /\ 0 <= m <= 1.
Proof. exact mean_bounds. Qed.
Print Assumptions C177_mean_bounds.
Theorem C177_few : forall E, (length E < 3)%nat -> r_mean E = NaN.
Proof. exact mean_few. Qed.
Print Assumptions C177_few.
Theorem C177_units : forall r w f f' pr idx H H' V V' E E', regauged r w f f' -> us_ok f -> selects f pr idx -> createH f pr = Ok H -> createH f' pr = Ok H' -> eigenbasis H V E -> eigenbasis H' V' E' ->
  0 < r -> sorted_list E -> sorted_list E' -> rn E' = rn E.
Proof. exact regauged_ratios. Qed.
Print Assumptions C177_units.
Theorem C177_potential : forall x f f' pr idx H H' V V' E E', raised x f f' -> us_ok f -> selects f pr idx -> createH f pr = Ok H -> createH f' pr = Ok H' -> eigenbasis H V E -> eigenbasis H' V' E' -> NoDup idx ->
  forall count, same_numbers f count idx -> sorted_list E -> sorted_list E' -> rn E' = rn E.
Proof. exact raised_ratios. Qed.
Print Assumptions C177_potential.
Theorem C177_mirror : forall side f f' pr idx H H' V V' E E', two_coloured f side -> opposite_energies f f' -> us_ok f -> selects f pr idx -> createH f pr = Ok H -> createH f' pr = Ok H' -> eigenbasis H V E -> eigenbasis H' V' E' ->
  sorted_list E -> sorted_list E' -> rn E' = rev (rn E) /\ r_mean E' = r_mean E.
Proof. exact mirrored_ratios. Qed.
Print Assumptions C177_mirror.
