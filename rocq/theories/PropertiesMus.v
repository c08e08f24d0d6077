(** Property theorems C175: chemical potentials.  Theorems only. *)
From Coq Require Import List Arith Reals ZArith QArith Bool Permutation.
From Verif Require Import Scalars Res Matrix SpecMat ModelBase ModelFermions FermiApi ModelGeometry ModelPhase ModelSymmetry ModelThermal SpecThermal SpecFermiGas ModelFreeLattice SpecFreeLattice SpecGauge SpecMus MusRun MusApi.
Import ListNotations.
Local Open Scope R_scope.

(** C175. *)
Theorem C175_motion : forall x f f' pr idx H H' V V' E E', raised x f f' -> us_ok f -> selects f pr idx -> createH f pr = Ok H -> createH f' pr = Ok H' -> eigenbasis H V E -> eigenbasis H' V' E' -> NoDup idx ->
  forall A O c, measured f (fun _ _ => 1) A c -> used pr A O -> forall st k times Ms Ms' v, (k < ncol (as_columns st))%nat -> quench st V E times = Ok Ms -> quench st V' E' times = Ok Ms' ->
    exp_vals (Columns (nth k Ms (mzero 0 0))) O = Ok v -> exp_vals (Columns (nth k Ms' (mzero 0 0))) O = Ok v.
Proof. exact motion_same. Qed.
Print Assumptions C175_motion.
Theorem C175_energies : forall x f f' pr idx H H' V V' E E', raised x f f' -> us_ok f -> selects f pr idx -> createH f pr = Ok H -> createH f' pr = Ok H' -> eigenbasis H V E -> eigenbasis H' V' E' -> NoDup idx ->
  forall count, same_numbers f count idx -> Permutation (map (fun e => e - total (fun k => x k * INR (count k)) (seq 0 (f_nspecies f))) E) E'.
Proof. exact raised_energies. Qed.
Print Assumptions C175_energies.
Theorem C175_average : forall x f f' pr idx H H' V V' E E', raised x f f' -> us_ok f -> selects f pr idx -> createH f pr = Ok H -> createH f' pr = Ok H' -> eigenbasis H V E -> eigenbasis H' V' E' -> NoDup idx ->
  forall count, same_numbers f count idx -> forall O T v, T <> 0 \/ (sorted_list E /\ sorted_list E' /\ apart gap13 E) -> exp_vals_thermal V O E T = Ok v -> exp_vals_thermal V' O E' T = Ok v.
Proof. exact raised_average. Qed.
Print Assumptions C175_average.
Theorem C175_sector : forall f counts P, fg_nsites (f_geom f) <> 0%nat -> length counts = f_nspecies f -> n_projector (f_sys f) (Some (map Some counts)) = Ok P ->
  exists idx, selects f (Some P) idx /\ NoDup idx /\ same_numbers f (fun k => nth k counts 0%nat) idx.
Proof. exact numbers_sector. Qed.
Print Assumptions C175_sector.
Theorem C175_constructor : forall g us ts ns mu mu' pot same m f f', fermions_init g us ts ns (numbers m mu) pot same m = Ok f -> fermions_init g us ts ns (numbers m mu') pot same m = Ok f' -> raised (fun k => mu' k - mu k) f f'.
Proof. exact init_raised. Qed.
Print Assumptions C175_constructor.
