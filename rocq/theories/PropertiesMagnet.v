(** Property theorems C178: a uniform field along the axis of symmetry.  Theorems only. *)
From Coq Require Import List Arith Reals Bool Permutation.
From Verif Require Import Scalars Res Matrix SpecMat ModelBase ModelSpins SpecSpins ModelGeometry ModelPhase ModelSymmetry ModelThermal SpecThermal SpecSigns SpecSectors SpecMagnet MagnetApi.
Import ListNotations.
Local Open Scope R_scope.

(** C178. *)
Theorem C178_motion : forall rt s s' x F F' V V' E E', rt 1%nat = k1 -> sp_two s = 1%nat -> round_axis s -> magnetised x s s' -> sp_createH rt s None = Ok F -> sp_createH rt s' None = Ok F' -> eigenbasis F V E -> eigenbasis F' V' E' ->
  forall O st k times Ms Ms' v, axial rt s O -> (k < ncol (as_columns st))%nat -> quench st V E times = Ok Ms -> quench st V' E' times = Ok Ms' ->
    exp_vals (Columns (nth k Ms (mzero 0 0))) O = Ok v -> exp_vals (Columns (nth k Ms' (mzero 0 0))) O = Ok v.
Proof. exact magnet_motion. Qed.
Print Assumptions C178_motion.
Theorem C178_energies : forall rt s s' x m P idx H H' V V' E E', sp_two s = 1%nat -> magnetised x s s' -> flipped (sg_nsites (sp_geom s)) m P idx -> sp_createH rt s (Some P) = Ok H -> sp_createH rt s' (Some P) = Ok H' -> eigenbasis H V E -> eigenbasis H' V' E' ->
  Permutation (map (fun e => e - x * (INR (sg_nsites (sp_geom s)) / 2 - INR m)) E) E'.
Proof. exact sector_energies. Qed.
Print Assumptions C178_energies.
Theorem C178_average : forall rt s s' x m P idx H H' V V' E E', sp_two s = 1%nat -> magnetised x s s' -> flipped (sg_nsites (sp_geom s)) m P idx -> sp_createH rt s (Some P) = Ok H -> sp_createH rt s' (Some P) = Ok H' -> eigenbasis H V E -> eigenbasis H' V' E' ->
  forall O T v, T <> 0 \/ (sorted_list E /\ sorted_list E' /\ apart gap13 E) -> exp_vals_thermal V O E T = Ok v -> exp_vals_thermal V' O E' T = Ok v.
Proof. exact sector_average. Qed.
Print Assumptions C178_average.
Theorem C178_sector_motion : forall rt s s' x m P idx H H' V V' E E', sp_two s = 1%nat -> magnetised x s s' -> flipped (sg_nsites (sp_geom s)) m P idx -> sp_createH rt s (Some P) = Ok H -> sp_createH rt s' (Some P) = Ok H' -> eigenbasis H V E -> eigenbasis H' V' E' ->
  forall O st k times Ms Ms' v, (k < ncol (as_columns st))%nat -> nrow O = nrow V -> ncol O = nrow V -> quench st V E times = Ok Ms -> quench st V' E' times = Ok Ms' ->
    exp_vals (Columns (nth k Ms (mzero 0 0))) O = Ok v -> exp_vals (Columns (nth k Ms' (mzero 0 0))) O = Ok v.
Proof. exact sector_motion. Qed.
Print Assumptions C178_sector_motion.
