(** Property theorems C176: averages over long times.  Theorems only. *)
From Coq Require Import List Arith Reals Bool.
From Verif Require Import Scalars Res Matrix ModelBase ModelGeometry ModelPhase ModelSymmetry ModelThermal SpecThermal SpecLongtime SymBase Longtime RefuteLongtime.
Import ListNotations.
Local Open Scope R_scope.

(** C176. *)
Theorem C176_mean : forall H V O E st k dt, eigenbasis H V E -> (k < ncol (as_columns st))%nat -> nrow O = nrow V -> ncol O = nrow V -> no_resonance dt E ->
  exists C, forall N Ms v, (1 <= N)%nat -> quench st V E (steps dt N) = Ok Ms -> exp_vals (Columns (nth k Ms (mzero 0 0))) O = Ok v ->
    Rabs (mean v - dephased V O E (col (as_columns st) k)) <= C / INR N.
Proof. exact mean_api. Qed.
Print Assumptions C176_mean.
Theorem C176_steps : forall dt E, (forall x y, In x E -> In y E -> Rabs (dt * (x - y)) < 2 * PI) -> dt <> 0 -> no_resonance dt E.
Proof. exact short_steps. Qed.
Print Assumptions C176_steps.
Theorem C176_basis : forall H V V' O E E' psi, eigenbasis H V E -> eigenbasis H V' E' -> dephased V O E psi = dephased V' O E' psi.
Proof. exact dephased_unique. Qed.
Print Assumptions C176_basis.
Theorem C176_levels : forall H V O E psi, eigenbasis H V E -> NoDup E -> dephased V O E psi = total (fun k => abs2 (inner (nrow V) (col V k) psi) * expect (nrow V) O (col V k)) (seq 0 (length E)).
Proof. exact diagonal_ensemble. Qed.
Print Assumptions C176_levels.
Theorem C176_resonance : exists H V E O st, eigenbasis H V E /\ nrow O = nrow V /\ ncol O = nrow V /\ dephased V O E (col (as_columns st) 0) = / 2 /\
  forall N Ms v, (1 <= N)%nat -> quench st V E (steps PI N) = Ok Ms -> exp_vals (Columns (nth 0 Ms (mzero 0 0))) O = Ok v -> mean v = 1.
Proof. exact resonant. Qed.
Print Assumptions C176_resonance.
