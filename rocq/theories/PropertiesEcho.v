(** Property theorems C179 and C180: return to the initial state, and rates of change.  Theorems only. *)
From Coq Require Import List Arith Reals Bool.
From Verif Require Import Scalars Res Matrix ModelBase ModelGeometry ModelPhase ModelSymmetry ModelThermal SpecThermal SpecLongtime SymBase SpecEcho Echo SpecRates Rates.
Import ListNotations.
Local Open Scope R_scope.

(** C179. *)
Theorem C179_return : forall H V E st times Ms k D a, eigenbasis H V E -> (k < ncol (as_columns st))%nat -> (a < length times)%nat ->
  quench st V E times = Ok Ms -> overlaps st (Columns (nth k Ms (mzero 0 0))) = Ok D ->
  abs2 (ent D k a) = total (fun i => total (fun j => level_weight V (col (as_columns st) k) i * level_weight V (col (as_columns st) k) j * cos (nth a times 0 * (nth i E 0 - nth j E 0))) (seq 0 (length E))) (seq 0 (length E)).
Proof. exact echo_api. Qed.
Print Assumptions C179_return.
Theorem C179_bounds : forall H V E st times Ms k D a e1 e2, eigenbasis H V E -> (k < ncol (as_columns st))%nat -> (a < length times)%nat -> norm2 (nrow V) (col (as_columns st) k) = 1 ->
  quench st V E times = Ok Ms -> overlaps st (Columns (nth k Ms (mzero 0 0))) = Ok D -> exp_vals st H = Ok e1 -> exp_vals st (mmul H H) = Ok e2 ->
  1 - nth a times 0 * nth a times 0 * (nth k e2 0 - nth k e1 0 * nth k e1 0) <= abs2 (ent D k a) <= 1.
Proof. exact bounds_api. Qed.
Print Assumptions C179_bounds.
Theorem C179_back : forall H V E st times Ms k D a b, eigenbasis H V E -> (k < ncol (as_columns st))%nat -> (a < length times)%nat -> (b < length times)%nat -> nth b times 0 = - nth a times 0 ->
  quench st V E times = Ok Ms -> overlaps st (Columns (nth k Ms (mzero 0 0))) = Ok D -> abs2 (ent D k b) = abs2 (ent D k a).
Proof. exact back_api. Qed.
Print Assumptions C179_back.
Theorem C179_mean : forall H V E st k dt, eigenbasis H V E -> (k < ncol (as_columns st))%nat -> no_resonance dt E ->
  exists C, forall N Ms D, (1 <= N)%nat -> quench st V E (steps dt N) = Ok Ms -> overlaps st (Columns (nth k Ms (mzero 0 0))) = Ok D ->
    Rabs (mean (row_abs2 D k) - participation V E (col (as_columns st) k)) <= C / INR N.
Proof. exact echo_mean. Qed.
Print Assumptions C179_mean.
Theorem C179_floor : forall H V E psi, eigenbasis H V E -> norm2 (nrow V) psi = 1 -> 1 <= INR (length (nodup Req_EM_T E)) * participation V E psi.
Proof. exact participation_floor. Qed.
Print Assumptions C179_floor.

(** C180. *)
Theorem C180_rates : forall H V E O st k, eigenbasis H V E -> (k < ncol (as_columns st))%nat -> nrow O = nrow V -> ncol O = nrow V ->
  exists x x', (forall t, derivable_pt_lim x t (x' t)) /\
    forall times Ms v w, quench st V E times = Ok Ms -> exp_vals (Columns (nth k Ms (mzero 0 0))) O = Ok v -> exp_vals (Columns (nth k Ms (mzero 0 0))) (rate_op H O) = Ok w ->
      forall a, (a < length times)%nat -> nth a v 0 = x (nth a times 0) /\ nth a w 0 = x' (nth a times 0).
Proof. exact rates_api. Qed.
Print Assumptions C180_rates.
Theorem C180_conserved : forall H V E O st k times Ms v v0, eigenbasis H V E -> (k < ncol (as_columns st))%nat -> nrow O = nrow V -> ncol O = nrow V -> commute_on (nrow V) H O ->
  quench st V E times = Ok Ms -> exp_vals (Columns (nth k Ms (mzero 0 0))) O = Ok v -> exp_vals st O = Ok v0 -> forall a, (a < length times)%nat -> nth a v 0 = nth k v0 0.
Proof. exact conserved_api. Qed.
Print Assumptions C180_conserved.
Theorem C180_stationary : forall H V E st k times Ms e, eigenbasis H V E -> (k < ncol (as_columns st))%nat -> stationary (nrow V) H (col (as_columns st) k) e -> quench st V E times = Ok Ms ->
  forall i a, (i < nrow V)%nat -> (a < length times)%nat -> ent (nth k Ms (mzero 0 0)) i a = @kmul CR _ (cos (nth a times 0 * e), - sin (nth a times 0 * e)) (ent (as_columns st) i k).
Proof. exact stays_api. Qed.
Print Assumptions C180_stationary.
