(** Property theorems C181 and C182: uncertainties, and rates of change in equilibrium.  Theorems only. *)
From Coq Require Import List Arith Reals QArith Bool.
From Verif Require Import Scalars Res Matrix SpecMat ModelBase ModelFermions HamProofs FermiApi ModelGeometry ModelPhase ModelSymmetry ModelThermal SpecThermal SymBase ModelCurrent SpecCurrent
  SpecRates SpecUncertain Uncertain Equil.
Import ListNotations.
Local Open Scope R_scope.

(** C181. *)
Theorem C181_uncertainty : forall n A B st k a a2 b b2 c, hermitian_op n A -> hermitian_op n B -> nrow (as_columns st) = n -> (k < ncol (as_columns st))%nat -> norm2 n (col (as_columns st) k) = 1 ->
  exp_vals st A = Ok a -> exp_vals st (mmul A A) = Ok a2 -> exp_vals st B = Ok b -> exp_vals st (mmul B B) = Ok b2 -> exp_vals st (rate_op A B) = Ok c ->
  nth k c 0 * nth k c 0 <= 4 * (variance (nth k a 0) (nth k a2 0) * variance (nth k b 0) (nth k b2 0)).
Proof. exact uncertainty_api. Qed.
Print Assumptions C181_uncertainty.
Theorem C181_variance : forall n O st k a a2, hermitian_op n O -> nrow (as_columns st) = n -> (k < ncol (as_columns st))%nat -> norm2 n (col (as_columns st) k) = 1 ->
  exp_vals st O = Ok a -> exp_vals st (mmul O O) = Ok a2 -> 0 <= variance (nth k a 0) (nth k a2 0) /\ (variance (nth k a 0) (nth k a2 0) = 0 <-> stationary n O (col (as_columns st) k) (nth k a 0)).
Proof. exact variance_api. Qed.
Print Assumptions C181_variance.
Theorem C181_speed : forall H V E O st k times Ms v v2 w e1 e2, eigenbasis H V E -> hermitian_op (nrow V) O -> (k < ncol (as_columns st))%nat -> norm2 (nrow V) (col (as_columns st) k) = 1 ->
  quench st V E times = Ok Ms -> exp_vals (Columns (nth k Ms (mzero 0 0))) O = Ok v -> exp_vals (Columns (nth k Ms (mzero 0 0))) (mmul O O) = Ok v2 -> exp_vals (Columns (nth k Ms (mzero 0 0))) (rate_op H O) = Ok w ->
  exp_vals st H = Ok e1 -> exp_vals st (mmul H H) = Ok e2 -> forall a, (a < length times)%nat ->
  nth a w 0 * nth a w 0 <= 4 * (variance (nth k e1 0) (nth k e2 0) * variance (nth a v 0) (nth a v2 0)).
Proof. exact speed_api. Qed.
Print Assumptions C181_speed.

(** C182. *)
Theorem C182_equilibrium : forall H V E O T x, eigenbasis H V E -> exp_vals_thermal V (rate_op H O) E T = Ok x -> x = 0.
Proof. exact equilibrium. Qed.
Print Assumptions C182_equilibrium.
Theorem C182_no_current : forall (f : fermions CR) (x y : nat -> Q) (tx ty : CR) (d : axis) P idx r J H V E, open_bonds (f_geom f) x y -> hops_along f tx ty -> us_ok f ->
  rows_are (nstates (f_sys f)) P idx -> (forall a, In a idx -> (a < nstates (f_sys f))%nat) ->
  current_op (Some tx) (Some ty) f (first_part d) (second_part d) = Ok r -> sandwich P (as_matrix (nstates (f_sys f)) r) = Ok J -> createH f (Some P) = Ok H -> eigenbasis H V E ->
  forall T j, exp_vals_thermal V J E T = Ok j -> j = 0.
Proof. exact no_current. Qed.
Print Assumptions C182_no_current.
Theorem C182_motion : forall (f : fermions CR) (x y : nat -> Q) (tx ty : CR) (d : axis) P idx r J H V E, open_bonds (f_geom f) x y -> hops_along f tx ty -> us_ok f ->
  rows_are (nstates (f_sys f)) P idx -> (forall a, In a idx -> (a < nstates (f_sys f))%nat) ->
  current_op (Some tx) (Some ty) f (first_part d) (second_part d) = Ok r -> sandwich P (as_matrix (nstates (f_sys f)) r) = Ok J -> createH f (Some P) = Ok H -> eigenbasis H V E ->
  forall X Y st k, position_op f (along d x y) X -> sandwich P X = Ok Y -> NoDup idx -> (k < ncol (as_columns st))%nat ->
  exists z z', (forall t, derivable_pt_lim z t (z' t)) /\
    forall times Ms v w, quench st V E times = Ok Ms -> exp_vals (Columns (nth k Ms (mzero 0 0))) Y = Ok v -> exp_vals (Columns (nth k Ms (mzero 0 0))) J = Ok w ->
      forall a, (a < length times)%nat -> nth a v 0 = z (nth a times 0) /\ nth a w 0 = z' (nth a times 0).
Proof. exact current_motion. Qed.
Print Assumptions C182_motion.
