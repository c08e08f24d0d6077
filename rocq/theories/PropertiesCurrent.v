(** Property theorems C156 and C157: the current of fermions and the weight of the optical
    conductivity.  Theorems only. *)
From Coq Require Import List Arith Reals QArith Qreals.
From Verif Require Import Scalars Res Matrix SpecMat ModelBase ModelFermions HamProofs FermiApi ModelThermal SpecThermal ModelCurrent SpecCurrent CurrentApi.
Import ListNotations.
Local Open Scope R_scope.

(** C156, false as the code stands: objects have no hopping amplitudes per direction. *)
Theorem C156_attribute_refuted : forall (f : fermions CR) d1 d2, current_op tx_of_init ty_of_init f d1 d2 = Raise AttributeError.
Proof. exact no_attribute. Qed.
Print Assumptions C156_attribute_refuted.
(** True after the caller has assigned them. *)
Theorem C156_current_partial : forall (f : fermions CR) (x y : nat -> Q) (tx ty : CR), open_bonds (f_geom f) x y -> hops_along f tx ty -> us_ok f ->
  forall d1 d2 : R, exists r, current_op (Some tx) (Some ty) f (d1, 0) (d2, 0) = Ok r /\
    forall H X, createH f None = Ok H -> position_op f (fun i => d1 * Q2R (x i) + d2 * Q2R (y i)) X -> meq (as_matrix (nstates (f_sys f)) r) (mscale ki (msub (mmul H X) (mmul X H))).
Proof. exact commutator. Qed.
Print Assumptions C156_current_partial.
Theorem C156_hermitian_partial : forall (f : fermions CR) (x y : nat -> Q) (tx ty : CR) (d1 d2 : R), open_bonds (f_geom f) x y -> hops_along f tx ty -> us_ok f -> real_couplings f ->
  exists r, current_op (Some tx) (Some ty) f (d1, 0) (d2, 0) = Ok r /\ meq (madj (as_matrix (nstates (f_sys f)) r)) (as_matrix (nstates (f_sys f)) r).
Proof. exact current_hermitian. Qed.
Print Assumptions C156_hermitian_partial.

(** C157. *)
Theorem C157_sum_rule : forall (f : fermions CR) (x y : nat -> Q) (tx ty : CR) (d : axis) P idx r J H V M K E T w k, (0 < fg_nsites (f_geom f))%nat -> open_bonds (f_geom f) x y -> hops_along f tx ty -> us_ok f ->
  rows_are (nstates (f_sys f)) P idx -> (forall a, In a idx -> (a < nstates (f_sys f))%nat) -> idx <> [] ->
  current_op (Some tx) (Some ty) f (first_part d) (second_part d) = Ok r -> sandwich P (as_matrix (nstates (f_sys f)) r) = Ok J -> createH f (Some P) = Ok H -> kinetic_op f P d = Ok K ->
  eigenbasis H V E -> matrix_elems V J = Ok M -> T <> 0 \/ (T = 0 /\ unique_ground E /\ sorted_list E /\ apart gap13 E) ->
  integrate_conductivity (fg_nsites (f_geom f)) M E T = Ok w -> exp_vals_thermal V K E T = Ok k -> w = - (PI * k / INR (fg_nsites (f_geom f))).
Proof. exact rule_api. Qed.
Print Assumptions C157_sum_rule.
(** All of these functions return. *)
Theorem C157_runs : forall (f : fermions CR) (x y : nat -> Q) (tx ty : CR) (d : axis) P idx H V E T, (0 < fg_nsites (f_geom f))%nat -> open_bonds (f_geom f) x y -> hops_along f tx ty -> us_ok f ->
  rows_are (nstates (f_sys f)) P idx -> (forall a, In a idx -> (a < nstates (f_sys f))%nat) -> idx <> [] -> createH f (Some P) = Ok H -> eigenbasis H V E ->
  T <> 0 \/ (T = 0 /\ sorted_list E /\ apart gap13 E) ->
  exists r J K M w k, current_op (Some tx) (Some ty) f (first_part d) (second_part d) = Ok r /\ sandwich P (as_matrix (nstates (f_sys f)) r) = Ok J /\ kinetic_op f P d = Ok K /\
    matrix_elems V J = Ok M /\ integrate_conductivity (fg_nsites (f_geom f)) M E T = Ok w /\ exp_vals_thermal V K E T = Ok k.
Proof. exact rule_runs. Qed.
Print Assumptions C157_runs.
(** Kinetic energy along an axis is never positive on average, whatever the signs of the
    amplitudes. *)
Theorem C157_kinetic : forall (f : fermions CR) (x y : nat -> Q) (tx ty : CR) (d : axis) P idx H V K E T k, (0 < fg_nsites (f_geom f))%nat -> open_bonds (f_geom f) x y -> hops_along f tx ty -> us_ok f ->
  rows_are (nstates (f_sys f)) P idx -> (forall a, In a idx -> (a < nstates (f_sys f))%nat) -> idx <> [] -> createH f (Some P) = Ok H -> kinetic_op f P d = Ok K ->
  eigenbasis H V E -> sorted_list E -> 0 < T \/ (T = 0 /\ unique_ground E /\ apart gap13 E) -> exp_vals_thermal V K E T = Ok k -> k <= 0.
Proof. exact kinetic_negative. Qed.
Print Assumptions C157_kinetic.
