(** Property theorems C166 to C168: motion with one frequency.  Theorems only. *)
From Coq Require Import List Arith Reals ZArith QArith Bool.
From Verif Require Import Scalars Res Matrix SpecMat ModelBase ModelSpins SpecSpins ModelFermions ModelGeometry ModelPhase ModelSymmetry ModelThermal SpecThermal ThermalResponse
  SpecFermiGas SpecHalf SpecEta SpecSinglet SpecPrecess Precess PrecessRun PrecessResp PrecessPair RefutePrecess.
Import ListNotations.
Local Open Scope R_scope.

(** C166. *)
Theorem C166_turning : forall rt s J X Y Z F V E u w, rt 1%nat = k1 -> sp_two s = 1%nat -> in_field s J (scaled w u) -> vdot u u = 1 -> total_spin rt s X Y Z ->
  sp_createH rt s None = Ok F -> eigenbasis F V E ->
  forall st times Ms x0 y0 z0 k, quench st V E times = Ok Ms -> (k < ncol (as_columns st))%nat ->
    exp_vals st X = Ok x0 -> exp_vals st Y = Ok y0 -> exp_vals st Z = Ok z0 ->
    exists x y z, exp_vals (Columns (nth k Ms (mzero 0 0))) X = Ok x /\ exp_vals (Columns (nth k Ms (mzero 0 0))) Y = Ok y /\ exp_vals (Columns (nth k Ms (mzero 0 0))) Z = Ok z /\
      length x = length times /\ length y = length times /\ length z = length times /\
      forall a, (a < length times)%nat -> Vec (nth a x 0) (nth a y 0) (nth a z 0) = turned u (w * nth a times 0) (Vec (nth k x0 0) (nth k y0 0) (nth k z0 0)).
Proof. exact turning_api. Qed.
Print Assumptions C166_turning.

(** C167. *)
Theorem C167_operator : forall H V O E n c, eigenbasis H V E -> nrow V = n -> nrow O = n -> ncol O = n -> shifts n H O c ->
  forall st times Ms x0 y0 k, quench st V E times = Ok Ms -> (k < ncol (as_columns st))%nat ->
    exp_vals st O = Ok x0 -> exp_vals st (mscale (0, -1) O) = Ok y0 ->
    exists x y, exp_vals (Columns (nth k Ms (mzero 0 0))) O = Ok x /\ exp_vals (Columns (nth k Ms (mzero 0 0))) (mscale (0, -1) O) = Ok y /\ length x = length times /\ length y = length times /\
      forall a, (a < length times)%nat -> let phi := c * nth a times 0 in
        nth a x 0 = cos phi * nth k x0 0 - sin phi * nth k y0 0 /\ nth a y 0 = sin phi * nth k x0 0 + cos phi * nth k y0 0.
Proof. exact motion_api. Qed.
Print Assumptions C167_operator.

Theorem C167_pairs : forall f side e H O A, pair_symmetric f side e -> createH f None = Ok H ->
  (forall i, (i < fg_nsites (f_geom f))%nat -> two_site_op (f_sys f) i 0 i 1 cdag_op cdag_op Fermion = Ok (A i)) ->
  alternating (fg_nsites (f_geom f)) (2 ^ nlog (f_sys f)) side A O -> shifts (2 ^ nlog (f_sys f)) H O e.
Proof. exact pair_shifts. Qed.
Print Assumptions C167_pairs.

(** C168. *)
Theorem C168_time_ordered : forall H V O P A B E n c w eta, eigenbasis H V E -> nrow V = n -> n <> 0%nat -> nrow O = n -> ncol O = n -> nrow P = n -> ncol P = n ->
  matrix_elems V O = Ok A -> matrix_elems V P = Ok B -> shifts n H O c ->
  forall T z x y, T <> 0 -> exp_vals_thermal V (mmul P O) E T = Ok x -> exp_vals_thermal V (mmul O P) E T = Ok y ->
    response_time_ordered A B E T w eta = Ok z -> fst z = PI * lorentz eta (w - c) * (x - y).
Proof. exact time_ordered_line. Qed.
Print Assumptions C168_time_ordered.

Theorem C168_retarded_cold : forall H V O P A B E n c w eta, eigenbasis H V E -> nrow V = n -> n <> 0%nat -> nrow O = n -> ncol O = n -> nrow P = n -> ncol P = n ->
  matrix_elems V O = Ok A -> matrix_elems V P = Ok B -> shifts n H O c ->
  forall f r, f <> OtherFmt -> response_retarded A B E 0 f w eta = Ok r ->
    r = PI * lorentz eta (w + c) * (expect n (mmul O P) (col V 0) + fmt_sign f * expect n (mmul P O) (col V 0)).
Proof. exact retarded_line_cold. Qed.
Print Assumptions C168_retarded_cold.

Theorem C168_retarded_hot : forall H V O P A B E n c w eta, eigenbasis H V E -> nrow V = n -> n <> 0%nat -> nrow O = n -> ncol O = n -> nrow P = n -> ncol P = n ->
  matrix_elems V O = Ok A -> matrix_elems V P = Ok B -> shifts n H O c ->
  forall f T r x, f <> OtherFmt -> T <> 0 -> exp_vals_thermal V (mmul P O) E T = Ok x -> response_retarded A B E T f w eta = Ok r ->
    r = PI * lorentz eta (w + c) * (1 + fmt_sign f * exp (c / T)) * x.
Proof. exact retarded_line_hot. Qed.
Print Assumptions C168_retarded_hot.

Theorem C168_pairs : forall f side e H O A, pair_symmetric f side e -> createH f None = Ok H ->
  (forall i, (i < fg_nsites (f_geom f))%nat -> two_site_op (f_sys f) i 0 i 1 cdag_op cdag_op Fermion = Ok (A i)) ->
  alternating (fg_nsites (f_geom f)) (2 ^ nlog (f_sys f)) side A O ->
  forall V P MA MB E B U D T w eta, (forall j, (j < fg_nsites (f_geom f))%nat -> two_site_op (f_sys f) j 1 j 0 c_op c_op Fermion = Ok (B j)) ->
  alternating (fg_nsites (f_geom f)) (2 ^ nlog (f_sys f)) side B P -> eigenbasis H V E -> T <> 0 ->
  (forall j, (j < fg_nsites (f_geom f))%nat -> single_site_op (f_sys f) j 0 n_op Boson = Ok (U j)) -> (forall j, (j < fg_nsites (f_geom f))%nat -> single_site_op (f_sys f) j 1 n_op Boson = Ok (D j)) ->
  matrix_elems V O = Ok MA -> matrix_elems V P = Ok MB ->
  forall z (u d : nat -> R), response_time_ordered MA MB E T w eta = Ok z ->
  (forall j, (j < fg_nsites (f_geom f))%nat -> exp_vals_thermal V (U j) E T = Ok (u j)) -> (forall j, (j < fg_nsites (f_geom f))%nat -> exp_vals_thermal V (D j) E T = Ok (d j)) ->
  fst z = PI * lorentz eta (w - e) * total (fun j => 1 - u j - d j) (seq 0 (fg_nsites (f_geom f))).
Proof. exact pair_line. Qed.
Print Assumptions C168_pairs.

(** The claim that both functions show the line at the same frequency is false. *)
Theorem C168_same_frequency_refuted : exists H V E O P A B, eigenbasis H V E /\ nrow V = 2%nat /\ shifts 2 H O 1 /\ matrix_elems V O = Ok A /\ matrix_elems V P = Ok B /\
  forall eta, 0 < eta -> exists r1 r2 z1 z2,
    response_retarded A B E 0 BosonFmt (-1) eta = Ok r1 /\ response_retarded A B E 0 BosonFmt 1 eta = Ok r2 /\ Rabs r2 < Rabs r1 /\
    response_time_ordered A B E 1 (-1) eta = Ok z1 /\ response_time_ordered A B E 1 1 eta = Ok z2 /\ Rabs (fst z1) < Rabs (fst z2).
Proof. exact opposite. Qed.
Print Assumptions C168_same_frequency_refuted.
