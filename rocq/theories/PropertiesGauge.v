(** Property theorems C171 to C174: evolution depends on the Hamiltonian only, units and
    signs of the hopping, opposite hopping, opposite energies.  Theorems only. *)
From Coq Require Import List Arith Reals ZArith QArith Bool Permutation.
From Verif Require Import Scalars Res Matrix SpecMat ModelBase ModelFermions FermiApi ModelGeometry ModelPhase ModelSymmetry ModelThermal SpecThermal SpecFermiGas SpecHalf SpecEta ModelFreeLattice SpecFreeLattice SpecGauge GaugeApi RefuteGauge.
Import ListNotations.
Local Open Scope R_scope.

(** C171. *)
Theorem C171_states : forall H V V' E E' st times Ms, eigenbasis H V E -> eigenbasis H V' E' -> quench st V E times = Ok Ms ->
  exists Ms', quench st V' E' times = Ok Ms' /\ length Ms' = length Ms /\ forall k, (k < length Ms)%nat -> meq (nth k Ms (mzero 0 0)) (nth k Ms' (mzero 0 0)).
Proof. exact quench_unique. Qed.
Print Assumptions C171_states.

(** C172. *)
Theorem C172_energies : forall r w f f' pr idx H H' V V' E E', regauged r w f f' -> us_ok f -> selects f pr idx -> createH f pr = Ok H -> createH f' pr = Ok H' -> eigenbasis H V E -> eigenbasis H' V' E' ->
  Permutation (map (Rmult r) E) E'.
Proof. exact api_energies. Qed.
Print Assumptions C172_energies.
Theorem C172_order : forall r w f f' pr idx H H' V V' E E', regauged r w f f' -> us_ok f -> selects f pr idx -> createH f pr = Ok H -> createH f' pr = Ok H' -> eigenbasis H V E -> eigenbasis H' V' E' ->
  0 <= r -> sorted_list E -> sorted_list E' -> E' = map (Rmult r) E.
Proof. exact api_sorted. Qed.
Print Assumptions C172_order.
Theorem C172_average : forall r w f f' pr idx H H' V V' E E', regauged r w f f' -> us_ok f -> selects f pr idx -> createH f pr = Ok H -> createH f' pr = Ok H' -> eigenbasis H V E -> eigenbasis H' V' E' ->
  forall A O c, measured f w A c -> used pr A O -> forall T x, r <> 0 -> T <> 0 -> exp_vals_thermal V O E T = Ok x -> exp_vals_thermal V' O E' (r * T) = Ok (c * x).
Proof. exact api_average. Qed.
Print Assumptions C172_average.
Theorem C172_cold : forall r w f f' pr idx H H' V V' E E', regauged r w f f' -> us_ok f -> selects f pr idx -> createH f pr = Ok H -> createH f' pr = Ok H' -> eigenbasis H V E -> eigenbasis H' V' E' ->
  forall A O c, measured f w A c -> used pr A O -> forall x, r = 1 -> sorted_list E -> sorted_list E' -> apart gap13 E -> exp_vals_thermal V O E 0 = Ok x -> exp_vals_thermal V' O E' 0 = Ok (c * x).
Proof. exact api_cold. Qed.
Print Assumptions C172_cold.
Theorem C172_motion : forall r w f f' pr idx H H' V V' E E', regauged r w f f' -> us_ok f -> selects f pr idx -> createH f pr = Ok H -> createH f' pr = Ok H' -> eigenbasis H V E -> eigenbasis H' V' E' ->
  forall A O c, measured f w A c -> used pr A O -> forall st k, (k < ncol (as_columns st))%nat -> single_config (as_columns st) k ->
  forall times Ms Ms' x, quench st V E (map (Rmult r) times) = Ok Ms -> quench st V' E' times = Ok Ms' ->
    exp_vals (Columns (nth k Ms (mzero 0 0))) O = Ok x -> exp_vals (Columns (nth k Ms' (mzero 0 0))) O = Ok (map (Rmult c) x).
Proof. exact api_motion. Qed.
Print Assumptions C172_motion.

(** C173. *)
Theorem C173_signs : forall side f f', two_coloured f side -> opposite_hopping f f' -> regauged 1 (fun i _ => sign side i) f f'.
Proof. exact opposite_regauged. Qed.
Print Assumptions C173_signs.
Theorem C173_same : forall side f f' pr idx H H' V V' E E', two_coloured f side -> opposite_hopping f f' -> us_ok f -> selects f pr idx -> createH f pr = Ok H -> createH f' pr = Ok H' -> eigenbasis H V E -> eigenbasis H' V' E' ->
  Permutation E E' /\ (sorted_list E -> sorted_list E' -> E' = E) /\
  forall A O c, measured f (fun i _ => sign side i) A c -> used pr A O ->
    (forall T x, T <> 0 \/ (sorted_list E /\ sorted_list E' /\ apart gap13 E) -> exp_vals_thermal V O E T = Ok x -> exp_vals_thermal V' O E' T = Ok (c * x)) /\
    (forall st k, (k < ncol (as_columns st))%nat -> single_config (as_columns st) k -> forall times Ms Ms' x, quench st V E times = Ok Ms -> quench st V' E' times = Ok Ms' ->
      exp_vals (Columns (nth k Ms (mzero 0 0))) O = Ok x -> exp_vals (Columns (nth k Ms' (mzero 0 0))) O = Ok (map (Rmult c) x)).
Proof. exact opposite_same. Qed.
Print Assumptions C173_same.
Theorem C173_lattice : forall nx ny o1 o2 (g : geometry CR) u w t v mu m f f', (1 <= nx)%Z -> (1 <= ny)%Z -> (2 * nx <= 100000000000000)%Z -> (2 * ny <= 100000000000000)%Z ->
  c_square_geometry nx ny 0 0 o1 o2 = Ok g ->
  fermions_init (fgeom_of g) (number u) (numbers m t) None (numbers m mu) (number w) (numbers m v) m = Ok f ->
  o1 = true \/ Z.even nx = true -> o2 = true \/ Z.even ny = true ->
  fermions_init (fgeom_of g) (number u) (numbers m (fun k => - t k)) None (numbers m mu) (number w) (numbers m v) m = Ok f' -> two_coloured f (chess ny) /\ opposite_hopping f f'.
Proof. exact lattice_hopping. Qed.
Print Assumptions C173_lattice.
Theorem C173_triangle : exists f f' P idx H H' V V' E E', opposite_hopping f f' /\ us_ok f /\ selects f (Some P) idx /\ createH f (Some P) = Ok H /\ createH f' (Some P) = Ok H' /\
  eigenbasis H V E /\ eigenbasis H' V' E' /\ ~ Permutation E E'.
Proof. exact triangle_differs. Qed.
Print Assumptions C173_triangle.

(** C174. *)
Theorem C174_energies : forall side f f' pr idx H H' V V' E E', two_coloured f side -> opposite_energies f f' -> us_ok f -> selects f pr idx -> createH f pr = Ok H -> createH f' pr = Ok H' -> eigenbasis H V E -> eigenbasis H' V' E' ->
  Permutation (map Ropp E) E'.
Proof. exact mirrored_energies. Qed.
Print Assumptions C174_energies.
Theorem C174_motion : forall side f f' pr idx H H' V V' E E', two_coloured f side -> opposite_energies f f' -> us_ok f -> selects f pr idx -> createH f pr = Ok H -> createH f' pr = Ok H' -> eigenbasis H V E -> eigenbasis H' V' E' ->
  forall A O c, measured f (fun i _ => sign side i) A c -> used pr A O -> forall st k, (k < ncol (as_columns st))%nat -> single_config (as_columns st) k ->
  forall times Ms Ms' x, quench st V E times = Ok Ms -> quench st V' E' times = Ok Ms' ->
    exp_vals (Columns (nth k Ms (mzero 0 0))) O = Ok x -> exp_vals (Columns (nth k Ms' (mzero 0 0))) O = Ok (map (Rmult c) x).
Proof. exact mirrored_motion. Qed.
Print Assumptions C174_motion.
Theorem C174_lattice : forall nx ny o1 o2 (g : geometry CR) u w t v mu m f f', (1 <= nx)%Z -> (1 <= ny)%Z -> (2 * nx <= 100000000000000)%Z -> (2 * ny <= 100000000000000)%Z ->
  c_square_geometry nx ny 0 0 o1 o2 = Ok g ->
  fermions_init (fgeom_of g) (number u) (numbers m t) None (numbers m mu) (number w) (numbers m v) m = Ok f ->
  o1 = true \/ Z.even nx = true -> o2 = true \/ Z.even ny = true ->
  fermions_init (fgeom_of g) (number (- u)) (numbers m t) None (numbers m (fun k => - mu k)) (number (- w)) (numbers m (fun k => - v k)) m = Ok f' -> two_coloured f (chess ny) /\ opposite_energies f f'.
Proof. exact lattice_energies. Qed.
Print Assumptions C174_lattice.
