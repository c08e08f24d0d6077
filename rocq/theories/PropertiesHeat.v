(** Property theorems C143: energy, entropy and specific heat of one cluster of spins.
    Theorems only. *)
From Coq Require Import List Arith Reals QArith Bool Permutation.
From Verif Require Import Scalars Res Matrix SpecMat ModelBase ModelSpins SpecSpins ModelGeometry ModelPhase ModelSymmetry ModelThermal SpecThermal ModelSpinLattice ModelRun SpecHeat SymBase HeatRun.
Import ListNotations.
Local Open Scope R_scope.

Theorem C143_quantities : forall H V E, eigenbasis H V E -> nrow V <> 0%nat -> forall T, T <> 0 ->
  cluster_thermo V H E T = Ok (mean_energy T E, entropy T E, heat T E).
Proof. exact thermo_val. Qed.
Print Assumptions C143_quantities.

Theorem C143_laws : forall H V E, eigenbasis H V E -> nrow V <> 0%nat -> exists e s c, forall T, T <> 0 ->
  cluster_thermo V H E T = Ok (e T, s T, c T) /\ derivable_pt_lim e T (c T) /\ derivable_pt_lim s T (c T / T) /\ 0 <= c T /\ 0 <= s T <= ln (INR (nrow V)).
Proof. exact thermo_laws. Qed.
Print Assumptions C143_laws.

Theorem C143_hot : forall H V E, eigenbasis H V E -> nrow V <> 0%nat -> forall eps, 0 < eps -> exists T0, 0 < T0 /\ forall T e s c, T0 < T ->
  cluster_thermo V H E T = Ok (e, s, c) -> Rabs (s - ln (INR (nrow V))) < eps.
Proof. exact thermo_hot. Qed.
Print Assumptions C143_hot.

Theorem C143_cold : forall H V E, eigenbasis H V E -> nrow V <> 0%nat -> forall m, smallest m E -> forall eps, 0 < eps -> exists T0, 0 < T0 /\ forall T e s c, 0 < T < T0 ->
  cluster_thermo V H E T = Ok (e, s, c) -> Rabs (s - ln (occurs m E)) < eps.
Proof. exact thermo_cold. Qed.
Print Assumptions C143_cold.

Theorem C143_basis : forall H V V' E E', eigenbasis H V E -> eigenbasis H V' E' -> nrow V <> 0%nat -> forall T, T <> 0 -> cluster_thermo V H E T = cluster_thermo V' H E' T.
Proof. exact thermo_basis. Qed.
Print Assumptions C143_basis.

Theorem C143_shift : forall H V E a V' E', eigenbasis H V E -> nrow V <> 0%nat -> eigenbasis (madd H (mscale (real a) (meye (nrow H)))) V' E' -> forall T e s c, T <> 0 ->
  cluster_thermo V H E T = Ok (e, s, c) -> cluster_thermo V' (madd H (mscale (real a) (meye (nrow H)))) E' T = Ok (e + a, s, c).
Proof. exact thermo_shift. Qed.
Print Assumptions C143_shift.

Theorem C143_sums : forall H1 V1 E1 H2 V2 E2 H V E, eigenbasis H1 V1 E1 -> eigenbasis H2 V2 E2 -> eigenbasis H V E -> nrow V1 <> 0%nat -> nrow V2 <> 0%nat -> nrow V <> 0%nat ->
  Permutation E (energy_sums E1 E2) -> forall T e1 s1 c1 e2 s2 c2, T <> 0 -> cluster_thermo V1 H1 E1 T = Ok (e1, s1, c1) -> cluster_thermo V2 H2 E2 T = Ok (e2, s2, c2) ->
  cluster_thermo V H E T = Ok (e1 + e2, s1 + s2, c1 + c2).
Proof. exact thermo_sums. Qed.
Print Assumptions C143_sums.

(** The script's Hamiltonian, with J/2 = 1/4 on the bonds, and its temperatures. *)
Theorem C143_model : forall rt, rt 1%nat = k1 -> forall g, let J := fun a b => if Qeq_bool (ent (g_adj g) a b) 0 then k0 else kmul ((1 / 2, 0) : CR) (ent (g_phase g) a b) in
  exists s H, run_spins g = Ok s /\ sp_createH rt s None = Ok H /\ meq H (pauli_hamiltonian (g_n g) J J J (fun _ => k0) (fun _ => k0) (fun _ => k0)).
Proof. exact run_model. Qed.
Print Assumptions C143_model.

Theorem C143_temperatures : length run_temps = 50%nat /\ nth 0 run_temps 0 = / 10 /\ nth 49 run_temps 0 = sqrt 1000 / 10 /\ exists q, forall k, (k < 49)%nat -> nth (S k) run_temps 0 = q * nth k run_temps 0.
Proof. exact run_temps_geo. Qed.
Print Assumptions C143_temperatures.

(** The script itself works for one site ... *)
Theorem C143_single_partial : forall rt, rt 1%nat = k1 -> forall eigh g,
  (forall s H, run_spins g = Ok s -> sp_createH rt s None = Ok H -> eigenbasis H (snd (eigh H)) (fst (eigh H))) ->
  g_n g = 1%nat -> run_cluster rt eigh g = Ok ([0; 0], map (fun _ => (0, ln 2, 0, 0)) run_temps).
Proof. exact run_single. Qed.
Print Assumptions C143_single_partial.

(** ... and fails for every larger cluster. *)
Theorem C143_script_refuted : forall rt, rt 1%nat = k1 -> forall eigh g,
  (forall s H, run_spins g = Ok s -> sp_createH rt s None = Ok H -> eigenbasis H (snd (eigh H)) (fst (eigh H))) ->
  (2 <= g_n g)%nat -> run_cluster rt eigh g = Raise AttributeError.
Proof. exact run_fails. Qed.
Print Assumptions C143_script_refuted.
