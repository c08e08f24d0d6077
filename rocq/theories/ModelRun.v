(** Model of cluster/diag_cluster.py, which computes the thermodynamics of one cluster of
    spins.

    Simplified: reading the cluster from a file and writing the results are left out
    (files are in ModelPipeline); printing and times are left out. *)
From Coq Require Import List Arith QArith Reals Bool.
From Verif Require Import Scalars Res Matrix ModelBase ModelSpins ModelGeometry ModelPhase ModelSymmetry ModelThermal ModelSpinLattice.
Import ListNotations.
Local Open Scope R_scope.

(** cluster/diag_cluster.py:24 [np.logspace(-1, 0.5, 50)]. *)
Definition run_temps : list R := map (fun k => Rpower 10 (-1 + 3 / 2 * (INR k / 49))) (seq 0 50).

(** cluster/diag_cluster.py:34-42: energy, entropy and specific heat at one temperature. *)
Definition cluster_thermo (V H : cmat) (E : list R) (T : R) : res (R * R * R) :=
  en <- exp_vals_thermal V H E T ;;
  let Z := lsum (map (fun e => exp (- e / T)) E) in
  let entropy := ln Z + en / T in
  HH <- cmulv H H ;;
  en2 <- exp_vals_thermal V HH E T ;;
  Ok (en, entropy, 1 / T ^ 2 * (en2 - en ^ 2)).

(** cluster/diag_cluster.py:44-54: the sum over pairs of sites.  The system has no
    attribute [getTwoSiteOp]. *)
Definition pair_sum (n : nat) : res R :=
  rfold (fun acc aa => rfold (fun _ _ => Raise AttributeError) (seq (aa + 1) (n - (aa + 1))) acc) (seq 0 n) 0.

(** cluster/diag_cluster.py:19-54: energies, and for every temperature the energy, the
    entropy, the specific heat and the sum of correlations.  [rt] is the square root,
    [eigh] numpy's dense solver. *)
Section Run.
  Variable rt : nat -> CR.
  Variable eigh : cmat -> list R * cmat.
  Definition run_spins (g : geometry CR) : res (spins CR) :=
    let half := kQ (1 # 2)%Q in
    spins_init (fun z => negb (rle_b (snd z) (/ 10 ^ 14))) (sgeom_of g) (JNum half) (JNum half) (JNum half) (HNum k0) (HNum k0) (HNum k0) false 1.
  Definition run_cluster (g : geometry CR) : res (list R * list (R * R * R * R)) :=
    s <- run_spins g ;;
    H <- sp_createH rt s None ;;
    let '(E, V) := diagH eigh (fun H _ => eigh H) H 200 false in
    rows <- rmap (fun T => x <- cluster_thermo V H E T ;; c <- pair_sum (sg_nsites (sp_geom s)) ;; Ok (x, c)) run_temps ;;
    Ok (E, rows).
End Run.
