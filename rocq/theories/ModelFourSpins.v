(** Model of examples/4spins_test.py.

    Simplified: numbers are exact; spins are stored doubled, so
    [np.arange(a, b)] with step 1 is a range with step 2. *)
From Coq Require Import List Arith ZArith QArith Reals Bool.
From Verif Require Import Scalars Res Matrix ModelBase ModelSpins ModelGeometry ModelPhase ModelSites ModelSymmetry ModelThermal ModelSpinLattice ModelChain.
Import ListNotations.
Local Open Scope R_scope.

(** [np.sqrt] of a natural number. *)
Definition np_sqrt (k : nat) : CR := real (sqrt (INR k)).

(** 4spins_test.py:25: minus the rows of couplings. *)
Definition four_js (j1 j2 j3 : R) (a b : nat) : CR :=
  real (- nth b (nth a [[0; j1; j2; j3]; [j1; 0; j2; j3]; [j2; j2; 0; j3]; [j3; j3; j3; 0]] []) 0).
(** :10-27. *)
Definition four_spins (rt : nat -> CR) (two : nat) (j1 j2 j3 : R) : res (spins CR * cmat) :=
  g <- c_square_geometry 4 1 0 0 true true ;;
  let js := JArr2 4 4 (four_js j1 j2 j3) in
  s <- spins_init (K:=CR) (fun z : CR => negb (rle_b (snd z) (/ 10 ^ 14))) (sgeom_of g) js js js (HNum k0) (HNum k0) (HNum k0) false two ;;
  H <- sp_createH rt s None ;;
  Ok (s, H).

(** [np.arange(start, stop)] for doubled half-integers: [ceil (stop - start)] values. *)
Definition arange2 (start stop : nat) : list nat := map (fun k => (start + 2 * k)%nat) (seq 0 ((stop - start + 1) / 2)).
Definition absdiff (a b : nat) : nat := (Nat.max a b - Nat.min a b)%nat.
(** :33-53 before the list is sorted; [s1 = s2 = s3 = s4 = spin]. *)
Definition analytic_energy (j1 j2 j3 : R) (two t12 t123 t1234 : nat) : R :=
  let s1 := INR two / 2 in let s2 := s1 in let s3 := s1 in let s4 := s1 in
  let s12 := INR t12 / 2 in let s123 := INR t123 / 2 in let s1234 := INR t1234 / 2 in
  j1 * (s1 * (s1 + 1) + s2 * (s2 + 1)) + j2 * s3 * (s3 + 1) + j3 * s4 * (s4 + 1)
  + (j2 - j1) * s12 * (s12 + 1) + (j3 - j2) * s123 * (s123 + 1) - j3 * s1234 * (s1234 + 1).
Definition analytic_energies (two : nat) (j1 j2 j3 : R) : list R :=
  flat_map (fun t12 =>
    flat_map (fun t123 =>
      flat_map (fun t1234 => repeat (analytic_energy j1 j2 j3 two t12 t123 t1234) (t1234 + 1))
        (arange2 (absdiff two t123) (two + t123 + 2)))
      (arange2 (absdiff two t12) (two + t12 + 2)))
    (arange2 (absdiff two two) (two + two + 2)).

(** :56: [np.max(eigs_analytic - eig_vals)], with its sign; lists of different
    lengths and an empty list are ValueErrors. *)
Definition max_excess (a b : list R) : res R :=
  if negb (length a =? length b)%nat then Raise ValueError else
  match map (fun x => fst x - snd x) (combine a b) with
  | [] => Raise ValueError
  | d :: l => Ok (fold_left Rmax l d)
  end.
Definition four_excess (eigh : cmat -> list R * cmat) (eigsh : cmat -> nat -> list R * cmat) (rt : nat -> CR) (two : nat) (j1 j2 j3 : R) : res R :=
  sh <- four_spins rt two j1 j2 j3 ;;
  max_excess (np_sort (analytic_energies two j1 j2 j3)) (fst (diagH eigh eigsh (snd sh) 200 false)).
