(** Model of the level statistics in examples/wannier_stark_ladder.py:27-31. *)
From Coq Require Import List Arith Reals Bool.
From Verif Require Import ModelThermal.
Import ListNotations.
Local Open Scope R_scope.

(** Results of numpy divisions of real numbers.  Zeros have no sign here; for sorted
    energies no negative zero occurs. *)
Inductive num := Fin (x : R) | PInf | NInf | NaN.
Definition np_divide (a b : R) : num :=
  if is_zero b then (if is_zero a then NaN else if Rlt_dec 0 a then PInf else NInf) else Fin (a / b).
(** [np.divide(1, x)] *)
Definition np_inverse (x : num) : num :=
  match x with Fin x => np_divide 1 x | PInf => Fin 0 | NInf => Fin 0 | NaN => NaN end.
(** [np.min] of two numbers: nan if one of them is nan. *)
Definition np_min (x y : num) : num :=
  match x, y with
  | NaN, _ => NaN | _, NaN => NaN
  | NInf, _ => NInf | _, NInf => NInf
  | PInf, y => y | x, PInf => x
  | Fin a, Fin b => Fin (Rmin a b)
  end.
(** wannier_stark_ladder.py:27 [diffs = eig_vals[1:] - eig_vals[0:-1]] *)
Definition diffs (E : list R) : list R := map (fun p => fst p - snd p) (combine (tl E) (removelast E)).
(** wannier_stark_ladder.py:28 [np.divide(diffs[1:], diffs[:-1])] *)
Definition gap_ratios (d : list R) : list num := map (fun p => np_divide (fst p) (snd p)) (combine (tl d) (removelast d)).
(** wannier_stark_ladder.py:29-30 [rn], with nan replaced by zero. *)
Definition rn (E : list R) : list num :=
  map (fun g => match np_min g (np_inverse g) with NaN => Fin 0 | x => x end) (gap_ratios (diffs E)).
(** Sum of floating numbers. *)
Definition num_add (x y : num) : num :=
  match x, y with
  | NaN, _ => NaN | _, NaN => NaN
  | PInf, NInf => NaN | NInf, PInf => NaN
  | PInf, _ => PInf | _, PInf => PInf
  | NInf, _ => NInf | _, NInf => NInf
  | Fin a, Fin b => Fin (a + b)
  end.
(** wannier_stark_ladder.py:32 [np.mean(rn)], nan for an empty array. *)
Definition r_mean (E : list R) : num :=
  match rn E with
  | [] => NaN
  | l => match fold_right num_add (Fin 0) l with Fin s => Fin (s / INR (length l)) | x => x end
  end.
