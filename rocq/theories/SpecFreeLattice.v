(** Vocabulary for statements that compare exact diagonalization of a periodic
    lattice with the formulas for the Fermi gas. *)
From Coq Require Import List Arith Reals ZArith Bool.
From Verif Require Import Scalars Res ModelFermions SpecGeometry SpecFermiGas.
Import ListNotations.

(** Number of sites along the second direction: a chain has one, and it is not
    periodic in that direction. *)
Definition depth (s : shape) (n : nat) : nat := match s with Chain => 1 | Square => n end.
Definition flat_shape (s : shape) : bool := match s with Chain => true | Square => false end.
(** From site [i] to site [j]. *)
Definition displacement (s : shape) (n : nat) (i j : nat) : Z * Z :=
  let ny := Z.of_nat (depth s n) in (site_x ny j - site_x ny i, site_y ny j - site_y ny i)%Z.
(** One real number as an array, and one for each of [m] species. *)
Definition number (x : R) : nd CR := Nd [1%nat] (fun _ => re x).
Definition numbers (m : nat) (x : nat -> R) : nd CR := Nd [m] (fun k => re (x k)).
