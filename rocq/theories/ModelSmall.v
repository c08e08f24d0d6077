(** Small functions of the library that call others. *)
From Coq Require Import List Arith QArith Reals.
From Verif Require Import Scalars Res Matrix ModelGeometry ModelPhase ModelFermiGas.
Import ListNotations.

(** ed_geometry.py:638-645 [Geometry.__ne__]: [not self.__eq__(other)]. *)
Definition geometry_neb {Ph} (a b : geometry Ph) : res bool := r <- geometry_eqb a b ;; Ok (negb r).
(** ed_geometry.py:947-948 [Lattice.__ne__]. *)
Definition lattice_neb (a b : lattice) : bool := negb (lattice_eqb a b).
(** ed_geometry.py:844-860 [Lattice.reduce_to_unit_cell]; [mode] defaults to positive. *)
Definition reduce_to_unit_cell (L : lattice) (xs ys : list Q) (md : red_mode) : res (list (vec * Z * Z)) :=
  reduce_vectors (lt_p1 L) (lt_p2 L) xs ys md.
(** fermi_gas.py:626-645 [fg_magnetic_response]. *)
Definition magnetic_response (beta : invtemp) (mu : R) (q : R * R) (omega eta : R) (nsites : nat) (dim : dimension) : res CR :=
  density_response beta mu q omega eta nsites dim.
