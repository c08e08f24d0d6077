(** Phase matrices of lattices with real trigonometric functions. *)
From Coq Require Import List Arith QArith Qreals Reals ZArith Bool.
From Verif Require Import Scalars Res Matrix ModelGeometry.
Import ListNotations.
Local Open Scope R_scope.

(** [np.exp(1j * x)]. *)
Definition cexp (x : R) : CR := (cos x, sin x).

Definition rle_b (x y : R) : bool := if Rle_dec x y then true else false.

(** ed_geometry.py:829-837, one entry. *)
Definition phase_entry (L : lattice) (xd yd : nat -> nat -> Q) (i j : nat) : CR :=
  cr_mul (cexp (Q2R (lt_phase1 L * (xd i j * fst (lt_r1 L) + yd i j * snd (lt_r1 L)))))
         (cexp (Q2R (lt_phase2 L * (xd i j * fst (lt_r2 L) + yd i j * snd (lt_r2 L))))).

(** 10 ** -14. *)
Definition tiny : R := / 10 ^ 14.

(** ed_geometry.py:839-840: no imaginary part above [tiny]. *)
Definition no_imaginary (n : nat) (M : nat -> nat -> CR) : bool :=
  forallb (fun i => forallb (fun j => rle_b (snd (M i j)) tiny) (seq 0 n)) (seq 0 n).

(** ed_geometry.py:809-842 [Lattice.get_phase_mat]. *)
Definition phase_matrix (L : lattice) (n : nat) (xd yd : nat -> nat -> Q) : mat CR :=
  Mat n n (if no_imaginary n (phase_entry L xd yd)
           then (fun i j => (fst (phase_entry L xd yd i j), 0))
           else phase_entry L xd yd).

(** Modulus of a complex number; rounding a non-negative number to fourteen
    decimals gives 0, or 1, exactly in these intervals (halves round to even). *)
Definition modulus (z : CR) : R := sqrt (fst z * fst z + snd z * snd z).
Definition rounds_to_0 (x : R) : bool := rle_b x (tiny / 2).
Definition rounds_to_1 (x : R) : bool := rle_b (1 - tiny / 2) x && rle_b x (1 + tiny / 2).

(** ed_geometry.py:579-595 [validate_phase_mat]; the difference of matrices of
    different shapes is an error too, and both errors are ValueErrors. *)
Definition valid_phases (n : nat) (P : mat CR) : bool :=
  (nrow P =? n)%nat && (ncol P =? n)%nat &&
  forallb (fun i => forallb (fun j =>
    rounds_to_0 (modulus (cr_sub (ent P i j) (cr_conj (ent P j i)))) &&
    rounds_to_1 (modulus (ent P i j))) (seq 0 n)) (seq 0 n).

(** The complex geometries of the library. *)
Definition c_lattice_geometry := lattice_geometry phase_matrix valid_phases.
Definition c_free_geometry := free_geometry ((1, 0) : CR) valid_phases.
Definition c_create_lattice_geom := create_lattice_geom phase_matrix valid_phases.
Definition c_square_geometry := square_geometry phase_matrix valid_phases.
