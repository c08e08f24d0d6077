(** Model of the functions of exact_diag/ed_geometry.py that bring vectors into one shape. *)
From Coq Require Import List Arith QArith.
From Verif Require Import Res ModelGeometry.
Import ListNotations.

(** A numpy array: its shape and its elements, row by row. *)
Record nd (A : Type) := Nd { nd_shape : list nat; nd_data : list A }.
Arguments Nd {A}. Arguments nd_shape {A}. Arguments nd_data {A}.
(** [a.size]. *)
Definition nd_size {A} (a : nd A) : nat := length (nd_data a).
(** [a.reshape(shape)]: numpy raises a ValueError if the number of elements differs. *)
Definition reshape {A} (a : nd A) (shape : list nat) : res (nd A) :=
  if fold_right Nat.mul 1%nat shape =? nd_size a then Ok (Nd shape (nd_data a)) else Raise ValueError.

(** ed_geometry.py:1094-1106 [ensure_column_vect]; lists and tuples are given as arrays
    already ([np.asarray] returns an array of the same elements). *)
Definition ensure_column_vect {A} (vector : option (nd A)) : res (option (nd A)) :=
  match vector with None => Ok None | Some v => r <- reshape v [nd_size v; 1%nat] ;; Ok (Some r) end.
(** ed_geometry.py:1109-1120 [ensure_row_vect]. *)
Definition ensure_row_vect {A} (vector : option (nd A)) : res (option (nd A)) :=
  match vector with None => Ok None | Some v => r <- reshape v [1%nat; nd_size v] ;; Ok (Some r) end.
(** ed_geometry.py:1123-1135 [ensure_1d_vect]. *)
Definition ensure_1d_vect {A} (vector : option (nd A)) : res (option (nd A)) :=
  match vector with None => Ok None | Some v => r <- reshape v [nd_size v] ;; Ok (Some r) end.

(** ed_geometry.py:675-683: [ensure_column_vect(v).astype(float)], where None has no
    attribute astype, read as a pair.  Vectors that do not have two components are outside of
    the model, which the value OutOfFuel marks. *)
Definition column_pair (v : option (nd Q)) : res vec :=
  c <- ensure_column_vect v ;;
  match c with
  | None => Raise AttributeError
  | Some a => match nd_shape a, nd_data a with [2%nat; 1%nat], [x; y] => Ok (x, y) | _, _ => Raise OutOfFuel end
  end.
(** ed_geometry.py:651-691 [Lattice.__init__] with the vectors as they are given. *)
Definition lattice_of_arrays (v1 v2 : option (nd Q)) (basis : list (option (nd Q))) (p1 p2 : option (nd Q)) (ph1 ph2 : Q) : res lattice :=
  a1 <- column_pair v1 ;;
  a2 <- column_pair v2 ;;
  _ <- reciprocal_vects a1 a2 ;;
  bs <- rmap column_pair basis ;;
  q1 <- column_pair p1 ;;
  q2 <- column_pair p2 ;;
  new_lattice a1 a2 bs q1 q2 ph1 ph2.
