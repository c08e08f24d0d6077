(** Property theorems C187: vectors of any shape.  Theorems only. *)
From Coq Require Import List Arith QArith.
From Verif Require Import Res ModelGeometry ModelShape SpecShape Shape.
Import ListNotations.

(** C187. *)
Theorem C187_shapes : forall (A : Type) (v : list A) a, shows v a ->
  (exists b, ensure_1d_vect (Some a) = Ok (Some b) /\ flat v b) /\ (exists b, ensure_column_vect (Some a) = Ok (Some b) /\ column v b) /\ (exists b, ensure_row_vect (Some a) = Ok (Some b) /\ row v b).
Proof. exact @shapes. Qed.
Print Assumptions C187_shapes.
Theorem C187_one_result : forall (A : Type) (v : list A) a b, shows v a -> shows v b ->
  ensure_1d_vect (Some a) = ensure_1d_vect (Some b) /\ ensure_column_vect (Some a) = ensure_column_vect (Some b) /\ ensure_row_vect (Some a) = ensure_row_vect (Some b).
Proof. exact @one_result. Qed.
Print Assumptions C187_one_result.
(** None stays None, but is not a lattice vector. *)
Theorem C187_none : forall (A : Type), ensure_1d_vect (A:=A) None = Ok None /\ ensure_column_vect (A:=A) None = Ok None /\ ensure_row_vect (A:=A) None = Ok None /\
  forall v2 bs p1 p2 ph1 ph2, lattice_of_arrays None v2 bs p1 p2 ph1 ph2 = Raise AttributeError.
Proof. exact none_stays. Qed.
Print Assumptions C187_none.
Theorem C187_matrices : forall (A : Type) (a : nd A) r c, well_formed a -> nd_shape a = [r; c] ->
  exists b, ensure_1d_vect (Some a) = Ok (Some b) /\ well_formed b /\ nd_shape b = [(r * c)%nat] /\ forall i j, (i < r)%nat -> (j < c)%nat -> element b [(c * i + j)%nat] = element a [i; j].
Proof. exact @matrices. Qed.
Print Assumptions C187_matrices.
Theorem C187_lattices : forall x1 y1 x2 y2 bs a1 a2 ab px1 py1 px2 py2 c1 c2 ph1 ph2,
  shows [x1; y1] a1 -> shows [x2; y2] a2 -> Forall2 (fun (v : vec) (o : option (nd Q)) => exists a, o = Some a /\ shows [fst v; snd v] a) bs ab -> shows [px1; py1] c1 -> shows [px2; py2] c2 ->
  lattice_of_arrays (Some a1) (Some a2) ab (Some c1) (Some c2) ph1 ph2 = new_lattice (x1, y1) (x2, y2) bs (px1, py1) (px2, py2) ph1 ph2.
Proof. exact lattice_shapes. Qed.
Print Assumptions C187_lattices.
