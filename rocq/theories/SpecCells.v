(** Specification of lattices whose sites can be told apart after rounding. *)
From Coq Require Import List Arith QArith Qabs ZArith.
From Verif Require Import SpecGeometry.
Import ListNotations.
Local Open Scope Q_scope.

(** Different sites are more than a unit of the fourteenth decimal apart in
    one of their coordinates. *)
Definition told_apart (v1 v2 : point) (basis : list point) : Prop :=
  forall s t, lattice_site v1 v2 basis s -> lattice_site v1 v2 basis t -> ~ same_point s t ->
    (1 # 100000000000000) < Qabs (fst s - fst t) \/ (1 # 100000000000000) < Qabs (snd s - snd t).

(** No basis vector is another one moved by lattice vectors. *)
Definition proper_basis (v1 v2 : point) (basis : list point) : Prop :=
  forall k l u w, nth_error basis k = Some u -> nth_error basis l = Some w -> equivalent v1 v2 u w -> k = l.

(** Length one, up to the rounding to fourteen decimals. *)
Definition unit_length (v : point) : Prop := Qabs (sq_norm v - 1) <= 2 # 100000000000000.

(** A number that can stand for the height sqrt(3)/2 of an equilateral
    triangle of side one. *)
Definition triangle_height (h : Q) : Prop := 0 < h /\ Qabs (h * h - (3 # 4)) <= 1 # 1000000000000000.

(** Points of triangular and hexagonal lattices: [X] halves to the right and
    [k] rows up.  A rounded site stands at such a point. *)
Definition grid_point (h : Q) (X k : Z) : point := (inject_Z X * (1 # 2), inject_Z k * h).
Definition stands (h : Q) (s : point) (X k : Z) : Prop :=
  fst s == fst (grid_point h X k) /\ Qabs (snd s - snd (grid_point h X k)) <= half_unit.

(** The six steps of length one. *)
Definition unit_step (X k : Z) : Prop :=
  ((X = 2 \/ X = -2) /\ k = 0 \/ (X = 1 \/ X = -1) /\ (k = 1 \/ k = -1))%Z.

(** The rounded heights of two sites differ by [d] rows to within 51e-16. *)
Definition rows_apart (h : Q) (s t : point) (d : Z) : Prop :=
  Qabs (snd s - snd t - inject_Z d * h) <= 51 # 10000000000000000.

(** The six neighbours on the triangular lattice, in units of its vectors. *)
Definition triangular_step (a b : Z) : Prop :=
  ((a = 1 \/ a = -1) /\ b = 0 \/ a = 0 /\ (b = 1 \/ b = -1) \/ a = 1 /\ b = -1 \/ a = -1 /\ b = 1)%Z.

(** The points of the triangular lattice that are corners of hexagons. *)
Definition corner (X k : Z) : Prop := (exists z, X - k = 2 * z)%Z /\ ~ (exists z, X = 3 * z)%Z.

(** The four neighbours on the square lattice. *)
Definition square_step (x y : Z) : Prop := ((x = 1 \/ x = -1) /\ y = 0 \/ x = 0 /\ (y = 1 \/ y = -1))%Z.

(** The double-precision number for sqrt(3)/2. *)
Definition float_height : Q := 3900231685776981 # 4503599627370496.
