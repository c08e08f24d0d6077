(** Specification of plane lattices, written with plain arithmetic on pairs of
    rationals. *)
From Coq Require Import List Arith Lia QArith Qabs ZArith Bool.
Import ListNotations.
Local Open Scope Q_scope.

Definition point : Type := (Q * Q)%type.
Definition same_point (v w : point) : Prop := fst v == fst w /\ snd v == snd w.

(** [v + k1 p1 + k2 p2]. *)
Definition moved (v : point) (k1 : Q) (p1 : point) (k2 : Q) (p2 : point) : point :=
  (fst v + k1 * fst p1 + k2 * fst p2, snd v + k1 * snd p1 + k2 * snd p2).

(** Equal up to integer multiples of the two generators. *)
Definition equivalent (p1 p2 v w : point) : Prop :=
  exists k1 k2 : Z, same_point w (moved v (inject_Z k1) p1 (inject_Z k2) p2).

Definition is_zero (v : point) : Prop := same_point v (0, 0).
Definition sq_norm (v : point) : Q := fst v * fst v + snd v * snd v.
Definition dot (v w : point) : Q := fst v * fst w + snd v * snd w.
Definition det (v w : point) : Q := fst v * snd w - snd v * fst w.

(** Longer than half a unit of the fourteenth decimal. *)
Definition long (v : point) : Prop := 1 # 40000000000000000000000000000 < sq_norm v.

(** A pair of generators: each is zero or long, and two that are not zero are
    independent. *)
Definition generators (p1 p2 : point) : Prop :=
  (is_zero p1 \/ long p1) /\ (is_zero p2 \/ long p2) /\
  (long p1 -> long p2 -> ~ det p1 p2 == 0).

(** [a], [b] are the coordinates of [v] along the generators; along a single
    generator the coordinate is that of the orthogonal projection, along a zero
    generator it is zero. *)
Definition coordinates (p1 p2 v : point) (a b : Q) : Prop :=
  (is_zero p1 -> a == 0) /\ (is_zero p2 -> b == 0) /\
  (long p1 -> long p2 -> same_point v (moved (0, 0) a p1 b p2)) /\
  (long p1 -> is_zero p2 -> a * sq_norm p1 == dot p1 v) /\
  (long p2 -> is_zero p1 -> b * sq_norm p2 == dot p2 v).

(** Half a unit of the fourteenth decimal. *)
Definition half_unit : Q := 1 # 200000000000000.

(** A number with at most fourteen decimals. *)
Definition decimal14 (x : Q) : Prop := exists z : Z, x == inject_Z z * (1 # 100000000000000).

(** A site of the lattice generated by [v1], [v2] with the given basis. *)
Definition lattice_site (v1 v2 : point) (basis : list point) (s : point) : Prop :=
  exists (a b : Z) (u : point), In u basis /\ same_point s (moved u (inject_Z a) v1 (inject_Z b) v2).

(** Integer combination of the lattice vectors. *)
Definition commensurate (v1 v2 p : point) : Prop :=
  exists a b : Z, same_point p (moved (0, 0) (inject_Z a) v1 (inject_Z b) v2).

(** One step along an axis of [n] sites: by one, counted modulo [n] if the axis
    is periodic. *)
Definition one_step (open : bool) (n d : Z) : Prop :=
  if open then (d = 1 \/ d = -1)%Z else ((d - 1) mod n = 0 \/ (d + 1) mod n = 0)%Z.

(** A shortest displacement: [d] itself on an open axis; modulo [n], and at
    most half way around, on a periodic one. *)
Definition shortest (open : bool) (n d e : Z) : Prop :=
  if open then e = d else ((e - d) mod n = 0 /\ Z.abs (2 * e) <= n)%Z.

(** Row-major numbering of a rectangular cluster with [ny] sites per column:
    site [k] sits at ([site_x], [site_y]). *)
Definition site_x (ny : Z) (k : nat) : Z := (Z.of_nat k / ny)%Z.
Definition site_y (ny : Z) (k : nat) : Z := (Z.of_nat k mod ny)%Z.

(** Orders of sites. *)
Definition top_left (v w : point) : Prop := snd w < snd v \/ snd v == snd w /\ fst v < fst w.
Definition bottom_right (v w : point) : Prop := snd v < snd w \/ snd v == snd w /\ fst v < fst w.
(** Rows from the top, left to right in rows an even distance below [top],
    right to left in the others. *)
Definition top_alternating (top : Q) (v w : point) : Prop :=
  snd w < snd v \/
  snd v == snd w /\ ((exists z, top - snd v == inject_Z (2 * z)) /\ fst v < fst w \/
                     (exists z, top - snd v == inject_Z (2 * z + 1)) /\ fst w < fst v).
