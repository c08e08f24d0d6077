(** Vocabulary of the statements about the symmetries of rectangular lattices. *)
From Coq Require Import ZArith QArith Qabs Reals List.
From Verif Require Import Scalars Res Matrix ModelBase ModelFermions ModelGeometry ModelPhase ModelSites SpecGeometry.
Import ListNotations.
Local Open Scope Z_scope.

(** A motion of the plane that takes integer points to integer points: exchange
    the coordinates or not, change their signs or not, translate. *)
Record motion := Motion { m_swap : bool; m_sx : bool; m_sy : bool; m_a : Z; m_b : Z }.
Definition signed_z (neg : bool) (x : Z) : Z := if neg then - x else x.
Definition signed_q (neg : bool) (x : Q) : Q := if neg then Qopp x else x.
Definition turned {A} (M : motion) (v : A * A) : A * A := if m_swap M then (snd v, fst v) else v.
Definition move_z (M : motion) (v : Z * Z) : Z * Z :=
  (signed_z (m_sx M) (fst (turned M v)) + m_a M, signed_z (m_sy M) (snd (turned M v)) + m_b M).
Definition move (M : motion) (v : vec) : vec :=
  ((signed_q (m_sx M) (fst (turned M v)) + inject_Z (m_a M))%Q, (signed_q (m_sy M) (snd (turned M v)) + inject_Z (m_b M))%Q).

(** The motion takes the [nx] x [ny] lattice with open or periodic axes to itself. *)
Definition keeps (nx ny : Z) (o1 o2 : bool) (M : motion) : Prop :=
  (m_swap M = true -> nx = ny /\ o1 = o2) /\
  (o1 = true -> m_a M = if m_sx M then nx - 1 else 0) /\
  (o2 = true -> m_b M = if m_sy M then ny - 1 else 0).
(** Translations. *)
Definition shift (a b : Z) : motion := Motion false false false a b.
(** Number of the site at an integer point, counted around periodic axes. *)
Definition spot_at (nx ny : Z) (v : Z * Z) : nat := Z.to_nat ((fst v mod nx) * ny + snd v mod ny).
(** The motion moves some site. *)
Definition moves_some (nx ny : Z) (M : motion) : Prop :=
  exists x y, 0 <= x < nx /\ 0 <= y < ny /\ spot_at nx ny (move_z M (x, y)) <> spot_at nx ny (x, y).

(** Reflection x -> n - 1 - x, turns by a half, by a quarter counterclockwise and
    by a quarter clockwise, about the centre of the lattice. *)
Definition mirror (nx : Z) : motion := Motion false true false (nx - 1) 0.
Definition half_turn (nx ny : Z) : motion := Motion false true true (nx - 1) (ny - 1).
Definition quarter_turn (n : Z) : motion := Motion true true false (n - 1) 0.
Definition back_turn (n : Z) : motion := Motion true false true 0 (n - 1).

(** Two points whose coordinates differ by less than half a unit of the 14th decimal. *)
Definition near_point (v w : vec) : Prop :=
  (Qabs (fst v - fst w) < half_unit /\ Qabs (snd v - snd w) < half_unit)%Q.
(** The map [fn] of the plane takes every site of the lattice where the motion
    takes it, up to errors of rounding. *)
Definition gives {Ph} (nx ny : Z) (g : geometry Ph) (M : motion) (fn : vec -> vec) : Prop :=
  forall i, (i < Z.to_nat (nx * ny))%nat ->
    near_point (fn (nth i (combine (g_x g) (g_y g)) vzero)) (move M (inject_Z (site_x ny i), inject_Z (site_y ny i))).
(** The operator [T] on the states of [f] belongs to the map [fn]: cycles of sites
    are looked for, and an operator is made from them. *)
Definition operator_of (f : fermions CR) (g : geometry CR) (fn : vec -> vec) (T : mat CR) : Prop :=
  exists cs ord, find_site_cycles fn g = Ok (cs, ord) /\ xform_op (f_sys f) (f_swap_op (f_sys f)) cs = Ok (Some T).

(** The same motion of the real plane. *)
Definition signed_r (neg : bool) (x : R) : R := if neg then Ropp x else x.
Definition move_r (M : motion) (v : R * R) : R * R :=
  ((signed_r (m_sx M) (fst (turned M v)) + IZR (m_a M))%R, (signed_r (m_sy M) (snd (turned M v)) + IZR (m_b M))%R).
(** Reflection y -> n - 1 - y. *)
Definition mirror_y (ny : Z) : motion := Motion false false true 0 (ny - 1).
(** Centre of an [nx] x [ny] lattice. *)
Definition centre (nx ny : Z) : R * R := (IZR (nx - 1) / 2, IZR (ny - 1) / 2)%R.
