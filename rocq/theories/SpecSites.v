(** Vocabulary of the statements about coordinate maps and site cycles. *)
From Coq Require Import List Arith QArith Qabs Reals ZArith.
From Verif Require Import Matrix ModelGeometry SpecGeometry ModelSites.
Import ListNotations.

Section Plane.
  Local Open Scope R_scope.
(** Squared distance of two points. *)
Definition dist2 (v w : pt) : R :=
  (fst v - fst w) * (fst v - fst w) + (snd v - snd w) * (snd v - snd w).
(** Orientation of a triangle: twice its signed area. *)
Definition area2 (u v w : pt) : R :=
  (fst v - fst u) * (snd w - snd u) - (snd v - snd u) * (fst w - fst u).
(** The point at distance [r] from [c] in the direction [a]. *)
Definition polar (c : pt) (r a : R) : pt := (fst c + r * cos a, snd c + r * sin a).
End Plane.

Section Points.
  Local Open Scope Q_scope.
(** Two points agree, each coordinate within [tol], up to periodicity vectors. *)
Definition near (L : option lattice) (tol : Q) (v w : vec) : Prop :=
  match L with
  | None => Qabs (fst v - fst w) < tol /\ Qabs (snd v - snd w) < tol
  | Some l => exists a b : Z,
      Qabs (fst v - fst (moved w (inject_Z a) (lt_p1 l) (inject_Z b) (lt_p2 l))) < tol /\
      Qabs (snd v - snd (moved w (inject_Z a) (lt_p1 l) (inject_Z b) (lt_p2 l))) < tol
  end.

(** Two points agree exactly, up to periodicity vectors. *)
Definition on_site (L : option lattice) (v w : vec) : Prop :=
  match L with
  | None => same_point v w
  | Some l => equivalent (lt_p1 l) (lt_p2 l) v w
  end.

Definition usable (L : option lattice) : Prop :=
  match L with None => True | Some l => generators (lt_p1 l) (lt_p2 l) end.
End Points.
