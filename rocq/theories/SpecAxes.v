(** Vocabulary for changing the axes along which spins are described. *)
From Coq Require Import List Arith Reals Bool.
From Verif Require Import Scalars Res Matrix ModelBase ModelSpins SpecSpins SpecThermal.
Import ListNotations.
Local Open Scope R_scope.

Inductive axis := AX | AY | AZ.
Definition next (a : axis) : axis := match a with AX => AY | AY => AZ | AZ => AX end.
(** Couplings and fields along an axis, and the spin matrix. *)
Definition coupling_along (s : spins CR) (a : axis) : nat -> nat -> CR := match a with AX => sp_jx s | AY => sp_jy s | AZ => sp_jz s end.
Definition field_along (s : spins CR) (a : axis) : nat -> CR := match a with AX => sp_hx s | AY => sp_hy s | AZ => sp_hz s end.
Definition spin_along (rt : nat -> CR) (a : axis) : mat CR := match a with AX => sx_op rt 1 | AY => sy_op rt 1 | AZ => sz_op 1 end.

(** The axis [a] becomes [p a], with the sign [g a]: a rotation, or a rotation followed
    by a mirror image. *)
Definition in_order (p : axis -> axis) : Prop := forall a, p (next a) = next (p a).
Definition out_of_order (p : axis -> axis) : Prop := forall a, p a = next (p (next a)).
Definition sign_of (g : axis -> R) : Prop := forall a, g a = 1 \/ g a = -1.
Definition rotation (p : axis -> axis) (g : axis -> R) : Prop :=
  sign_of g /\ (in_order p /\ g AX * g AY * g AZ = 1 \/ out_of_order p /\ g AX * g AY * g AZ = -1).
Definition mirrored (p : axis -> axis) (g : axis -> R) : Prop :=
  sign_of g /\ (in_order p /\ g AX * g AY * g AZ = -1 \/ out_of_order p /\ g AX * g AY * g AZ = 1).

(** [s'] is [s] described with other axes, the same on all sites up to the signs. *)
Definition redescribed (p : axis -> axis) (g : nat -> axis -> R) (s s' : spins CR) : Prop :=
  let n := sg_nsites (sp_geom s) in
  sg_nsites (sp_geom s') = n /\ sp_two s' = sp_two s /\
  (forall i j a, (j < i < n)%nat -> coupling_along s' (p a) i j = @kmul CR _ (g i a * g j a, 0) (coupling_along s a i j)) /\
  (forall i a, (i < n)%nat -> field_along s' (p a) i = @kmul CR _ (g i a, 0) (field_along s a i)).
(** All couplings and fields are real. *)
Definition real_spins (s : spins CR) : Prop :=
  let n := sg_nsites (sp_geom s) in
  (forall i j a, (j < i < n)%nat -> snd (coupling_along s a i j) = 0) /\ (forall i a, (i < n)%nat -> snd (field_along s a i) = 0).
(** All sites are described with rotated axes, or all with mirror images. *)
Definition allowed (p : axis -> axis) (g : nat -> axis -> R) (s : spins CR) : Prop :=
  let n := sg_nsites (sp_geom s) in
  (forall i, (i < n)%nat -> rotation p (g i)) \/ (real_spins s /\ forall i, (i < n)%nat -> mirrored p (g i)).
