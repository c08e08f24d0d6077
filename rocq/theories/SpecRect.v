(** Waves and levels of one particle on a rectangle, each side of which is open
    or closed to a ring. *)
From Coq Require Import List Arith Reals Bool.
From Verif Require Import Scalars Matrix SpecThermal SpecFermiGas SpecFree.
Import ListNotations.
Local Open Scope R_scope.

(** Two sites have one bond, whether the side is closed or not. *)
Definition ring_side (open : bool) (n : nat) : bool := negb open && (3 <=? n)%nat.
(** Sum of the waves at the neighbours, divided by the wave. *)
Definition side_level (open : bool) (n a : nat) : R :=
  if ring_side open n then 2 * cos (momentum n a) else 2 * cos (PI * INR (S a) / INR (S n)).
(** Running waves on a ring, standing waves on an open side. *)
Definition side_wave (open : bool) (n x a : nat) : CR :=
  if ring_side open n then kmul (re (/ sqrt (INR n))) (wave (momentum n a * INR x))
  else re (sqrt (2 / INR (S n)) * sin (INR (S x) * (PI * INR (S a) / INR (S n)))).
(** Level [a] on a rectangle is number [a / ny] of one side and [a mod ny] of the other;
    sites are numbered the same way. *)
Definition rect_waves (o1 o2 : bool) (nx ny : nat) : mat CR :=
  Mat (nx * ny) (nx * ny) (fun i a => kmul (side_wave o1 nx (i / ny) (a / ny)) (side_wave o2 ny (i mod ny) (a mod ny))).
(** Hopping [t], and energy [e] of a particle that does not move. *)
Definition rect_levels (o1 o2 : bool) (nx ny : nat) (t e : R) : list R :=
  map (fun a => e - t * (side_level o1 nx (a / ny) + side_level o2 ny (a mod ny))) (seq 0 (nx * ny)).

(** An open chain of [n] sites. *)
Definition chain_level (n : nat) (j h : R) (a : nat) : R := h + 2 * j * cos (PI * INR (S a) / INR (S n)).
(** <c+_i c_k> at temperature [T] of the standing waves with these levels. *)
Definition chain_green (n : nat) (j h T : R) (i k : nat) : R :=
  total (fun a => fermi_weight T (chain_level n j h a) *
    (2 / INR (S n) * (sin (INR (S i) * (PI * INR (S a) / INR (S n))) * sin (INR (S k) * (PI * INR (S a) / INR (S n)))))) (seq 0 n).
