(** Vocabulary for statements about the lattice Fermi gas, written without
    reference to the model. *)
From Coq Require Import List Arith Reals ZArith Bool Sorting.
From Verif Require Import Scalars Sums SpecThermal.
Import ListNotations.
Local Open Scope R_scope.

(** Mean occupation of one level of energy [e]: the states with no and with one
    particle have the weights 1 and exp(- b (e - mu)). *)
Definition occupation (b mu e : R) : R := exp (- b * (e - mu)) / (1 + exp (- b * (e - mu))).

(** exp(i x) and the derivative of a complex function. *)
Definition wave (x : R) : CR := (cos x, sin x).
Definition c_deriv (f : R -> CR) (x : R) (d : CR) : Prop :=
  derivable_pt_lim (fun y => fst (f y)) x (fst d) /\ derivable_pt_lim (fun y => snd (f y)) x (snd d).

(** The [n] momenta of a ring; the modes of a chain of [n] sites or a square
    lattice of [n] x [n] sites, their energies and plane waves. *)
Definition momentum (n j : nat) : R := 2 * PI * INR j / INR n.
Inductive shape := Chain | Square.
Definition modes (s : shape) (n : nat) : list (nat * nat) :=
  list_prod (seq 0 n) (match s with Chain => [0%nat] | Square => seq 0 n end).
Definition level_of (s : shape) (n : nat) (p : nat * nat) : R :=
  match s with
  | Chain => -2 * cos (momentum n (fst p))
  | Square => -2 * (cos (momentum n (fst p)) + cos (momentum n (snd p)))
  end.
Definition plane (s : shape) (n : nat) (r : Z * Z) (p : nat * nat) : CR :=
  match s with
  | Chain => wave (momentum n (fst p) * IZR (fst r))
  | Square => wave (momentum n (fst p) * IZR (fst r) + momentum n (snd p) * IZR (snd r))
  end.
Definition mean {A} (g : A -> R) (l : list A) : R := total g l / INR (length l).
Definition c_mean {A} (g : A -> CR) (l : list A) : CR := @kmul CR _ (1 / INR (length l), 0) (klsum l g).
(** The displacement [r] leads back to the same site of the periodic lattice. *)
Definition back (n : nat) (x : Z) : bool := (x mod Z.of_nat n =? 0)%Z.
Definition same_site (s : shape) (n : nat) (r : Z * Z) : bool :=
  match s with Chain => back n (fst r) | Square => back n (fst r) && back n (snd r) end.
(** All displacements on the lattice. *)
Definition sites (s : shape) (n : nat) : list (Z * Z) :=
  map (fun p => (Z.of_nat (fst p), Z.of_nat (snd p))) (modes s n).

(** Two numbers are equal modulo 2 pi. *)
Definition same_angle (x y : R) : Prop := exists z : Z, x - y = 2 * PI * IZR z.
(** The momenta of one axis, and the points of a grid row by row. *)
Definition increasing (l : list R) : Prop := StronglySorted Rlt l.
Definition row_major (kxs kys : list R) : list (R * R) := flat_map (fun ky => map (fun kx => (kx, ky)) kxs) kys.

(** [n] momenta in increasing order in [lo, lo + 2 pi), distinct modulo 2 pi, which
    are allowed on a ring of [n] sites and whose plane waves are orthogonal. *)
Definition good_axis (lo : R) (n : nat) (ks : list R) : Prop :=
  length ks = n /\ increasing ks /\ (forall k, In k ks -> lo <= k < lo + 2 * PI) /\
  (forall k, In k ks -> wave (k * INR n) = k1) /\
  (forall k l, In k ks -> In l ks -> same_angle k l -> k = l) /\
  (forall x, klsum ks (fun k => wave (k * IZR x)) = if back n x then (INR n, 0) else k0).
(** A grid of [nx] times [ny] such momenta. *)
Definition good_grid (lo : R) (nx ny : nat) (points : list (R * R)) : Prop :=
  exists kxs kys, points = row_major kxs kys /\ good_axis lo nx kxs /\ good_axis lo ny kys /\
  (forall r, klsum points (fun k => wave (fst k * IZR (fst r) + snd k * IZR (snd r))) =
             if back nx (fst r) && back ny (snd r) then (INR (nx * ny), 0) else k0).

(** Sizes for which the level spacings are well above the rounding to twelve
    decimals: at least two and at most 10^12 levels. *)
Definition good_size (s : shape) (n : nat) : Prop := (2 <= n)%nat /\ INR (length (modes s n)) <= 10 ^ 12.

(** Joint probabilities of two numbers which are 0 or 1. *)
Definition pair_law := bool -> bool -> R.
Definition law (p : pair_law) : Prop := p false false + p false true + p true false + p true true = 1.
Definition bit (b : bool) : R := if b then 1 else 0.
(** Average of [f] over independent pairs (u, u') and (d, d'). *)
Definition average2 (p q : pair_law) (f : R -> R -> R -> R -> R) : R :=
  total (fun u => total (fun u' => total (fun d => total (fun d' =>
    p u u' * q d d' * f (bit u) (bit u') (bit d) (bit d')) [false; true]) [false; true]) [false; true]) [false; true].
(** Connected correlation of [a] at one site with [a] at the other. *)
Definition connected (p q : pair_law) (a : R -> R -> R) : R :=
  average2 p q (fun u u' d d' => a u d * a u' d')
  - average2 p q (fun u _ d _ => a u d) * average2 p q (fun _ u' _ d' => a u' d').
(** The law has density [n] at both sites and connected correlation [c]. *)
Definition pair_stats (p : pair_law) (n c : R) : Prop :=
  law p /\ p true false + p true true = n /\ p false true + p true true = n /\ p true true = c + n * n.
(** Nearest neighbours of the displacement [r]. *)
Definition neighbours (s : shape) (r : Z * Z) : list (Z * Z) :=
  match s with
  | Chain => [(fst r + 1, snd r); (fst r - 1, snd r)]%Z
  | Square => [(fst r + 1, snd r); (fst r - 1, snd r); (fst r, snd r + 1); (fst r, snd r - 1)]%Z
  end.
(** The imaginary unit, real numbers as complex ones, and the difference. *)
Definition im : CR := (0, 1).
Definition re (x : R) : CR := (x, 0).
Definition c_sub (x y : CR) : CR := @kadd CR _ x (@kopp CR _ y).

(** Density response: energies at k + q, one term of the Lindhard sum for two
    levels (its limit where the denominator vanishes), and the sum. *)
Definition shifted_level (s : shape) (n : nat) (q : R * R) (p : nat * nat) : R :=
  match s with
  | Chain => -2 * cos (momentum n (fst p) + fst q)
  | Square => -2 * (cos (momentum n (fst p) + fst q) + cos (momentum n (snd p) + snd q))
  end.
Definition quotient (x : R) (z : CR) : CR :=
  let d := fst z * fst z + snd z * snd z in (x * fst z / d, - (x * snd z) / d).
Definition vanishes (z : CR) : Prop := fst z = 0 /\ snd z = 0.
Definition lindhard (b mu omega eta e e' : R) (c : CR) : Prop :=
  let z := (omega + e - e', eta) in
  (vanishes z -> c = re (- (b * (occupation b mu e * (1 - occupation b mu e))))) /\
  (~ vanishes z -> c = quotient (occupation b mu e - occupation b mu e') z).
Definition lindhard_sum (s : shape) (n : nat) (b mu : R) (q : R * R) (omega eta : R) (chi : CR) : Prop :=
  exists c, (forall p, In p (modes s n) -> lindhard b mu omega eta (level_of s n p) (shifted_level s n q p) (c p)) /\
  chi = c_mean c (modes s n).

(** Two displacements lead to the same site. *)
Definition same_place (s : shape) (n : nat) (r r' : Z * Z) : bool := same_site s n (fst r - fst r', snd r - snd r')%Z.

(** The widths of bins with the given edges. *)
Fixpoint widths (edges : list R) : list R :=
  match edges with x :: ((y :: _) as t) => y - x :: widths t | _ => [] end.
