(** Vocabulary for statements about imaginary-time and imaginary-frequency Green's
    functions, written without reference to the model. *)
From Coq Require Import List Arith Reals ZArith Bool.
From Verif Require Import Scalars Sums SpecThermal SpecFermiGas.
Import ListNotations.
Local Open Scope R_scope.

(** The Matsubara frequencies of fermions and bosons at inverse temperature [b]. *)
Definition fermion_frq (b w : R) : Prop := exists n : Z, w = (2 * IZR n + 1) * PI / b.
Definition boson_frq (b w : R) : Prop := exists n : Z, w = 2 * IZR n * PI / b.

(** Trapezoidal integral over a grid of a function given at its points. *)
Definition trapezoid (xs : list R) (y : nat -> CR) : CR :=
  klsum (seq 0 (length xs - 1)) (fun i =>
    @kmul CR _ ((nth (S i) xs 0 - nth i xs 0) / 2, 0) (@kadd CR _ (y i) (y (S i)))).
(** The same for a real function. *)
Definition r_trapezoid (xs : list R) (y : nat -> R) : R :=
  total (fun i => (nth (S i) xs 0 - nth i xs 0) / 2 * (y i + y (S i))) (seq 0 (length xs - 1)).

(** Matrix times vector. *)
Definition row_times (row : list CR) (v : list R) : CR := klsum (combine row v) (fun p => @kmul CR _ (fst p) (snd p, 0)).
Definition r_row_times (row v : list R) : R := total (fun p => fst p * snd p) (combine row v).

(** The integral of [f] from [a] to [b] is [I]: there is a continuous function with
    derivative [f] inside which changes by [I]. *)
Definition c_continuous (F : R -> CR) : Prop :=
  continuity (fun x => fst (F x)) /\ continuity (fun x => snd (F x)).
Definition integral (f : R -> CR) (a b : R) (I : CR) : Prop :=
  exists F, c_continuous F /\ (forall t, a < t < b -> c_deriv F t (f t)) /\ c_sub (F b) (F a) = I.

(** Quotient of complex numbers, as the solution of an equation. *)
Definition is_quotient (x z q : CR) : Prop := z <> k0 /\ @kmul CR _ q z = x.

(** Imaginary-time factor exp(-t w) / (1 + s exp(-b w)), with s = 1 for fermions and
    s = -1 for bosons. *)
Definition thermal_factor (s b t w : R) : R := exp (- (t * w)) / (1 + s * exp (- (b * w))).

(** [n + 1] equally spaced times from 0 to [b]. *)
Definition even_times (b : R) (n : nat) : list R := map (fun j => b * INR j / INR n) (seq 0 (S n)).

(** [f] tends to [L] at infinity. *)
Definition tends_at_infinity (f : R -> R) (L : R) : Prop :=
  forall eps, 0 < eps -> exists B, forall x, B < x -> Rabs (f x - L) < eps.
Definition c_tends_at_infinity (f : R -> CR) (L : CR) : Prop :=
  tends_at_infinity (fun x => fst (f x)) (fst L) /\ tends_at_infinity (fun x => snd (f x)) (snd L).
(** A grid which is its own mirror image. *)
Definition mirror (xs : list R) : Prop := rev xs = map Ropp xs.
