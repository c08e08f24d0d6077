(** Vocabulary for the statements about the remaining methods. *)
From Coq Require Import List Arith Reals.
From Verif Require Import Scalars Sums Matrix ModelBase SpecFermiGas SpecThermal.
Import ListNotations.
Local Open Scope R_scope.

(** [v] is the average of [a k] over levels [E] at temperature [T]; at zero
    temperature over the levels at the lowest energy, which is the first. *)
Definition thermal_mean (T : R) (E : list R) (a : nat -> R) (v : R) : Prop :=
  let l := map (fun k => (nth k E 0, a k)) (seq 0 (length E)) in
  (T <> 0 -> v = boltzmann T l) /\ (T = 0 -> v = average_at (nth 0 E 0) l).

(** Powers of a matrix and the exponential series, entry by entry. *)
Fixpoint mpower (n : nat) (M : mat CR) (k : nat) : mat CR :=
  match k with O => meye n | S k => mmul M (mpower n M k) end.
Definition series_to (a : nat -> R) (l : R) : Prop := Un_cv (sum_f_R0 (fun k => a k / INR (fact k))) l.
Definition is_exponential (M X : mat CR) : Prop :=
  nrow X = nrow M /\ ncol X = nrow M /\
  forall i j, (i < nrow M)%nat -> (j < nrow M)%nat ->
    series_to (fun k => fst (ent (mpower (nrow M) M k) i j)) (fst (ent X i j)) /\
    series_to (fun k => snd (ent (mpower (nrow M) M k) i j)) (snd (ent X i j)).

(** Distance of two points. *)
Definition distance (p q : R * R) : R := sqrt ((fst p - fst q) ^ 2 + (snd p - snd q) ^ 2).

(** At zero temperature the energies must be sorted and levels not within 1e-13
    of each other unless equal. *)
Definition cold_ok (E : list R) (T : R) : Prop := T <> 0 \/ (sorted_list E /\ apart gap13 E).

(** Plane wave with wave vector [q] at a site. *)
Definition site_wave (xs ys : list R) (q : R * R) (i : nat) : CR := wave (nth i xs 0 * fst q + nth i ys 0 * snd q).
Definition overlap (s : sys) (xs ys : list R) (q q' : R * R) : CR :=
  ksum (s_nsites s) (fun i => wave (nth i xs 0 * (fst q - fst q') + nth i ys 0 * (snd q - snd q'))).
(** Momenta and locations of all sites of a ring or a periodic square. *)
Definition wave_vector (sh : shape) (n : nat) (p : nat * nat) : R * R :=
  (momentum n (fst p), match sh with Chain => 0 | Square => momentum n (snd p) end).
Definition lattice_x (sh : shape) (n : nat) : list R := map (fun r => INR (fst r)) (modes sh n).
Definition lattice_y (sh : shape) (n : nat) : list R := map (fun r => INR (snd r)) (modes sh n).
