(** Specification of the energies of spins that are added one at a time. *)
From Coq Require Import List Arith Lia Reals.
From Verif Require Import Scalars ModelSpins ModelPhase ModelSymmetry.
Import ListNotations.
Local Open Scope R_scope.

(** [S (S + 1)] for the spin [S = T / 2]. *)
Definition casimir (T : nat) : R := INR T / 2 * (INR T / 2 + 1).
(** Twice the total spins that [t / 2] and [s / 2] can have together: from the
    difference to the sum in steps of one spin. *)
Definition total_spins (t s : nat) : list nat := map (fun k => (Nat.max t s - Nat.min t s + 2 * k)%nat) (seq 0 (S (Nat.min t s))).
(** Energies and twice the total spin, each standing for [T + 1] states, of
    [n] spins [s / 2], where spin [i] is coupled to all earlier ones alike by
    [c i * 2 S_i . S_j]. *)
Fixpoint spin_levels (c : nat -> R) (s n : nat) : list (R * nat) :=
  match n with
  | O => [(0, 0%nat)]
  | S m => flat_map (fun f => map (fun T => (fst f + c m * (casimir T - casimir (snd f) - casimir s), T)) (total_spins (snd f) s)) (spin_levels c s m)
  end.
Definition level_energies (l : list (R * nat)) : list R := flat_map (fun f => repeat (fst f) (S (snd f))) l.
(** Each level with the energy of the square of the total spin less those of
    the single spins: [sum_{i<>j} S_i . S_j]. *)
Definition spin_squares (c : nat -> R) (s n : nat) : list (R * nat) :=
  map (fun f => (casimir (snd f) - INR n * casimir s, snd f)) (spin_levels c s n).

(** Every site is coupled alike to all the sites before it, for the three
    components, and there is no field. *)
Definition nested_couplings (sp : spins CR) (c : nat -> R) : Prop :=
  let n := sg_nsites (sp_geom sp) in
  (forall i j, (j < i < n)%nat -> sp_jx sp i j = real (c i) /\ sp_jy sp i j = real (c i) /\ sp_jz sp i j = real (c i)) /\
  (forall i, (i < n)%nat -> sp_hx sp i = k0 /\ sp_hy sp i = k0 /\ sp_hz sp i = k0).
