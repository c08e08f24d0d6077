(** Vocabulary for statements about the thermodynamics of a list of energies, written
    without reference to the model. *)
From Coq Require Import List Arith Reals Bool.
From Verif Require Import Scalars Matrix SpecThermal.
Import ListNotations.
Local Open Scope R_scope.

(** Sum over states. *)
Definition zustand (T : R) (E : list R) : R := total (fun e => exp (- e / T)) E.
(** Probability of a state of energy [e]. *)
Definition chance (T : R) (E : list R) (e : R) : R := exp (- e / T) / zustand T E.
Definition mean_energy (T : R) (E : list R) : R := total (fun e => chance T E e * e) E.
(** Missing information. *)
Definition entropy (T : R) (E : list R) : R := - total (fun e => chance T E e * ln (chance T E e)) E.
(** Mean square of the deviation of the energy, over the square of the temperature. *)
Definition heat (T : R) (E : list R) : R := total (fun e => chance T E e * (e - mean_energy T E) ^ 2) E / T ^ 2.
(** How often the energy [x] occurs. *)
Definition occurs (x : R) (E : list R) : R := total (fun e => if Req_EM_T e x then 1 else 0) E.
(** All sums of an energy of one system and an energy of another one. *)
Definition energy_sums (E F : list R) : list R := flat_map (fun e => map (fun f => e + f) F) E.
