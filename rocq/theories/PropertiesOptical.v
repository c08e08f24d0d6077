(** Property theorems C165: the optical conductivity at one frequency. *)
From Coq Require Import List Arith Reals.
From Verif Require Import Scalars Res Matrix SpecMat ModelBase ModelThermal SpecThermal SpecOptical OpticalValue.
Import ListNotations.
Local Open Scope R_scope.

(** C165, false at zero temperature: Hermitian current, one ground state. *)
Theorem C165_cold_refuted : exists J E w eta r,
  square_size J (length E) /\ unique_ground E /\ hermitian (length E) J /\ w <> 0 /\ 0 < eta /\
  (forall n m, (n < length E)%nat -> (m < length E)%nat -> ent J n m = k0 \/ visible J n m) /\
  optical_cond 1 J E 0 w eta = Ok r /\
  (forall T, 0 < T -> optical_cond 1 J E T w eta = Ok (kubo_at 1 J E T w eta)) /\
  ~ tends_at_0 (fun T => kubo_at 1 J E T w eta) r.
Proof. exact cold_not_limit. Qed.
Print Assumptions C165_cold_refuted.
Theorem C165_value_partial : forall nsites J E, square_size J (length E) -> E <> [] -> (0 < nsites)%nat ->
  forall T w eta, T <> 0 -> w <> 0 -> optical_cond nsites J E T w eta = Ok (kubo_visible nsites J E T w eta).
Proof. exact optical_visible. Qed.
Print Assumptions C165_value_partial.
Theorem C165_close_partial : forall nsites J E, square_size J (length E) -> E <> [] -> (0 < nsites)%nat ->
  forall T w eta, T <> 0 -> w <> 0 -> 0 < eta ->
  exists r, optical_cond nsites J E T w eta = Ok r /\
    Rabs (r - kubo_at nsites J E T w eta) <= INR (length E) ^ 2 / (INR nsites * eta * Rabs w * 10 ^ 32).
Proof. exact optical_close. Qed.
Print Assumptions C165_close_partial.
Theorem C165_exact_partial : forall nsites J E, square_size J (length E) -> E <> [] -> (0 < nsites)%nat ->
  forall T w eta, T <> 0 -> w <> 0 ->
  (forall n m, (n < length E)%nat -> (m < length E)%nat -> ent J n m = k0 \/ visible J n m) ->
  optical_cond nsites J E T w eta = Ok (kubo_at nsites J E T w eta).
Proof. exact optical_exact. Qed.
Print Assumptions C165_exact_partial.
Theorem C165_cold_partial : forall nsites J E, square_size J (length E) -> E <> [] ->
  forall w eta, optical_cond nsites J E 0 w eta = Ok (cold_at nsites J E w eta).
Proof. exact optical_cold. Qed.
Print Assumptions C165_cold_partial.
