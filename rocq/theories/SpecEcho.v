(** Vocabulary for the return to the initial state, written without reference to the model. *)
From Coq Require Import List Arith Reals Bool.
From Verif Require Import Scalars Matrix SpecThermal.
Import ListNotations.
Local Open Scope R_scope.

(** Probability to find an eigenstate, and to find an energy. *)
Definition level_weight (V : mat CR) (psi : nat -> CR) (k : nat) : R := abs2 (inner (nrow V) (col V k) psi).
Definition energy_weight (V : mat CR) (E : list R) (psi : nat -> CR) (e : R) : R :=
  total (fun k => if Req_EM_T (nth k E 0) e then level_weight V psi k else 0) (seq 0 (length E)).
(** Probability of the return averaged over long times. *)
Definition participation (V : mat CR) (E : list R) (psi : nat -> CR) : R :=
  total (fun e => energy_weight V E psi e * energy_weight V E psi e) (nodup Req_EM_T E).
(** Squared sizes of one row of overlaps. *)
Definition row_abs2 (L : mat CR) (k : nat) : list R := map (fun a => abs2 (ent L k a)) (seq 0 (ncol L)).
