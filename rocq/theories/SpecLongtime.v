(** Vocabulary for averages over long times, written without reference to the model. *)
From Coq Require Import List Arith Reals Bool.
From Verif Require Import Scalars Matrix SpecThermal.
Import ListNotations.
Local Open Scope R_scope.

(** Equally spaced times 0, dt, 2 dt, ... *)
Definition steps (dt : R) (N : nat) : list R := map (fun j => INR j * dt) (seq 0 N).
Definition mean (l : list R) : R := total (fun x => x) l / INR (length l).
(** The part of a state that has energy [e]. *)
Definition component (V : mat CR) (E : list R) (psi : nat -> CR) (e : R) (i : nat) : CR :=
  ksum (length E) (fun k => kmul (ent V i k) (if Req_EM_T (nth k E 0) e then inner (nrow V) (col V k) psi else k0)).
(** Expectation value without interference between different energies. *)
Definition dephased (V O : mat CR) (E : list R) (psi : nat -> CR) : R :=
  total (fun e => expect (nrow V) O (component V E psi e)) (nodup Req_EM_T E).
(** Different energies do not come back into phase after one step. *)
Definition no_resonance (dt : R) (E : list R) : Prop := forall x y, In x E -> In y E -> x <> y -> cos (dt * (x - y)) <> 1.
