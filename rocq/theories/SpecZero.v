(** Vocabulary for particles that do not interact at zero temperature. *)
From Coq Require Import List Arith Reals Bool.
From Verif Require Import Scalars Matrix SpecThermal SpecFermiGas.
Import ListNotations.
Local Open Scope R_scope.

(** A level below the chemical potential is full, a level above is empty and a
    level at the chemical potential is full or empty with equal probability. *)
Definition step_weight (e : R) : R := if Rlt_dec e 0 then 1 else if Req_EM_T e 0 then 1 / 2 else 0.
(** <c+_i c_j> of the levels [e] with wave functions in the columns of [U]. *)
Definition filled_zero (U : mat CR) (e : list R) (i j : nat) : CR :=
  ksum (length e) (fun a => kmul (re (step_weight (nth a e 0))) (kmul (kconj (ent U i a)) (ent U j a))).
(** The energy when the levels below the chemical potential are full. *)
Definition sea (l : list R) : R := total (Rmin 0) l.
(** The number of times [x] occurs in [l]. *)
Definition times (x : R) (l : list R) : nat := count_occ Req_EM_T l x.
