(** Vocabulary for statements about the optical conductivity at one frequency, written
    without reference to the model. *)
From Coq Require Import List Arith Reals Bool.
From Verif Require Import Scalars Matrix SpecMat SpecThermal.
Import ListNotations.
Local Open Scope R_scope.

(** Kubo's formula: every pair of levels absorbs with the difference of the
    probabilities, at the difference of the energies, broadened by [eta]. *)
Definition kubo_term (J : mat CR) (E : list R) (T w eta : R) (n m : nat) : R :=
  abs2 (ent J n m) * (prob T E m - prob T E n) * lorentz eta (nth n E 0 - nth m E 0 - w) / w.
Definition kubo_at (nsites : nat) (J : mat CR) (E : list R) (T w eta : R) : R :=
  PI / INR nsites * sum_nm (length E) (kubo_term J E T w eta).
(** Matrix element of modulus above 1e-16. *)
Definition visible (J : mat CR) (n m : nat) : Prop := / 10 ^ 32 < abs2 (ent J n m).
(** The same without the matrix elements that are not visible. *)
Definition kubo_visible (nsites : nat) (J : mat CR) (E : list R) (T w eta : R) : R :=
  PI / INR nsites * sum_nm (length E) (fun n m =>
    if Rlt_dec (/ 10 ^ 32) (abs2 (ent J n m)) then kubo_term J E T w eta n m else 0).
(** Absorption from the first level, weighted with the energy of the transition instead of
    the frequency. *)
Definition cold_at (nsites : nat) (J : mat CR) (E : list R) (w eta : R) : R :=
  PI / INR nsites * total (fun n =>
    if Rlt_dec (/ 10 ^ 32) (abs2 (ent J n 0)) then
      if Req_EM_T (nth n E 0) (nth 0 E 0) then 0
      else abs2 (ent J n 0) * lorentz eta (nth n E 0 - nth 0 E 0 - Rabs w) / (nth n E 0 - nth 0 E 0)
    else 0) (seq 0 (length E)).
