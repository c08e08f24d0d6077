(** Specification of Fock space on [nl] logical sites, independent of the
    Kronecker-product code: basis state [k] is read as a row of bits, the most
    significant one belonging to logical site 0. *)
From Coq Require Import List Arith Lia Bool QArith.
From Verif Require Import Scalars Matrix.
Import ListNotations.
Local Open Scope nat_scope.

(** Is logical site [q] occupied in basis state [k]? *)
Definition occ (nl k q : nat) : bool := Nat.testbit k (nl - 1 - q).

(** Number of occupied sites with index above [q]. *)
Definition occ_above (nl k q : nat) : nat :=
  length (filter (occ nl k) (seq (q + 1) (nl - 1 - q))).

(** Number of occupied sites among the [ns] sites of species [s]. *)
Definition occ_species (nl ns k s : nat) : nat :=
  length (filter (fun i => occ nl k (ns * s + i)) (seq 0 ns)).

Section Spec.
  Context {K : Type} {SR : StarRing K}.

  (** Matrix elements <a| c^dag_q |b>, <a| c_q |b>, <a| n_q |b>. *)
  Definition cdag_spec (nl q : nat) : mat K :=
    Mat (2 ^ nl) (2 ^ nl) (fun a b =>
      if negb (occ nl b q) && (a =? b + 2 ^ (nl - 1 - q)) then ksign (occ_above nl b q) else k0).
  Definition c_spec (nl q : nat) : mat K :=
    Mat (2 ^ nl) (2 ^ nl) (fun a b =>
      if negb (occ nl a q) && (b =? a + 2 ^ (nl - 1 - q)) then ksign (occ_above nl a q) else k0).
  Definition n_spec (nl q : nat) : mat K :=
    Mat (2 ^ nl) (2 ^ nl) (fun a b => if (a =? b) && occ nl b q then k1 else k0).
  Definition number_spec (nl ns s : nat) : mat K :=
    Mat (2 ^ nl) (2 ^ nl) (fun a b => if a =? b then kofnat (occ_species nl ns b s) else k0).

  (** Unit vector and vacuum. *)
  Definition unit_vec (k : nat) : nat -> K := fun i => if i =? k then k1 else k0.
End Spec.

(** Binomial coefficients by Pascal's rule. *)
Fixpoint binom (n k : nat) : nat :=
  match n, k with
  | _, O => 1
  | O, S _ => 0
  | S n, S k => binom n k + binom n (S k)
  end.
