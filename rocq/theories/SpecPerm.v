(** Specification of a permutation given by disjoint cycles. *)
From Coq Require Import List Arith Lia Bool.
Import ListNotations.

(** The element following [x] in a cycle (the first one if [x] is the last);
    [x] itself if it is not in the cycle. *)
Fixpoint follow (first : nat) (c : list nat) (x : nat) : nat :=
  match c with
  | [] => x
  | a :: t => if x =? a then match t with [] => first | b :: _ => b end else follow first t x
  end.
Definition next_in_cycle (c : list nat) (x : nat) : nat :=
  match c with [] => x | a :: _ => follow a c x end.

(** Exchange of two elements. *)
Definition exchange (p q x : nat) : nat := if x =? p then q else if x =? q then p else x.

(** The permutation of a list of cycles: look for the cycle containing [x]. *)
Fixpoint cycles_perm (cs : list (list nat)) (x : nat) : nat :=
  match cs with
  | [] => x
  | c :: t => if existsb (Nat.eqb x) c then next_in_cycle c x else cycles_perm t x
  end.

(** A list of disjoint cycles of sites [0..n-1]. *)
Definition valid_cycles (n : nat) (cs : list (list nat)) : Prop :=
  NoDup (concat cs) /\ forall x, In x (concat cs) -> x < n.

Fixpoint iter {A} (f : A -> A) (n : nat) (x : A) : A :=
  match n with O => x | S m => f (iter f m x) end.

Lemma iter_add {A} (f : A -> A) m n x : iter f (m + n) x = iter f m (iter f n x).
Proof. induction m; simpl; [reflexivity|]. rewrite IHm. reflexivity. Qed.

Example cycles_perm_ex :
  map (cycles_perm [[0; 2; 1]; [3]; [4; 5]]) (seq 0 7) = [2; 0; 1; 3; 5; 4; 6].
Proof. reflexivity. Qed.
