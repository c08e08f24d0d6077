(** Property theorem C87 for given pairs of sites.  Theorems only. *)
From Coq Require Import List Arith Reals Bool.
From Verif Require Import Scalars Res Matrix ModelThermal SpecThermal ThermalSites GivenPairs.
Import ListNotations.
Local Open Scope R_scope.

(** Given lists of sites are paired one by one, the first list first. *)
Theorem C87_given_pairs : forall st nsites pair_op l1 l2 P, let M := as_columns st in let Q := the_projector P (nrow M) in nrow Q = nrow M ->
  (forall i j, In (i, j) (combine l1 l2) -> exists op, pair_op i j = Ok op /\ nrow op = ncol Q /\ ncol op = ncol Q) ->
  (length l2 < length l1)%nat /\ corr_sites st nsites pair_op (Some (l1, l2)) P = Raise IndexError \/
  (length l1 <= length l2)%nat /\ exists rows, corr_sites st nsites pair_op (Some (l1, l2)) P = Ok (rows, combine l1 l2) /\
    Forall2 (fun p row => exists op, pair_op (fst p) (snd p) = Ok op /\ row = map (fun k => expect (ncol Q) op (lift Q (col M k))) (seq 0 (ncol M))) (combine l1 l2) rows.
Proof. exact given_pairs. Qed.
Print Assumptions C87_given_pairs.
