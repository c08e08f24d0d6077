(** Correlations of given pairs of sites. *)
From Coq Require Import List Arith Lia Reals Bool.
From Verif Require Import Scalars Res Sums Matrix SpecMat ModelGeometry ModelPhase ModelSymmetry SymBase ModelBase
  ModelThermal SpecThermal ThermalBase ThermalSectors ThermalBasis ThermalSites ModelRest SpecRest RestThermal.
Import ListNotations.
Local Open Scope R_scope.

Lemma given_pairs st nsites pair_op l1 l2 P : let M := as_columns st in let Q := the_projector P (nrow M) in nrow Q = nrow M ->
  (forall i j, In (i, j) (combine l1 l2) -> exists op, pair_op i j = Ok op /\ nrow op = ncol Q /\ ncol op = ncol Q) ->
  (length l2 < length l1)%nat /\ corr_sites st nsites pair_op (Some (l1, l2)) P = Raise IndexError \/
  (length l1 <= length l2)%nat /\ exists rows, corr_sites st nsites pair_op (Some (l1, l2)) P = Ok (rows, combine l1 l2) /\
    Forall2 (fun p row => exists op, pair_op (fst p) (snd p) = Ok op /\ row = map (fun k => expect (ncol Q) op (lift Q (col M k))) (seq 0 (ncol M))) (combine l1 l2) rows.
Proof.
  cbv zeta. intros HQ H. unfold corr_sites. set (M := as_columns st) in *. set (Q := the_projector P (nrow M)) in *.
  destruct (Nat.lt_ge_cases (length l2) (length l1)) as [L|L]; [left | right]; (split; [exact L|]); [rewrite zip_raises by exact L; reflexivity|].
  rewrite zip_ok by exact L. cbn [bind].
  cut (exists rows, rmap (fun p => op <- pair_op (fst p) (snd p);; full <- conj_by P (nrow M) op;; exp_vals (Columns M) full) (combine l1 l2) = Ok rows /\
    Forall2 (fun p row => exists op, pair_op (fst p) (snd p) = Ok op /\ row = map (fun k => expect (ncol Q) op (lift Q (col M k))) (seq 0 (ncol M))) (combine l1 l2) rows).
  { intros (rows & E & F). exists rows. rewrite E. split; [reflexivity | exact F]. }
  assert (H' : forall p, In p (combine l1 l2) -> exists op, pair_op (fst p) (snd p) = Ok op /\ nrow op = ncol Q /\ ncol op = ncol Q) by (intros [i j] Hp; apply H, Hp).
  clear H. revert H'. generalize (combine l1 l2) as l. induction l as [|i l IH]; intros H; [exists []; split; [reflexivity | constructor]|].
  destruct (H i (or_introl eq_refl)) as (op & E & D1 & D2). destruct IH as (rows & E' & F); [intros; apply H; right; assumption|].
  eexists (_ :: rows). split.
  - cbn [rmap]. rewrite E. cbn [bind]. rewrite (site_row P M op) by assumption. cbn [bind]. rewrite E'. reflexivity.
  - constructor; [|exact F]. exists op. split; [exact E | reflexivity].
Qed.
