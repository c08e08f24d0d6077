(** The symmetry sectors of the named groups. *)
From Coq Require Import List Arith Lia ZArith Reals Lra Bool Ring Setoid Permutation.
From Verif Require Import Scalars Sums Res Matrix SpecMat ModelPhase ModelSymmetry SpecSymmetry
  SymBase SymReduce SymMany SymGroup SymRep SymTable SymZn SymWord SymNum SymGroups.
Import ListNotations.
Local Open Scope nat_scope.

Add Ring CRring : (@k_ring CR CR_StarRing).

Lemma op_sum_msum N l : op_sum N l = msum N l.
Proof. reflexivity. Qed.

Lemma int_table_is rows d : gd_tab d = ints rows -> length (hd [] rows) = length (gd_cls d) -> table_is (int_table rows) d.
Proof.
  intros E1 E2. unfold table_is. rewrite E1. unfold ints. rewrite map_length. cbn [int_table nrow ncol ent].
  split; [reflexivity|]. split; [exact E2|]. intros i j _ _. unfold tb. f_equal.
  transitivity (emb (gint (nth j (nth i rows []) 0%Z))); [rewrite emb_int; reflexivity|]. f_equal.
  change (@nil gold) with (map gint []). rewrite map_nth. change (gint 0) with (gint 0%Z). rewrite map_nth. reflexivity.
Qed.

Section Sectors.
  Variables (N : nat) (G : nat -> cmat) (d : gdata) (T : cmat) (svd : cmat -> cmat) (classes : list (list cmat)).
  Hypothesis Hcheck : check_data d = true.
  Hypothesis HG : obeys N G d.
  Hypothesis HT : table_is T d.
  Hypothesis Hsvd : forall M, row_basis M (svd M).
  Hypothesis Hcl : classes = map (map (xeval N G)) (gd_exps d).
  Hypothesis Hgens : gens_listed d = true.
  Hypothesis Hcen : all (length (gd_tab d)) (central d) = true.
  Hypothesis Hact : all (length (gd_tab d)) (fun a => all (length (gd_cls d)) (action d a)) = true.
  Hypothesis Hdim : forall a, a < length (gd_tab d) -> tb (gd_tab d) a 0 = gint (Z.of_nat (nth a (gd_dims d) 0)).

  Lemma sectors_ok : exists Bs, symmetry_projectors svd N T classes = Ok Bs /\ length Bs = nrow T /\
    symmetry_sectors N (map G (seq 0 (gd_ng d))) Bs /\ class_values N T classes Bs.
  Proof.
    destruct (data_sectors N G d T svd Hcheck HG HT Hsvd) as (Bs & E1 & E2 & E3 & _ & E5 & E6 & E7).
    rewrite <- Hcl in *. pose proof HT as (T1 & T2 & T3). exists Bs.
    split; [exact E1|]. split; [congruence|]. split.
    - split; [exact E3|]. split.
      + intros H HH Hc. apply E5; [assumption|]. intros g Hg. apply Hc. apply in_map, in_seq. lia.
      + intros B A HB HA. apply in_map_iff in HA as (g & <- & Hg). apply in_seq in Hg.
        apply (In_nth _ _ (mzero 0 0)) in HB as (a & Ha & <-). rewrite E2 in Ha.
        apply E6; auto; [lia|]. apply (all_ok _ _ Hcen). assumption.
    - intros a k Ha Hk. rewrite T1 in Ha. rewrite T2 in Hk. rewrite <- op_sum_msum.
      pose proof (E7 a k Ha Hk (all_ok _ _ (all_ok _ _ Hact a Ha) k Hk)) as E.
      change (INR (length (nth k classes [])), 0%R) with (real (INR (length (nth k classes [])))).
      change (Rinv (fst (ent T a 0)), 0%R) with (real (Rinv (fst (ent T a 0)))). rewrite (T3 a O) by lia. rewrite Hdim by assumption. cbn [real fst]. rewrite emb_int, <- INR_IZR_INZ, <- real_mul. exact E.
  Qed.

  Lemma sectors_any : exists Bs, symmetry_projectors svd N T classes = Ok Bs /\ length Bs = nrow T /\ splits N Bs /\
    (forall H, square N H -> (forall A, In A (map G (seq 0 (gd_ng d))) -> meq (mmul A H) (mmul H A)) -> block_diagonal Bs H).
  Proof using Hcheck HG HT Hsvd Hcl.
    destruct (data_sectors N G d T svd Hcheck HG HT Hsvd) as (Bs & E1 & E2 & E3 & _ & E5 & E6 & E7).
    rewrite <- Hcl in *. pose proof HT as (T1 & T2 & T3). exists Bs.
    split; [exact E1|]. split; [congruence|]. split; [exact E3|].
    intros H HH Hc. apply E5; [assumption|]. intros g Hg. apply Hc. apply in_map, in_seq. lia.
  Qed.
End Sectors.

Definition two (N : nat) (R S : cmat) (g : nat) : cmat := match g with O => R | 1 => S | _ => meye N end.

Lemma dihedral_obeys n N R S d : gd_ng d = 2 -> gd_rules d = dihedral_rules n -> dihedral_pair n N R S -> obeys N (two N R S) d.
Proof.
  intros E1 E2 (H1 & H2 & H3 & H4 & H5). pose proof (signed_sq N R H1) as SR. pose proof (signed_sq N S H2) as SS.
  unfold obeys. rewrite E1, E2. split.
  - intros [|[|g]] Hg; [exact H1|exact H2|lia].
  - intros l r [E|[E|[E|[]]]]; injection E as <- <-; cbn [xeval two].
    + rewrite <- (mpow_op_pow N R SR). exact H3.
    + rewrite <- (mpow_op_pow N S SS). exact H4.
    + etransitivity; [exact H5|]. apply mm; [apply mpow_op_pow; exact SR| |reflexivity].
      destruct SS. destruct (mpow_op_pow N R SR (n - 1)) as (_ & X & _). rewrite X. destruct (op_pow_sq N R SR (n - 1)). congruence.
Qed.

Section Dihedral.
  Variables (N : nat) (R S : cmat) (svd : cmat -> cmat).
  Hypothesis Hsvd : forall M, row_basis M (svd M).

  Lemma nrow_S n : dihedral_pair n N R S -> nrow S = N.
  Proof. intros H. apply (signed_sq N S (proj1 (proj2 H))). Qed.

  Theorem d2_ok : dihedral_pair 2 N R S -> exists Bs, d2_projectors svd R S = Ok Bs /\ length Bs = 4 /\
    symmetry_sectors N [R; S] Bs /\ class_values N d2_table (d2_classes R S) Bs.
  Proof.
    intros H. destruct d2_check as (C1 & C2 & C3 & C4). unfold d2_projectors, d2_classes. rewrite (nrow_S 2 H).
    apply (sectors_ok N (two N R S) d2_data d2_table svd); auto; try reflexivity.
    - apply (dihedral_obeys 2); auto.
    - apply int_table_is; reflexivity.
    - intros [|[|[|[|a]]]] Ha; try reflexivity. cbn in Ha. lia.
  Qed.
  Theorem d3_ok : dihedral_pair 3 N R S -> exists Bs, d3_projectors svd R S = Ok Bs /\ length Bs = 3 /\
    symmetry_sectors N [R; S] Bs /\ class_values N d3_table (d3_classes R S) Bs.
  Proof.
    intros H. destruct d3_check as (C1 & C2 & C3 & C4). unfold d3_projectors, d3_classes. rewrite (nrow_S 3 H).
    apply (sectors_ok N (two N R S) d3_data d3_table svd); auto; try reflexivity.
    - apply (dihedral_obeys 3); auto.
    - apply int_table_is; reflexivity.
    - intros [|[|[|a]]] Ha; try reflexivity. cbn in Ha. lia.
  Qed.
  Theorem d4_ok : dihedral_pair 4 N R S -> exists Bs, d4_projectors svd R S = Ok Bs /\ length Bs = 5 /\
    symmetry_sectors N [R; S] Bs /\ class_values N d4_table (d4_classes R S) Bs.
  Proof.
    intros H. destruct d4_check as (C1 & C2 & C3 & C4). unfold d4_projectors, d4_classes. rewrite (nrow_S 4 H).
    apply (sectors_ok N (two N R S) d4_data d4_table svd); auto; try reflexivity.
    - apply (dihedral_obeys 4); auto.
    - apply int_table_is; reflexivity.
    - intros [|[|[|[|[|a]]]]] Ha; try reflexivity. cbn in Ha. lia.
  Qed.
  Theorem d5_ok : dihedral_pair 5 N R S -> exists Bs, d5_projectors svd R S = Ok Bs /\ length Bs = 4 /\
    symmetry_sectors N [R; S] Bs /\ class_values N d5_table (d5_classes R S) Bs.
  Proof.
    intros H. destruct d5_check as (C1 & C2 & C3 & C4). unfold d5_projectors, d5_classes. rewrite (nrow_S 5 H).
    apply (sectors_ok N (two N R S) d5_data d5_table svd); auto; try reflexivity.
    - apply (dihedral_obeys 5); auto.
    - split; [reflexivity|]. split; [reflexivity|]. intros i j Hi Hj. change (i < 4) in Hi. change (j < 4) in Hj.
      cbn [d5_table ent]. unfold tb, emb, phi. f_equal.
      destruct i as [|[|[|[|i]]]]; [| | | |lia]; (destruct j as [|[|[|[|j]]]]; [| | | |lia]); cbn [nth gd_tab d5_data fst snd]; field.
    - intros [|[|[|[|a]]]] Ha; try reflexivity. cbn in Ha. lia.
  Qed.
  Theorem d6_ok : dihedral_pair 6 N R S -> exists Bs, d6_projectors svd R S = Ok Bs /\ length Bs = 6 /\
    symmetry_sectors N [R; S] Bs /\ class_values N d6_table (d6_classes R S) Bs.
  Proof.
    intros H. destruct d6_check as (C1 & C2 & C3 & C4). unfold d6_projectors, d6_classes. rewrite (nrow_S 6 H).
    apply (sectors_ok N (two N R S) d6_data d6_table svd); auto; try reflexivity.
    - apply (dihedral_obeys 6); auto.
    - apply int_table_is; reflexivity.
    - intros [|[|[|[|[|[|a]]]]]] Ha; try reflexivity. cbn in Ha. lia.
  Qed.
End Dihedral.

Definition four (N : nat) (X Y R S : cmat) (g : nat) : cmat :=
  match g with O => X | 1 => Y | 2 => R | 3 => S | _ => meye N end.

Lemma torus_obeys ccw N R S X Y d : gd_ng d = 4 -> gd_rules d = torus_rules ccw -> torus_group ccw N R S X Y ->
  obeys N (four N X Y R S) d.
Proof.
  intros E1 E2 ((H1 & H2 & H3 & H4 & H5) & H6 & H7 & H8 & H9 & H10 & H11 & H12 & H13).
  pose proof (signed_sq N R H1) as SR. pose proof (signed_sq N S H2) as SS.
  pose proof (signed_sq N X H6) as SX. pose proof (signed_sq N Y H7) as SY.
  assert (Hpow : forall A B C k, square N A -> square N B -> meq C (mmul (mpow N A k) B) -> meq C (mmul (op_pow A k) B)).
  { intros A B C k HA (HB & _) E. etransitivity; [exact E|]. apply mm; [apply mpow_op_pow; exact HA| |reflexivity].
    destruct (mpow_op_pow N A HA k) as (_ & Z & _). rewrite Z. destruct (op_pow_sq N A HA k). congruence. }
  unfold obeys. rewrite E1, E2. split.
  - intros [|[|[|[|g]]]] Hg; [exact H6|exact H7|exact H1|exact H2|lia].
  - intros l r Hlr. unfold torus_rules in Hlr. apply in_app_iff in Hlr as [Hlr|Hlr].
    + destruct Hlr as [E|[E|[E|[E|[E|[E|[E|[E|[]]]]]]]]]; injection E as <- <-; cbn [xeval four tX tY tR tS].
      * rewrite <- (mpow_op_pow N X SX). exact H8.
      * rewrite <- (mpow_op_pow N Y SY). exact H9.
      * rewrite <- (mpow_op_pow N R SR). exact H3.
      * rewrite <- (mpow_op_pow N S SS). exact H4.
      * exact H10.
      * apply Hpow; assumption.
      * apply Hpow; assumption.
      * exact H12.
    + destruct ccw; destruct H13 as (K1 & K2); destruct Hlr as [E|[E|[]]]; injection E as <- <-; cbn [xeval four tX tY tR tS];
        try assumption; apply Hpow; assumption.
Qed.

Section Torus.
  Variables (N : nat) (R S X Y : cmat) (svd : cmat -> cmat).
  Hypothesis Hsvd : forall M, row_basis M (svd M).

  Lemma torus_dims_ok d : gd_tab d = ints torus_ints -> gd_dims d = torus_dims ->
    forall a, a < length (gd_tab d) -> tb (gd_tab d) a 0 = gint (Z.of_nat (nth a (gd_dims d) 0)).
  Proof.
    intros -> ->. intros [|[|[|[|[|[|[|[|[|a]]]]]]]]] Ha; try reflexivity. cbn in Ha. lia.
  Qed.

  (** With a clockwise quarter turn. *)
  Theorem torus_cw_ok : torus_group false N R S X Y -> exists Bs, torus_projectors svd R S X Y = Ok Bs /\ length Bs = 9 /\
    symmetry_sectors N [X; Y; R; S] Bs /\ class_values N torus_table (torus_classes R S X Y) Bs.
  Proof.
    intros H. destruct torus_cw_check as (C1 & C2 & C3 & C4).
    unfold torus_projectors. assert (Hr : nrow S = N) by (apply (signed_sq N S); apply H).
    assert (Hcl : torus_classes R S X Y = map (map (xeval N (four N X Y R S))) (gd_exps torus_cw)).
    { unfold torus_classes, torus_c1. rewrite Hr. reflexivity. }
    rewrite Hr. apply (sectors_ok N (four N X Y R S) torus_cw torus_table svd); auto.
    - apply (torus_obeys false); auto.
    - apply int_table_is; reflexivity.
    - apply torus_dims_ok; reflexivity.
  Qed.

  (** With a counterclockwise quarter turn. *)
  Theorem torus_ccw_partial : torus_group true N R S X Y -> exists Bs, torus_projectors svd R S X Y = Ok Bs /\ length Bs = 9 /\
    splits N Bs /\
    (forall H, square N H -> (forall A, In A [X; Y; R; S] -> meq (mmul A H) (mmul H A)) -> block_diagonal Bs H).
  Proof.
    intros H. destruct torus_ccw_check as (C1 & C2 & C3).
    unfold torus_projectors. assert (Hr : nrow S = N) by (apply (signed_sq N S); apply H).
    assert (Hcl : torus_classes R S X Y = map (map (xeval N (four N X Y R S))) (gd_exps torus_ccw)).
    { unfold torus_classes, torus_c1. rewrite Hr. reflexivity. }
    rewrite Hr. apply (sectors_any N (four N X Y R S) torus_ccw torus_table svd); auto.
    - apply (torus_obeys true); auto.
    - apply int_table_is; reflexivity.
  Qed.
End Torus.
