(** The two response functions put the line of an operator at opposite frequencies. *)
From Coq Require Import List Arith Lia Reals Lra Bool.
From Verif Require Import Scalars Res Sums Matrix SpecMat ModelGeometry ModelPhase ModelSymmetry SymBase ModelBase ModelThermal
  SpecThermal ThermalBase ThermalFacts ThermalBasis ThermalResponse SpecPrecess Precess PrecessResp.
Import ListNotations.
Local Open Scope R_scope.

Definition two_levels : mat CR := Mat 2 2 (fun i j => if ((i =? 1) && (j =? 1))%nat then c1 else c0).
Definition up : mat CR := Mat 2 2 (fun i j => if ((i =? 1) && (j =? 0))%nat then c1 else c0).
Definition down : mat CR := Mat 2 2 (fun i j => if ((i =? 0) && (j =? 1))%nat then c1 else c0).
Ltac pairs := apply injective_projections; cbn; ring.
Lemma two_basis : eigenbasis two_levels (meye 2) [0; 1].
Proof.
  split; [|split].
  - split; [reflexivity|]. split; [reflexivity|]. split; [reflexivity|]. intros i k Hi Hk. change (nrow (meye 2)) with 2%nat in *. change (ncol (meye 2)) with 2%nat in *. destruct i as [|[|]], k as [|[|]]; try lia; pairs.
  - intros i j Hi Hj. change (ncol (meye 2)) with 2%nat in *. destruct i as [|[|]], j as [|[|]]; try lia; pairs.
  - intros psi i Hi. change (nrow (meye 2)) with 2%nat in *. destruct i as [|[|]]; try lia; pairs.
Qed.
Lemma up_shifts : shifts 2 two_levels up 1.
Proof. intros psi a Ha. destruct a as [|[|]]; try lia; pairs. Qed.
Lemma elems_up : exists A, matrix_elems (meye 2) up = Ok A. Proof. eexists. reflexivity. Qed.
Lemma elems_down : exists B, matrix_elems (meye 2) down = Ok B. Proof. eexists. reflexivity. Qed.
Lemma opposite : exists H V E O P A B, eigenbasis H V E /\ nrow V = 2%nat /\ shifts 2 H O 1 /\ matrix_elems V O = Ok A /\ matrix_elems V P = Ok B /\
  forall eta, 0 < eta -> exists r1 r2 z1 z2,
    response_retarded A B E 0 BosonFmt (-1) eta = Ok r1 /\ response_retarded A B E 0 BosonFmt 1 eta = Ok r2 /\ Rabs r2 < Rabs r1 /\
    response_time_ordered A B E 1 (-1) eta = Ok z1 /\ response_time_ordered A B E 1 1 eta = Ok z2 /\ Rabs (fst z1) < Rabs (fst z2).
Proof.
  destruct elems_up as (A & EA), elems_down as (B & EB). exists two_levels, (meye 2), [0; 1], up, down, A, B.
  split; [exact two_basis|]. split; [reflexivity|]. split; [exact up_shifts|]. split; [exact EA|]. split; [exact EB|]. intros eta He.
  pose proof PI_RGT_0 as PP.
  assert (L : lorentz eta 2 < lorentz eta 0).
  { unfold lorentz. unfold Rdiv. apply Rmult_lt_compat_l; [apply Rmult_lt_0_compat; [exact He | apply Rinv_0_lt_compat, PP]|]. apply Rinv_lt_contravar; nra. }
  pose proof (lorentz_pos eta 2 He) as L2.
  assert (RT : forall w, exists r, response_retarded A B [0; 1] 0 BosonFmt w eta = Ok r).
  { intros w. destruct (retarded_zero A B [0; 1] BosonFmt w eta) as (r & ER & _); [| | | discriminate | exists r; exact ER].
    - injection EA as <-. split; reflexivity.
    - injection EB as <-. split; reflexivity.
    - split; [discriminate|]. intros k Hk. cbn in Hk. destruct k as [|[|]]; [lia | cbn; lra | lia]. }
  assert (SA : square_size A 2 /\ square_size B 2) by (injection EA as <-; injection EB as <-; repeat split; reflexivity). destruct SA as (SA & SB).
  assert (RV : forall w r, response_retarded A B [0; 1] 0 BosonFmt w eta = Ok r -> r = - (PI * lorentz eta (w + 1))).
  { intros w r ER. rewrite (retarded_line_cold two_levels (meye 2) up down A B [0; 1] 2 1 w eta two_basis eq_refl ltac:(discriminate) eq_refl eq_refl eq_refl eq_refl EA EB up_shifts BosonFmt r ltac:(discriminate) ER). cbn [fmt_sign].
    replace (expect 2 (mmul up down) (col (meye 2) 0)) with 0 by (cbn; ring). replace (expect 2 (mmul down up) (col (meye 2) 0)) with 1 by (cbn; ring). ring. }
  assert (ZV : forall w, exists z, response_time_ordered A B [0; 1] 1 w eta = Ok z /\ fst z = PI * lorentz eta (w - 1) * (prob 1 [0; 1] 0 - prob 1 [0; 1] 1)).
  { intros w. destruct (time_ordered_finite A B [0; 1] w eta fst SA SB ltac:(discriminate) (or_introl eq_refl) 1 R1_neq_R0) as (z & EZ & FZ). exists z. split; [exact EZ|]. rewrite FZ.
    injection EA as <-. injection EB as <-. unfold sum_nm. cbn [length seq]. rewrite !total_cons, !total_nil. cbn [nth].
    replace (w - (1 - 0)) with (w - 1) by ring. cbn. ring. }
  assert (PD : 0 < prob 1 [0; 1] 0 - prob 1 [0; 1] 1).
  { unfold prob. cbn [nth]. rewrite !total_cons, total_nil. assert (X : exp (- (1) / 1) < exp (- 0 / 1)) by (apply exp_increasing; lra). pose proof (exp_pos (- (1) / 1)). pose proof (exp_pos (- 0 / 1)).
    match goal with |- 0 < ?a / ?z - ?b / ?z => replace (a / z - b / z) with ((a - b) * / z) by (unfold Rdiv; ring) end. apply Rmult_lt_0_compat; [lra|]. apply Rinv_0_lt_compat. lra. }
  destruct (RT (-1)) as (r1 & E1), (RT 1) as (r2 & E2), (ZV (-1)) as (z1 & Z1 & F1), (ZV 1) as (z2 & Z2 & F2). exists r1, r2, z1, z2.
  split; [exact E1|]. split; [exact E2|]. split.
  - rewrite (RV _ _ E1), (RV _ _ E2), !Rabs_Ropp. replace (-1 + 1) with 0 by ring. replace (1 + 1) with 2 by ring. rewrite !Rabs_pos_eq by (apply Rmult_le_pos; lra). apply Rmult_lt_compat_l; assumption.
  - split; [exact Z1|]. split; [exact Z2|]. rewrite F1, F2. replace (-1 - 1) with (- (2)) by ring. replace (1 - 1) with 0 by ring. rewrite lorentz_even. rewrite !Rabs_pos_eq by (apply Rmult_le_pos; [apply Rmult_le_pos|]; lra). apply Rmult_lt_compat_r; [exact PD|]. apply Rmult_lt_compat_l; assumption.
Qed.
