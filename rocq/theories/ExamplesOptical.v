(** Concrete cases for C165: two levels, one of the matrix elements too small to be seen. *)
From Coq Require Import List Arith Lia Reals Lra.
From Verif Require Import Scalars Res Matrix SpecMat ModelPhase ModelSymmetry SymBase ModelBase ModelThermal SpecThermal ThermalBase ThermalResponse SpecOptical OpticalValue.
Import ListNotations.
Local Open Scope R_scope.

Example Jx_size : square_size Jx (length Ex) /\ Ex <> [] /\ (0 < 1)%nat. Proof. repeat split; try discriminate. lia. Qed.
(** The value at temperature 1 for two levels one apart and frequency 1. *)
Example absorbed : optical_cond 1 Jx Ex 1 1 1 = Ok ((prob 1 Ex 0 - prob 1 Ex 1) * (4 / 5)).
Proof.
  destruct Jx_size as (A & B & C). rewrite (optical_exact 1 Jx Ex A B C 1 1 1) by (try lra; exact Jx_visible). f_equal.
  unfold kubo_at, sum_nm, kubo_term. cbn [length Ex seq total fold_right]. unfold abs2, lorentz. cbn. pose proof pi_pos. field. lra.
Qed.
(** ... which is not zero. *)
Example absorbs : 0 < (prob 1 Ex 0 - prob 1 Ex 1) * (4 / 5).
Proof.
  apply Rmult_lt_0_compat; [|lra]. apply Rlt_Rminus. unfold prob. cbn [Ex nth].
  apply Rmult_lt_compat_r; [apply Rinv_0_lt_compat, weights_pos; discriminate|]. apply exp_increasing. lra.
Qed.
(** Matrix elements of size 1e-17 are left out. *)
Definition J17 : mat CR := Mat 2 2 (fun i j => if (i =? j)%nat then k0 else real (/ 10 ^ 17)).
Example left_out : optical_cond 1 J17 Ex 1 1 1 = Ok 0.
Proof.
  rewrite (optical_visible 1 J17 Ex) by (try lra; try lia; try discriminate; split; reflexivity). f_equal. unfold kubo_visible.
  assert (S : forall n m, ~ / 10 ^ 32 < abs2 (ent J17 n m)).
  { intros n m. unfold abs2. cbn [ent J17]. assert (P : 0 < / 10 ^ 16) by (apply Rinv_0_lt_compat, pow_lt; lra).
    assert (Q : / 10 ^ 32 = / 10 ^ 16 * / 10 ^ 16) by (rewrite <- Rinv_mult, <- pow_add; reflexivity).
    assert (Z : / 10 ^ 17 = / 10 * / 10 ^ 16) by (rewrite <- Rinv_mult; reflexivity).
    rewrite Q. destruct (n =? m)%nat; unfold real; cbn [fst snd]; rewrite ?Z; set (t := / 10 ^ 16) in *; clearbody t; cbn; nra. }
  unfold sum_nm. rewrite (total_ext _ (fun _ => 0)).
  - rewrite total_zero by reflexivity. ring.
  - intros n _. rewrite total_zero; [reflexivity|]. intros m _. destruct (Rlt_dec _ _) as [L|L]; [destruct (S _ _ L)|reflexivity].
Qed.
