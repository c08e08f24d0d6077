(** Concrete cases that meet the hypotheses of C176. *)
From Coq Require Import List Arith Lia Reals Lra Bool.
From Verif Require Import Scalars Res Matrix ModelBase ModelGeometry ModelPhase ModelSymmetry ModelThermal SpecThermal ThermalFacts SpecLongtime SymBase Longtime RefuteLongtime PropertiesLongtime.
Import ListNotations.
Local Open Scope R_scope.

(** Two levels, steps of length one: the first state is occupied half of the time. *)
Example ex_half : eigenbasis h2 v2 e2 /\ no_resonance 1 e2 /\ (forall N, exists Ms, quench s2 v2 e2 (steps 1 N) = Ok Ms) /\
  exists C, forall N Ms v, (1 <= N)%nat -> quench s2 v2 e2 (steps 1 N) = Ok Ms -> exp_vals (Columns (nth 0 Ms (mzero 0 0))) o2 = Ok v -> Rabs (mean v - / 2) <= C / INR N.
Proof.
  assert (NR : no_resonance 1 e2).
  { apply C176_steps; [|lra]. pose proof PI2_3_2. intros x y [<-|[<-|[]]] [<-|[<-|[]]]; unfold Rabs; match goal with |- context [Rcase_abs ?a] => destruct (Rcase_abs a) end; lra. }
  split; [exact basis2|]. split; [exact NR|]. split.
  - intros N. destruct (quench_entries s2 v2 e2 (steps 1 N) eq_refl eq_refl) as (Ms & Q & _). exists Ms. exact Q.
  - destruct (C176_mean h2 v2 o2 e2 s2 0 1 basis2 (le_n 1) eq_refl eq_refl NR) as (C & W). exists C. intros N Ms v HN Q EX. specialize (W N Ms v HN Q EX).
    replace (/ 2) with (dephased v2 o2 e2 (col (as_columns s2) 0)); [exact W|]. rewrite dephased_sum. cbn [length e2 seq total fold_right]. rewrite !zz2 by lia. unfold same. cbn [nth e2 fst real].
    destruct (Req_EM_T (-1) (-1)); [|lra]. destruct (Req_EM_T (-1) 1); [lra|]. destruct (Req_EM_T 1 (-1)); [lra|]. destruct (Req_EM_T 1 1); [|lra]. lra.
Qed.
(** The sum over levels gives the same number. *)
Example ex_levels : total (fun k => abs2 (inner 2 (col v2 k) (col (as_columns s2) 0)) * expect 2 o2 (col v2 k)) (seq 0 2) = / 2.
Proof.
  pose proof r2_sq as Q. cbn [seq total fold_right]. unfold abs2, inner, expect, apply, col. cbn. ring_simplify. replace (r2 ^ 4) with (/ 4); [lra|]. replace (r2 ^ 4) with ((r2 * r2) * (r2 * r2)) by ring. rewrite Q. lra.
Qed.
