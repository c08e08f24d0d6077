(** Concrete cases that meet the hypotheses of C177. *)
From Coq Require Import List Arith Lia Reals Lra ZArith QArith Bool Permutation.
From Verif Require Import Scalars Res Matrix SqMat SpecMat ModelBase ModelFermions OpsProofs FermiOps FermiApi ModelGeometry ModelPhase ModelSymmetry
  ModelThermal SpecThermal ThermalBase ThermalFacts SpecFermiGas SpecHalf SpecEta ModelFreeLattice SpecFreeLattice SpaceHubbard HalfLattice SpecGauge SpecMus SpecRatios ModelRatios PropertiesGauge PropertiesRatios ExamplesGauge.
From Verif Require LatticeZero.
Import ListNotations.
Local Open Scope R_scope.

(** Five levels, two of them equal. *)
Example ex_five : sorted_list [0; 1; 1; 3; 7] /\ rn [0; 1; 1; 3; 7] = [Fin 0; Fin 0; Fin (1 / 2)] /\ r_mean [0; 1; 1; 3; 7] = Fin (1 / 6).
Proof.
  assert (SE : sorted_list [0; 1; 1; 3; 7]).
  { intros [|[|[|[|[|i]]]]] [|[|[|[|[|j]]]]] Hij; cbn in *; try lia; lra. }
  assert (R0 : spacing_ratio [0; 1; 1; 3; 7] 0 = 0) by (unfold spacing_ratio; cbn [Nat.add nth]; destruct (Req_EM_T (1 - 0) 0); [lra|]; destruct (Req_EM_T (1 - 1) 0); lra).
  assert (R1 : spacing_ratio [0; 1; 1; 3; 7] 1 = 0) by (unfold spacing_ratio; cbn [Nat.add nth]; destruct (Req_EM_T (1 - 1) 0); lra).
  assert (R2 : spacing_ratio [0; 1; 1; 3; 7] 2 = 1 / 2) by (unfold spacing_ratio; cbn [Nat.add nth]; destruct (Req_EM_T (3 - 1) 0); [lra|]; destruct (Req_EM_T (7 - 3) 0); [lra|]; rewrite Rmin_left, Rmax_right by lra; lra).
  split; [exact SE|]. split.
  - rewrite C177_ratios by exact SE. cbn [length Nat.sub seq map]. rewrite R0, R1, R2. reflexivity.
  - rewrite C177_mean by (try exact SE; cbn; lia). cbn [length Nat.sub seq total fold_right INR]. rewrite R0, R1, R2. f_equal. lra.
Qed.
(** Two by three sites with interactions 8 and -8: the statistics in reverse order, with the
    same mean. *)
Example ex_mirror : exists f f' H H' V V' E E', createH f None = Ok H /\ createH f' None = Ok H' /\ eigenbasis H V E /\ eigenbasis H' V' E' /\ fg_nsites (f_geom f) = 6%nat /\ f_us f 0%nat = (8, 0) /\ f_us f' 0%nat = (- (8), 0) /\
  sorted_list E /\ sorted_list E' /\ rn E' = rev (rn E) /\ r_mean E' = r_mean E.
Proof.
  destruct (pair_of 8 (- (8)) 1 1 0 (- 0)) as (g & f & f' & H & H' & V & V' & E & E' & LG & made & made' & EH & EH' & B & B' & NS & NP & VR & VR' & NE).
  assert (made2 : fermions_init (fgeom_of g) (number (- (8))) (numbers 2 (fun _ => 1)) None (numbers 2 (fun _ => - 0)) (number (- 0)) (numbers 2 (fun _ => - 0)) 2 = Ok f') by (replace (number (- 0)) with (number 0) by (rewrite Ropp_0; reflexivity); replace (numbers 2 (fun _ : nat => - 0)) with (numbers 2 (fun _ : nat => 0)) at 2 by (rewrite Ropp_0; reflexivity); exact made').
  destruct (C174_lattice 2 3 true true g 8 0 (fun _ => 1) (fun _ => 0) (fun _ => 0) 2 f f' ltac:(lia) ltac:(lia) ltac:(lia) ltac:(lia) LG made (or_introl eq_refl) (or_introl eq_refl) made2) as (TC & OE).
  assert (US : us_ok f) by (left; lia).
  destruct (LatticeZero.sort_basis H V E B) as (W & F & BW & SF & _). destruct (LatticeZero.sort_basis H' V' E' B') as (W' & F' & BW' & SF' & _).
  exists f, f', H, H', W, W', F, F'. split; [exact EH|]. split; [exact EH'|]. split; [exact BW|]. split; [exact BW'|]. split; [exact NS|].
  destruct (couplings g 8 0 _ _ _ 2 f made) as (_ & _ & _ & FU & _). destruct (couplings g _ _ _ _ _ 2 f' made') as (_ & _ & _ & FU' & _). split; [apply FU|]. split; [rewrite FU'; apply injective_projections; cbn; lra|].
  split; [exact SF|]. split; [exact SF'|].
  exact (C177_mirror (chess 3) f f' None (seq 0 (nstates (f_sys f))) H H' W W' F F' TC OE US eq_refl EH EH' BW BW' SF SF').
Qed.
