(** Concrete cases that meet the hypotheses of C156 and C157. *)
From Coq Require Import List Arith Lia Reals Lra ZArith QArith Qabs Qreals Bool.
From Verif Require Import Scalars Res Sums Matrix SqMat SpecMat SpecFock FockProofs FermiOps HamProofs ModelBase ModelFermions FermiApi ModelGeometry ModelPhase ModelSymmetry ModelThermal SpecThermal ThermalBase Spectral
  SpecShells ModelCurrent SpecCurrent PropertiesCurrent ExamplesShells.
Import ListNotations.
Local Open Scope R_scope.

Definition place3 (i : nat) : Q := inject_Z (Z.of_nat i).
Lemma row3_open u : open_bonds (f_geom (row3 u)) place3 (fun _ => 0%Q).
Proof. intros i j Hi Hj A. cbn in Hi, Hj. destruct i as [|[|[|i]]]; try lia; destruct j as [|[|[|j]]]; try lia; try discriminate; (split; [reflexivity|]; split; [reflexivity|]; split; [reflexivity|]; left; split; reflexivity). Qed.
Lemma row3_hops u : hops_along (row3 u) (-1, 0) (0, 0).
Proof. intros i j s Hij Hs. cbn in Hij. destruct i as [|[|[|i]]]; try lia; destruct j as [|[|[|j]]]; try lia; reflexivity. Qed.
(** Two particles of one species and one of the other on three sites in a row. *)
Example ex_row3_rule : forall u, exists P H V E K k w, n_projector (f_sys (row3 u)) (Some [Some 2%nat; Some 1%nat]) = Ok P /\ createH (row3 u) (Some P) = Ok H /\ eigenbasis H V E /\ kinetic_op (row3 u) P AxisX = Ok K /\
  exp_vals_thermal V K E 1 = Ok k /\ w = - (PI * k / 3) /\ exists r J M, current_op (Some (-1, 0)) (Some (0, 0)) (row3 u) (1, 0) (0, 0) = Ok r /\ sandwich P (as_matrix 64 r) = Ok J /\ matrix_elems V J = Ok M /\ integrate_conductivity 3 M E 1 = Ok w.
Proof.
  intros u. destruct (made_basis (row3 u) [2; 1]%nat ltac:(discriminate) eq_refl (row3_us u) (row3_real u)) as (P & idx & H & V & E & EP & SH & EH & B).
  destruct SH as (RA & ND & I). assert (NS : nstates (f_sys (row3 u)) = 64%nat) by reflexivity.
  assert (RA' : rows_are (nstates (f_sys (row3 u))) P idx) by exact RA. assert (I' : forall a, In a idx -> (a < nstates (f_sys (row3 u)))%nat) by (intros a Ha; exact (proj1 (proj1 (I a) Ha))).
  assert (SO : idx <> []).
  { intros Z. subst idx. apply (proj2 (I 49%nat)). split; [apply Nat.ltb_lt; reflexivity|]. intros [|[|s]] Hs; try reflexivity. cbn in Hs. lia. }
  assert (T1 : 1 <> 0) by lra.
  destruct (C157_runs (row3 u) place3 (fun _ => 0%Q) (-1, 0) (0, 0) AxisX P idx H V E 1 ltac:(cbn; lia) (row3_open u) (row3_hops u) (row3_us u) RA' I' SO EH B (or_introl T1)) as (r & J & K & M & w & k & ER & EJ & EK & EM & EW & Ek).
  exists P, H, V, E, K, k, w. split; [exact EP|]. split; [exact EH|]. split; [exact B|]. split; [exact EK|]. split; [exact Ek|]. split.
  - pose proof (C157_sum_rule (row3 u) place3 (fun _ => 0%Q) (-1, 0) (0, 0) AxisX P idx r J H V M K E 1 w k ltac:(cbn; lia) (row3_open u) (row3_hops u) (row3_us u) RA' I' SO ER EJ EH EK B EM (or_introl T1) EW Ek) as R. rewrite R. cbn [row3 f_geom fg_nsites]. rewrite (INR_IZR_INZ 3). reflexivity.
  - exists r, J, M. auto.
Qed.
(** The current is a commutator there, and it is not zero. *)
Example ex_row3_current : forall u, exists r H X, current_op (Some (-1, 0)) (Some (0, 0)) (row3 u) (1, 0) (0, 0) = Ok r /\ createH (row3 u) None = Ok H /\ position_op (row3 u) (fun i => 1 * Q2R (place3 i) + 0 * Q2R 0) X /\
  meq (as_matrix 64 r) (mscale ki (msub (mmul H X) (mmul X H))).
Proof.
  intros u. destruct (C156_current_partial (row3 u) place3 (fun _ => 0%Q) (-1, 0) (0, 0) (row3_open u) (row3_hops u) (row3_us u) 1 0) as (r & ER & W).
  destruct (hermitian_api (row3 u) None eq_refl (row3_us u) (row3_real u)) as (H & EH & _).
  set (O := fun i s => match single_site_op (f_sys (row3 u)) i s n_op Boson with Ok A => A | Raise _ => meye 64 end).
  exists r, H, (Mat 64 64 (fun a b => ksum 3 (fun i => ksum 2 (fun s => @kmul CR _ (1 * Q2R (place3 i) + 0 * Q2R 0, 0) (ent (O i s) a b))))).
  assert (PX : position_op (row3 u) (fun i => 1 * Q2R (place3 i) + 0 * Q2R 0) (Mat 64 64 (fun a b => ksum 3 (fun i => ksum 2 (fun s => @kmul CR _ (1 * Q2R (place3 i) + 0 * Q2R 0, 0) (ent (O i s) a b)))))).
  { split; [split; reflexivity|]. exists O. split; [|reflexivity]. intros i s Hi Hs.
    destruct (single_ok (K:=CR) (f_sys (row3 u)) i s n_op Boson eq_refl ltac:(discriminate) Hi Hs sq_n) as (A & EA & _). unfold O. rewrite EA. reflexivity. }
  split; [exact ER|]. split; [exact EH|]. split; [exact PX|]. exact (W H _ EH PX).
Qed.
