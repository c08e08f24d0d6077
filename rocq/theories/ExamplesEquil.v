(** Concrete cases that meet the hypotheses of C181 and C182. *)
From Coq Require Import List Arith Lia Reals Lra QArith Qreals ZArith Bool.
From Verif Require Import Scalars Res Matrix SpecMat SpecFock FockProofs ModelBase ModelFermions HamProofs FermiOps FermiApi SpecShells ExamplesShells ExamplesCurrent PropertiesCurrent ModelCurrent SpecCurrent ModelGeometry ModelPhase ModelSymmetry ModelThermal SpecThermal ThermalFacts Precess SymBase RefuteLongtime
  SpecRates Rates SpecUncertain PropertiesEquil.
From Verif Require CurrentApi PropertiesThermo.
Import ListNotations.
Local Open Scope R_scope.

(** A superposition of the two states, of phase i. *)
Definition turned : states := OneState 2 (fun i => if (i =? 0)%nat then (r2, 0) else (0, r2)).
Lemma hermitian2 : hermitian_op 2 h2 /\ hermitian_op 2 o2.
Proof.
  split; (split; [reflexivity|]; split; [reflexivity|]; intros i j Hi Hj; assert (i = 0 \/ i = 1)%nat as [-> | ->] by lia; assert (j = 0 \/ j = 1)%nat as [-> | ->] by lia; apply injective_projections; cbn; ring).
Qed.
(** Both sides of the uncertainty relation are 1. *)
Example ex_uncertainty : norm2 2 (col (as_columns turned) 0) = 1 /\
  exists a a2 b b2 c, exp_vals turned h2 = Ok [a] /\ exp_vals turned (mmul h2 h2) = Ok [a2] /\ exp_vals turned o2 = Ok [b] /\ exp_vals turned (mmul o2 o2) = Ok [b2] /\ exp_vals turned (rate_op h2 o2) = Ok [c] /\
    c * c = 1 /\ 4 * (variance a a2 * variance b b2) = 1.
Proof.
  pose proof r2_sq as Q. split; [unfold norm2, inner, col; cbn; lra|].
  exists (expect 2 h2 (col (as_columns turned) 0)), (expect 2 (mmul h2 h2) (col (as_columns turned) 0)), (expect 2 o2 (col (as_columns turned) 0)), (expect 2 (mmul o2 o2) (col (as_columns turned) 0)), (expect 2 (rate_op h2 o2) (col (as_columns turned) 0)).
  split; [apply (exp_vals_of turned h2); reflexivity|]. split; [apply (exp_vals_of turned (mmul h2 h2)); reflexivity|]. split; [apply (exp_vals_of turned o2); reflexivity|]. split; [apply (exp_vals_of turned (mmul o2 o2)); reflexivity|]. split; [apply (exp_vals_of turned (rate_op h2 o2)); reflexivity|].
  assert (X1 : expect 2 h2 (col (as_columns turned) 0) = 0) by (unfold expect, inner, apply, col; cbn; ring).
  assert (X2 : expect 2 (mmul h2 h2) (col (as_columns turned) 0) = 1) by (unfold expect, inner, apply, col; cbn; lra).
  assert (X3 : expect 2 o2 (col (as_columns turned) 0) = / 2) by (unfold expect, inner, apply, col; cbn; lra).
  assert (X4 : expect 2 (mmul o2 o2) (col (as_columns turned) 0) = / 2) by (unfold expect, inner, apply, col; cbn; lra).
  assert (X5 : expect 2 (rate_op h2 o2) (col (as_columns turned) 0) = -1) by (unfold expect, inner, apply, col; cbn; lra).
  rewrite X1, X2, X3, X4, X5. unfold variance. split; lra.
Qed.
(** Three sites in a row, interaction [u], three fermions: no current in equilibrium, and the
    current is the rate of change of the position after any quench. *)
Example ex_row3_motion : forall u, exists P idx H V E r J X Y, createH (row3 u) (Some P) = Ok H /\ eigenbasis H V E /\ current_op (Some (-1, 0)) (Some (0, 0)) (row3 u) (first_part AxisX) (second_part AxisX) = Ok r /\ sandwich P (as_matrix (nstates (f_sys (row3 u))) r) = Ok J /\
  rows_are (nstates (f_sys (row3 u))) P idx /\ NoDup idx /\ position_op (row3 u) (along AxisX place3 (fun _ => 0%Q)) X /\ sandwich P X = Ok Y /\ (exists j, exp_vals_thermal V J E 1 = Ok j /\ j = 0).
Proof.
  intros u. destruct (made_basis (row3 u) [2; 1]%nat ltac:(discriminate) eq_refl (row3_us u) (row3_real u)) as (P & idx & H & V & E & EP & SH & EH & B).
  destruct SH as (RA & ND & I). 
  assert (RA' : rows_are (nstates (f_sys (row3 u))) P idx) by exact RA. assert (I' : forall a, In a idx -> (a < nstates (f_sys (row3 u)))%nat) by (intros a Ha; exact (proj1 (proj1 (I a) Ha))).
  assert (SO : idx <> []).
  { intros Z. subst idx. apply (proj2 (I 49%nat)). split; [apply Nat.ltb_lt; reflexivity|]. intros [|[|s]] Hs; try reflexivity. cbn in Hs. lia. }
  assert (T1 : 1 <> 0) by lra.
  destruct (C157_runs (row3 u) place3 (fun _ => 0%Q) (-1, 0) (0, 0) AxisX P idx H V E 1 ltac:(cbn; lia) (row3_open u) (row3_hops u) (row3_us u) RA' I' SO EH B (or_introl T1)) as (r & J & K & M & w & k & ER & EJ & EK & EM & EW & Ek).
  set (O := fun i s => match single_site_op (f_sys (row3 u)) i s n_op Boson with Ok A => A | Raise _ => meye 64 end).
  set (X := Mat 64 64 (fun a b => ksum 3 (fun i => ksum 2 (fun s => @kmul CR _ (along AxisX place3 (fun _ => 0%Q) i, 0) (ent (O i s) a b)))) : mat CR).
  assert (PX : position_op (row3 u) (along AxisX place3 (fun _ => 0%Q)) X).
  { split; [split; reflexivity|]. exists O. split; [|reflexivity]. intros i s Hi Hs.
    destruct (single_ok (K:=CR) (f_sys (row3 u)) i s n_op Boson eq_refl ltac:(discriminate) Hi Hs sq_n) as (A & EA & _). unfold O. rewrite EA. reflexivity. }
  destruct (sandwich_ok (nstates (f_sys (row3 u))) P X (proj1 (proj2 RA')) (proj1 PX)) as (Y & EY & _).
  assert (JT : exists j, exp_vals_thermal V J E 1 = Ok j).
  { pose proof (CurrentApi.J_sec (row3 u) place3 (fun _ => 0%Q) (-1, 0) (0, 0) (row3_open u) (row3_hops u) (row3_us u) AxisX P idx r J H RA' I' ER EJ EH) as (J1 & J2 & _). pose proof (CurrentApi.H_sec (row3 u) (row3_us u) P idx H RA' I' EH) as (H1 & _). assert (HV : nrow H = nrow V) by apply B.
    assert (NZ : nrow V <> 0%nat) by (rewrite <- HV, H1; destruct idx; [congruence | discriminate]).
    destruct (PropertiesThermo.C140_temperature H V E B NZ J ltac:(split; congruence)) as (F & WF & _). exists (F 1). apply WF, T1. }
  destruct JT as (j & Ej).
  exists P, idx, H, V, E, r, J, X, Y. do 8 (split; [assumption|]). exists j. split; [exact Ej|].
  exact (C182_no_current (row3 u) place3 (fun _ => 0%Q) (-1, 0) (0, 0) AxisX P idx r J H V E (row3_open u) (row3_hops u) (row3_us u) RA' I' ER EJ EH B 1 j Ej).
Qed.
