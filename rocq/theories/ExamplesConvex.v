(** Concrete cases that meet the hypotheses of C145. *)
From Coq Require Import List Arith Lia Reals Lra ZArith QArith Bool.
From Verif Require Import Scalars Res Sums Matrix SpecMat ModelBase ModelFermions ModelSpins OpsProofs FermiOps ModelGeometry ModelPhase ModelSymmetry ModelFreeLattice ModelThermal SpecThermal ThermalBase Spectral
  SpecFermiGas FreeThermal HalfModes HalfHam SymAverage SpecHeat SpecConvex SymBase SpinAlg SpinOps SpinApi ConvexSpins ExamplesHeat ExamplesZero PropertiesConvex.
From Verif Require HamProofs FermiApi.
Import ListNotations.
Local Open Scope R_scope.

(** Three sites of which the first two exchange particles, solved for all interactions. *)
Lemma dimer_solved (u : nat -> R) : exists H V E, createH (with_interactions dimer_and_atom u) None = Ok H /\ eigenbasis H V E /\ nrow V = nstates (f_sys dimer_and_atom).
Proof.
  assert (RU : HamProofs.real_couplings (with_interactions dimer_and_atom u)).
  { unfold HamProofs.real_couplings. repeat split; intros; try (apply injective_projections; cbn; ring).
    cbn [f_ts with_interactions dimer_and_atom]. unfold HamProofs.real. match goal with |- context [if ?b then _ else _] => destruct b end; apply injective_projections; cbn; ring. }
  destruct (FermiApi.hermitian_api (with_interactions dimer_and_atom u) None (nstates2 _ (HamProofs.f_two _)) (or_introl (le_n 2)) RU) as (H & EH & (S1 & S2) & HH).
  cbn [meye nrow] in S1, S2. assert (HM : hermitian (nrow H) H).
  { destruct HH as (_ & _ & HH). intros i j Hi Hj. specialize (HH i j). cbn [madj nrow ncol ent] in HH. symmetry. apply HH; congruence || lia. }
  destruct (spectral _ H HM eq_refl ltac:(congruence)) as (V & E & B). exists H, V, E. split; [exact EH|]. split; [exact B|].
  destruct B as ((_ & S & _) & _). rewrite <- S. exact S1.
Qed.
(** Pairs on the three sites become rarer when the repulsion rises from zero to
    eight, and the free energy rises by at most eight times the pairs at the start. *)
Example ex_doubles : exists H1 V1 E1 H2 V2 E2 O d1 d2, createH (with_interactions dimer_and_atom (fun _ => 0)) None = Ok H1 /\ eigenbasis H1 V1 E1 /\
  createH (with_interactions dimer_and_atom (fun _ => 8)) None = Ok H2 /\ eigenbasis H2 V2 E2 /\
  (forall i, (i < 3)%nat -> two_site_op (f_sys dimer_and_atom) i 0 i 1 n_op n_op Boson = Ok (O i) /\ exp_vals_thermal V1 (O i) E1 1 = Ok (d1 i) /\ exp_vals_thermal V2 (O i) E2 1 = Ok (d2 i)) /\
  d2 0%nat + d2 1%nat + d2 2%nat <= d1 0%nat + d1 1%nat + d1 2%nat /\ free_energy 1 E1 <= free_energy 1 E2 <= free_energy 1 E1 + 8 * (d1 0%nat + d1 1%nat + d1 2%nat).
Proof.
  destruct (dimer_solved (fun _ => 0)) as (H1 & V1 & E1 & A1 & B1 & R1). destruct (dimer_solved (fun _ => 8)) as (H2 & V2 & E2 & A2 & B2 & R2).
  assert (NP : (0 < nstates (f_sys dimer_and_atom))%nat) by (rewrite (nstates2 _ (HamProofs.f_two _)); apply Nat.neq_0_lt_0, Nat.pow_nonzero; discriminate).
  assert (W : forall i, exists X, (i < 3)%nat -> two_site_op (f_sys dimer_and_atom) i 0 i 1 n_op n_op Boson = Ok (fst (fst X)) /\ exp_vals_thermal V1 (fst (fst X)) E1 1 = Ok (snd (fst X)) /\ exp_vals_thermal V2 (fst (fst X)) E2 1 = Ok (snd X)).
  { intros i. destruct (lt_dec i 3) as [Hi|Hi]; [|exists (mzero 0 0, 0, 0); intros; lia].
    destruct (two_ok (f_sys dimer_and_atom) i 0 i 1 n_op n_op Boson (HamProofs.f_two _) ltac:(discriminate) ltac:(cbn; lia) ltac:(cbn; lia) ltac:(cbn; lia) ltac:(cbn; lia) (sq2 _ _ _ _) (sq2 _ _ _ _)) as (A & EA & SA & _).
    rewrite <- (nstates2 _ (HamProofs.f_two _)) in SA.
    destruct (average_exists H1 V1 E1 1 A B1 ltac:(lia) ltac:(rewrite R1; exact SA) (or_introl R1_neq_R0)) as (x & Ex).
    destruct (average_exists H2 V2 E2 1 A B2 ltac:(lia) ltac:(rewrite R2; exact SA) (or_introl R1_neq_R0)) as (y & Ey).
    exists (A, x, y). intros _. auto. }
  destruct (W 0%nat) as (X0 & W0). destruct (W 1%nat) as (X1 & W1). destruct (W 2%nat) as (X2 & W2).
  set (pick := fun i : nat => match i with 0%nat => X0 | 1%nat => X1 | _ => X2 end).
  assert (P : forall i, (i < 3)%nat -> two_site_op (f_sys dimer_and_atom) i 0 i 1 n_op n_op Boson = Ok (fst (fst (pick i))) /\ exp_vals_thermal V1 (fst (fst (pick i))) E1 1 = Ok (snd (fst (pick i))) /\ exp_vals_thermal V2 (fst (fst (pick i))) E2 1 = Ok (snd (pick i))).
  { intros i Hi. destruct i as [|[|[|i]]]; [apply W0 | apply W1 | apply W2 | ]; lia. }
  pose proof (C145_doubles dimer_and_atom (fun _ => 0) (fun _ => 8) (le_n 2) H1 V1 H2 V2 E1 E2 A1 A2 B1 B2 (fun i => fst (fst (pick i))) (fun i Hi => proj1 (P i Hi)) 1 (fun i => snd (fst (pick i))) (fun i => snd (pick i))
    (fun i Hi => proj1 (proj2 (P i Hi))) (fun i Hi => proj2 (proj2 (P i Hi))) ltac:(lra) (or_introl R1_neq_R0) (or_introl R1_neq_R0)) as D.
  pose proof (C145_interactions dimer_and_atom (fun _ => 0) (fun _ => 8) (le_n 2) H1 V1 H2 V2 E1 E2 A1 A2 B1 B2 (fun i => fst (fst (pick i))) (fun i Hi => proj1 (P i Hi)) 1 (fun i => snd (fst (pick i))) (fun i => snd (pick i))
    (fun i Hi => proj1 (proj2 (P i Hi))) (fun i Hi => proj2 (proj2 (P i Hi))) ltac:(lra)) as F.
  pose proof (C145_repulsion dimer_and_atom (fun _ => 0) (fun _ => 8) (le_n 2) H1 V1 H2 V2 E1 E2 A1 A2 B1 B2 (fun i => fst (fst (pick i))) (fun i Hi => proj1 (P i Hi)) 1 (fun i => snd (fst (pick i))) (fun i => snd (pick i))
    (fun i Hi => proj1 (proj2 (P i Hi))) (fun i Hi => proj2 (proj2 (P i Hi))) ltac:(lra) ltac:(intros; lra)) as G.
  exists H1, V1, E1, H2, V2, E2, (fun i => fst (fst (pick i))), (fun i => snd (fst (pick i))), (fun i => snd (pick i)).
  repeat (split; [assumption|]). cbn [dimer_and_atom f_geom fg_nsites] in D, F. cbn [seq] in D, F.
  cbn in D, F. split; [|split]; cbn; lra.
Qed.

(** Two levels a distance one apart, and a distance two apart. *)
Example ex_levels : forall x1 x2, exp_vals_thermal (meye 2) (msub (two_levels 2) (two_levels 1)) [0; 1] 1 = Ok x1 -> exp_vals_thermal (meye 2) (msub (two_levels 2) (two_levels 1)) [0; 2] 1 = Ok x2 ->
  x2 <= ln (1 + exp (-1)) - ln (1 + exp (-2)) <= x1.
Proof.
  intros x1 x2 X1 X2. pose proof (C145_free_energy _ _ _ _ _ _ (two_basis 1) (two_basis 2) eq_refl ltac:(discriminate) 1 x1 x2 Rlt_0_1 X1 X2) as B.
  unfold free_energy, zustand in B. cbn in B. replace (Ropp 0 / 1) with 0 in B by field. replace (Ropp 1 / 1) with (-1) in B by field. replace (Ropp 2 / 1) with (-2) in B by field. rewrite exp_0, !Rplus_0_r in B. lra.
Qed.
(** The state (1, 1) of the two levels has energy 1 and norm 2. *)
Example ex_state : 0 * norm2 2 (fun _ => c1) <= expect 2 (two_levels 1) (fun _ => c1) /\ expect 2 (two_levels 1) (fun _ => c1) = 1.
Proof.
  split; [apply (C145_states _ _ _ 2 (two_basis 1) eq_refl); split; [left; reflexivity | intros x [<-|[<-|[]]]; lra]|].
  unfold expect, inner, apply. cbn. ring.
Qed.

(** Two neighbouring spins in a field along x at the first site and none at the second. *)
Definition spin_pair : spins CR :=
  Spins (SGeom 2 (fun i j => negb (i =? j)%nat) (fun _ _ => c1)) 1 (fun i j => if (i =? j)%nat then c0 else c1) (fun i j => if (i =? j)%nat then c0 else c1) (fun i j => if (i =? j)%nat then c0 else c1)
    (fun _ => c0) (fun _ => c0) (fun _ => c0).
Notation root := (fun k => real (sqrt (INR k))).
Lemma pair_solved (h : nat -> nat -> R) : exists H V E, sp_createH root (with_fields spin_pair h) None = Ok H /\ eigenbasis H V E /\ nrow V = 4%nat.
Proof.
  assert (R1 : roots_ok (K:=CR) root 1).
  { intros i Hi. replace i with 0%nat by lia. change ((0 + 1) * (1 - 0))%nat with 1%nat. cbv beta. change (INR 1) with 1. rewrite sqrt_1. rewrite kofnat_S, kofnat_0. split; apply injective_projections; cbn; ring. }
  destruct (spin_hermitian root (with_fields spin_pair h) None eq_refl R1) as (H & EH & (S1 & S2) & HM).
  - intros i j _ _. cbn [with_fields spin_pair sp_jx sp_jy sp_jz]. destruct (i =? j)%nat; repeat split; apply injective_projections; cbn; ring.
  - intros i _. cbn [with_fields sp_hx sp_hy sp_hz]. repeat split; apply injective_projections; cbn; ring.
  - left. reflexivity.
  - assert (HH : hermitian (nrow H) H) by (intros i j Hi Hj; destruct HM as (_ & _ & M); rewrite <- (M i j) by (cbn [madj nrow ncol]; congruence || lia); reflexivity).
    destruct (spectral (nrow H) H HH eq_refl ltac:(congruence)) as (V & E & B). exists H, V, E. split; [exact EH|]. split; [exact B|].
    destruct B as ((_ & S & _) & _). rewrite <- S. exact S1.
Qed.
Example ex_moment : exists H1 V1 E1 H2 V2 E2 O p1 p2, sp_createH root (with_fields spin_pair (fun _ _ => 0)) None = Ok H1 /\ eigenbasis H1 V1 E1 /\
  sp_createH root (with_fields spin_pair (fun c i => if (c =? 0)%nat && (i =? 0)%nat then 1 else 0)) None = Ok H2 /\ eigenbasis H2 V2 E2 /\
  single_site_op (sp_sys spin_pair) 0 0 (sx_op root 1) Boson = Ok O /\ exp_vals_thermal V1 O E1 2 = Ok p1 /\ exp_vals_thermal V2 O E2 2 = Ok p2 /\ p1 <= p2.
Proof.
  destruct (pair_solved (fun _ _ => 0)) as (H1 & V1 & E1 & A1 & B1 & R1). destruct (pair_solved (fun c i => if (c =? 0)%nat && (i =? 0)%nat then 1 else 0)) as (H2 & V2 & E2 & A2 & B2 & R2).
  assert (T2 : 2 <> 0) by lra.
  assert (W : forall c i, exists X, (c < 3)%nat -> (i < 2)%nat -> single_site_op (sp_sys spin_pair) i 0 (axis_op root c) Boson = Ok (fst (fst X)) /\ exp_vals_thermal V1 (fst (fst X)) E1 2 = Ok (snd (fst X)) /\ exp_vals_thermal V2 (fst (fst X)) E2 2 = Ok (snd X)).
  { intros c i. destruct (lt_dec i 2) as [Hi|Hi]; [|exists (mzero 0 0, 0, 0); intros; lia].
    destruct (single_elem (K:=CR) 2 ltac:(lia) 2 i (axis_op root c) (axis_square root c) Hi (or_introl eq_refl)) as (A & EA & SA & _). change (2 ^ 2)%nat with 4%nat in SA.
    destruct (average_exists H1 V1 E1 2 A B1 ltac:(lia) ltac:(rewrite R1; exact SA) (or_introl T2)) as (x & Ex).
    destruct (average_exists H2 V2 E2 2 A B2 ltac:(lia) ltac:(rewrite R2; exact SA) (or_introl T2)) as (y & Ey).
    exists (A, x, y). intros _ _. auto. }
  destruct (W 0%nat 0%nat) as (X00 & W00). destruct (W 1%nat 0%nat) as (X10 & W10). destruct (W 2%nat 0%nat) as (X20 & W20).
  destruct (W 0%nat 1%nat) as (X01 & W01). destruct (W 1%nat 1%nat) as (X11 & W11). destruct (W 2%nat 1%nat) as (X21 & W21).
  set (pick := fun c i : nat => match c, i with 0%nat, 0%nat => X00 | 1%nat, 0%nat => X10 | _, 0%nat => X20 | 0%nat, _ => X01 | 1%nat, _ => X11 | _, _ => X21 end).
  assert (P : forall c i, (c < 3)%nat -> (i < 2)%nat -> single_site_op (sp_sys spin_pair) i 0 (axis_op root c) Boson = Ok (fst (fst (pick c i))) /\ exp_vals_thermal V1 (fst (fst (pick c i))) E1 2 = Ok (snd (fst (pick c i))) /\ exp_vals_thermal V2 (fst (fst (pick c i))) E2 2 = Ok (snd (pick c i))).
  { intros c i Hc Hi. destruct c as [|[|[|c]]], i as [|[|i]]; try lia; [apply W00 | apply W01 | apply W10 | apply W11 | apply W20 | apply W21]; lia. }
  pose proof (C145_moments root spin_pair (fun _ _ => 0) (fun c i => if (c =? 0)%nat && (i =? 0)%nat then 1 else 0) eq_refl H1 V1 H2 V2 E1 E2 A1 A2 B1 B2 (fun c i => fst (fst (pick c i))) (fun c i Hc Hi => proj1 (P c i Hc Hi)) 2
    (fun c i => snd (fst (pick c i))) (fun c i => snd (pick c i)) (fun c i Hc Hi => proj1 (proj2 (P c i Hc Hi))) (fun c i Hc Hi => proj2 (proj2 (P c i Hc Hi))) ltac:(lra) (or_introl T2) (or_introl T2)) as D.
  destruct (P 0%nat 0%nat ltac:(lia) ltac:(lia)) as (Q1 & Q2 & Q3).
  exists H1, V1, E1, H2, V2, E2, (fst (fst (pick 0%nat 0%nat))), (snd (fst (pick 0%nat 0%nat))), (snd (pick 0%nat 0%nat)). repeat (split; [assumption|]).
  cbn in D. cbn. lra.
Qed.
