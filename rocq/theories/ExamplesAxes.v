(** Concrete cases that meet the hypotheses of C169 and C170. *)
From Coq Require Import List Arith Lia Reals Lra Bool Permutation.
From Verif Require Import Scalars Res Sums Matrix SpecMat ModelBase ModelSpins SpecSpins SpinOps ModelGeometry ModelPhase ModelSymmetry SymBase ModelThermal SpecThermal ThermalBase ThermalBasis SpecAxes Axes AxesTurn AxesRun AxesApi RefuteAxes PropertiesAxes.
Import ListNotations.
Local Open Scope R_scope.

(** Three spins in a row with the couplings 1, 2, 3 along the axes and the fields 4, 5, 6;
    then the axes moved on by one, with the signs of x and y reversed on the middle site. *)
Definition along_row (x : R) (i j : nat) : CR := if (i =? j + 1)%nat then (x, 0) else (0, 0).
Definition three_a : spins CR := Spins (SGeom 3 (fun i j => (i =? j + 1) || (j =? i + 1))%nat (fun _ _ => c1)) 1
  (along_row 1) (along_row 2) (along_row 3) (fun _ => (4, 0)) (fun _ => (5, 0)) (fun _ => (6, 0)).
Definition middle (x y : R) (i : nat) : CR := if (i =? 1)%nat then (y, 0) else (x, 0).
Definition three_b : spins CR := Spins (SGeom 3 (fun i j => (i =? j + 1) || (j =? i + 1))%nat (fun _ _ => c1)) 1
  (along_row 3) (along_row (-1)) (along_row (-2)) (fun _ => (6, 0)) (middle 4 (-4)) (middle 5 (-5)).
Definition at_middle (i : nat) (a : axis) : R := if (i =? 1)%nat then match a with AZ => 1 | _ => -1 end else 1.
Lemma three_moved : redescribed next at_middle three_a three_b.
Proof.
  split; [reflexivity|]. split; [reflexivity|]. split.
  - intros i j a Hij. change (sg_nsites (sp_geom three_a)) with 3%nat in Hij. destruct i as [|[|[|i]]]; [lia | | | lia]; destruct j as [|[|j]]; try lia; destruct a; apply injective_projections; cbn; lra.
  - intros i a Hi. change (sg_nsites (sp_geom three_a)) with 3%nat in Hi. destruct i as [|[|[|i]]]; [| | |lia]; destruct a; apply injective_projections; cbn; lra.
Qed.
Lemma three_allowed : allowed next at_middle three_a.
Proof.
  left. intros i _. unfold at_middle. split; [intros a; destruct (i =? 1)%nat, a; lra|]. left. split; [intros []; reflexivity | destruct (i =? 1)%nat; lra].
Qed.
Lemma row_real x i j : snd (along_row x i j) = 0. Proof. unfold along_row. destruct (i =? j + 1)%nat; reflexivity. Qed.
Lemma middle_real x y i : snd (middle x y i) = 0. Proof. unfold middle. destruct (i =? 1)%nat; reflexivity. Qed.
Lemma three_a_real : real_spins three_a. Proof. split; [intros i j a _; destruct a; apply row_real | intros i a _; destruct a; reflexivity]. Qed.
Lemma three_b_real : real_spins three_b. Proof. split; [intros i j a _; destruct a; apply row_real | intros i a _; destruct a; reflexivity || apply middle_real]. Qed.
Lemma op_at (s : spins CR) i a : sp_two s = 1%nat -> (i < sg_nsites (sp_geom s))%nat -> exists O, single_site_op (sp_sys s) i 0 (spin_along (fun _ => c1) a) Boson = Ok O.
Proof.
  intros half Hi. unfold sp_sys. rewrite half. destruct (single_elem (K:=CR) 2 ltac:(discriminate) (sg_nsites (sp_geom s)) i (spin_along (fun _ => c1) a) ltac:(destruct a; split; reflexivity) Hi (or_introl eq_refl)) as (O & EO & _). exists O. exact EO.
Qed.
(** Same energies, and the average of S^x of the middle site is minus that of S^y. *)
Example ex_moved : exists F F' V V' E E' O O' x, sp_createH (fun _ => c1) three_a None = Ok F /\ sp_createH (fun _ => c1) three_b None = Ok F' /\ eigenbasis F V E /\ eigenbasis F' V' E' /\ Permutation E E' /\
  single_site_op (sp_sys three_a) 1 0 (sx_op (fun _ => c1) 1) Boson = Ok O /\ single_site_op (sp_sys three_b) 1 0 (sy_op (fun _ => c1) 1) Boson = Ok O' /\
  exp_vals_thermal V O E 1 = Ok x /\ exp_vals_thermal V' O' E' 1 = Ok (-1 * x).
Proof.
  destruct (solved (fun _ => c1) three_a eq_refl eq_refl three_a_real) as (F & V & E & EF & B). destruct (solved (fun _ => c1) three_b eq_refl eq_refl three_b_real) as (F' & V' & E' & EF' & B').
  destruct (op_at three_a 1 AX eq_refl ltac:(cbn; lia)) as (O & EO). destruct (op_at three_b 1 AY eq_refl ltac:(cbn; lia)) as (O' & EO').
  destruct (C169_energies (fun _ => c1) three_a three_b next at_middle F F' V V' E E' eq_refl eq_refl three_moved three_allowed EF EF' B B') as (P & _).
  pose proof (rows1 (fun _ => c1) three_a F V E eq_refl EF B) as RV. change (2 ^ sg_nsites (sp_geom three_a))%nat with 8%nat in RV.
  pose proof (some_level (fun _ => c1) three_a F V E eq_refl EF B) as NE.
  destruct (site_expect (fun _ => c1) three_a 1 AX O (fun _ => c1) ltac:(cbn; lia) EO) as ((O1 & O2) & _). change (2 ^ sg_nsites (sp_geom three_a))%nat with 8%nat in O1, O2.
  assert (FV : fits V O E) by (repeat split; [congruence | congruence | apply B | exact NE]).
  exists F, F', V, V', E, E', O, O', (boltzmann 1 (levels E V O)). repeat (split; [assumption|]). split; [apply thermal_finite; [exact FV | lra]|].
  exact (C169_sites (fun _ => c1) three_a three_b next at_middle F F' V V' E E' eq_refl eq_refl three_moved three_allowed EF EF' B B' 1%nat AX O O' 1 _ ltac:(cbn; lia) EO EO' (or_introl R1_neq_R0) (thermal_finite V O E 1 FV R1_neq_R0)).
Qed.

(** Couplings 1, 2, 3 and a field along z only. *)
Definition three_c : spins CR := Spins (SGeom 3 (fun i j => (i =? j + 1) || (j =? i + 1))%nat (fun _ _ => c1)) 1
  (along_row 1) (along_row 2) (along_row 3) (fun _ => (0, 0)) (fun _ => (0, 0)) (middle 6 7).
Lemma three_c_real : real_spins three_c. Proof. split; [intros i j a _; destruct a; apply row_real | intros i a _; destruct a; reflexivity || apply middle_real]. Qed.
Example ex_vanish : exists F V E O, sp_createH (fun _ => c1) three_c None = Ok F /\ eigenbasis F V E /\ single_site_op (sp_sys three_c) 2 0 (sx_op (fun _ => c1) 1) Boson = Ok O /\ exp_vals_thermal V O E 3 = Ok 0.
Proof.
  destruct (solved (fun _ => c1) three_c eq_refl eq_refl three_c_real) as (F & V & E & EF & B). destruct (op_at three_c 2 AX eq_refl ltac:(cbn; lia)) as (O & EO).
  pose proof (rows1 (fun _ => c1) three_c F V E eq_refl EF B) as RV. change (2 ^ sg_nsites (sp_geom three_c))%nat with 8%nat in RV.
  pose proof (some_level (fun _ => c1) three_c F V E eq_refl EF B) as NE.
  destruct (site_expect (fun _ => c1) three_c 2 AX O (fun _ => c1) ltac:(cbn; lia) EO) as ((O1 & O2) & _). change (2 ^ sg_nsites (sp_geom three_c))%nat with 8%nat in O1, O2.
  assert (FV : fits V O E) by (repeat split; [congruence | congruence | apply B | exact NE]).
  assert (T3 : 3 <> 0) by lra. pose proof (thermal_finite V O E 3 FV T3) as EX. exists F, V, E, O. repeat (split; [assumption|]). rewrite EX. f_equal.
  refine (C170_sites (fun _ => c1) three_c AZ F V E eq_refl eq_refl three_c_real _ EF B AX 2%nat O 3 _ ltac:(discriminate) ltac:(cbn; lia) EO (or_introl T3) EX).
  intros a i N _. destruct a; [reflexivity | reflexivity | exfalso; apply N; reflexivity].
Qed.
