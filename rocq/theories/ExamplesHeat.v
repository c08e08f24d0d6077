(** Concrete cases that meet the hypotheses of C143. *)
From Coq Require Import List Arith Lia Reals Lra ZArith QArith Bool Permutation.
From Verif Require Import Scalars Res Sums Matrix SpecMat ModelBase ModelFermions ModelSpins ModelGeometry ModelPhase ModelSymmetry ModelFreeLattice ModelThermal SpecThermal ThermalBase Spectral
  ModelSpinLattice SpinAlg SpinApi ModelRun SpecHeat SymBase HeatRun PropertiesHeat.
From Verif Require SpaceHubbard GeoTotal.
Import ListNotations.
Local Open Scope R_scope.

(** Solvers for the spins on an open row of sites. *)
Lemma row_solver nx : (1 <= nx <= 1000)%Z -> exists g V E, c_square_geometry nx 1 0 0 true true = Ok g /\ g_n g = Z.to_nat nx /\
  forall s H, run_spins g = Ok s -> sp_createH (fun k => real (sqrt (INR k))) s None = Ok H -> eigenbasis H V E.
Proof.
  intros Hn. destruct (GeoTotal.square_total nx 1 0 0 true true ltac:(lia) ltac:(lia) ltac:(lia) ltac:(lia) ltac:(reflexivity) ltac:(reflexivity)) as (g & LG).
  pose proof (SpaceHubbard.sites_n nx 1 true true g ltac:(lia) ltac:(lia) ltac:(lia) ltac:(lia) LG) as NG. rewrite Z.mul_1_r in NG.
  pose proof (SpaceHubbard.phase_one nx 1 true true g ltac:(lia) ltac:(lia) ltac:(lia) ltac:(lia) LG) as PO. rewrite Z.mul_1_r, <- NG in PO.
  destruct (spins_exist g) as (s & ES & NS & TW & HF).
  assert (R1 : roots_ok (fun k => real (sqrt (INR k))) (sp_two s)).
  { rewrite TW. intros i Hi. replace i with 0%nat by lia. change ((0 + 1) * (1 - 0))%nat with 1%nat. cbv beta. change (INR 1) with 1. rewrite sqrt_1. rewrite kofnat_S, kofnat_0. split; apply injective_projections; cbn; ring. }
  destruct (spin_hermitian (fun k => real (sqrt (INR k))) s None eq_refl R1) as (H & EH & (S1 & S2) & HM).
  - intros i j Hi Hj. rewrite NS in Hi. injection ES as <-. cbn [sp_jx sp_jy sp_jz sgeom_of sg_adj sg_phase] in *. specialize (PO i j Hi ltac:(lia)). cbn [fg_phase fgeom_of] in PO. rewrite PO.
    destruct (negb _); cbn [kb]; repeat split; apply injective_projections; cbn; ring.
  - intros i Hi. destruct (HF i) as (-> & -> & ->). repeat split; apply injective_projections; cbn; ring.
  - left. exact TW.
  - assert (HH : hermitian (nrow H) H) by (intros i j Hi Hj; destruct HM as (_ & _ & M); rewrite <- (M i j) by (cbn [madj nrow ncol]; congruence || lia); reflexivity).
    destruct (spectral (nrow H) H HH eq_refl ltac:(congruence)) as (V & E & B).
    exists g, V, E. split; [exact LG|]. split; [exact NG|]. intros s' H' ES' EH'. rewrite ES in ES'. injection ES' as <-. rewrite EH in EH'. injection EH' as <-. exact B.
Qed.
Lemma rt_one : (fun k => real (sqrt (INR k))) 1%nat = k1.
Proof. cbn. rewrite sqrt_1. reflexivity. Qed.

(** One site: two states of energy zero. *)
Example ex_single : exists g eigh, g_n g = 1%nat /\ run_cluster (fun k => real (sqrt (INR k))) eigh g = Ok ([0; 0], map (fun _ => (0, ln 2, 0, 0)) run_temps).
Proof.
  destruct (row_solver 1 ltac:(lia)) as (g & V & E & _ & NG & SV). exists g, (fun _ => (E, V)). split; [exact NG|].
  apply (C143_single_partial _ rt_one (fun _ => (E, V)) g); [exact SV | exact NG].
Qed.
(** Two sites: the script fails. *)
Example ex_two : exists g eigh, g_n g = 2%nat /\ run_cluster (fun k => real (sqrt (INR k))) eigh g = Raise AttributeError.
Proof.
  destruct (row_solver 2 ltac:(lia)) as (g & V & E & _ & NG & SV). exists g, (fun _ => (E, V)). split; [exact NG|].
  apply (C143_script_refuted _ rt_one (fun _ => (E, V)) g); [exact SV | rewrite NG; cbn; lia].
Qed.

(** Two levels. *)
Definition two_levels (a : R) : cmat := mdiag 2 (fun i => real (if (i =? 0)%nat then 0 else a)).
Lemma two_basis a : eigenbasis (two_levels a) (meye 2) [0; a].
Proof.
  split; [split; [reflexivity|]; split; [reflexivity|]; split; [reflexivity|]|split].
  - cbn [meye nrow ncol]. intros i k Hi Hk. destruct i as [|[|i]], k as [|[|k]]; try lia; apply injective_projections; cbn; ring.
  - intros k l Hk Hl. cbn in Hk, Hl. destruct k as [|[|k]], l as [|[|l]]; try lia; apply injective_projections; cbn; ring.
  - intros psi i Hi. cbn in Hi. destruct i as [|[|i]]; try lia; apply injective_projections; cbn; ring.
Qed.
(** Their energy is a / (1 + e^(a/T)); their entropy is ln 2 at high temperature and zero at
    low temperature. *)
Example ex_levels : cluster_thermo (meye 2) (two_levels 1) [0; 1] 1 = Ok (mean_energy 1 [0; 1], entropy 1 [0; 1], heat 1 [0; 1]) /\ mean_energy 1 [0; 1] = 1 / (1 + exp 1) /\
  heat 1 [0; 1] = exp 1 / (1 + exp 1) ^ 2.
Proof.
  split; [apply (C143_quantities _ _ _ (two_basis 1)); [discriminate | lra]|].
  pose proof (exp_pos 1). assert (X : exp (Ropp 1) = / exp 1) by apply exp_Ropp.
  assert (M : mean_energy 1 [0; 1] = 1 / (1 + exp 1)).
  { unfold mean_energy, chance, zustand. cbn. replace (Ropp 0 / 1) with 0 by field. replace (Ropp 1 / 1) with (Ropp 1) by field. rewrite exp_0, X. field. lra. }
  split; [exact M|]. unfold heat. rewrite M. unfold chance, zustand. cbn. replace (Ropp 0 / 1) with 0 by field. replace (Ropp 1 / 1) with (Ropp 1) by field. rewrite exp_0, X. field. lra.
Qed.
Example ex_cold : smallest 0 [0; 1] /\ occurs 0 [0; 1] = 1 /\ smallest 0 [0; 0] /\ occurs 0 [0; 0] = 2.
Proof.
  unfold occurs. cbn. repeat match goal with |- context [Req_EM_T ?x ?y] => destruct (Req_EM_T x y) as [?|?]; try lra end.
  repeat split; try ring; try (left; reflexivity); intros x [<-|[<-|[]]]; lra.
Qed.
(** Two systems of two levels, and the four levels of both together. *)
Definition four_levels : cmat := mdiag 4 (fun i => real (nth i [0; 2; 1; 3] 0)).
Lemma four_basis : eigenbasis four_levels (meye 4) [0; 2; 1; 3].
Proof.
  split; [split; [reflexivity|]; split; [reflexivity|]; split; [reflexivity|]|split].
  - cbn [meye nrow ncol]. intros i k Hi Hk. destruct i as [|[|[|[|i]]]], k as [|[|[|[|k]]]]; try lia; apply injective_projections; cbn; ring.
  - intros k l Hk Hl. cbn in Hk, Hl. destruct k as [|[|[|[|k]]]], l as [|[|[|[|l]]]]; try lia; apply injective_projections; cbn; ring.
  - intros psi i Hi. cbn in Hi. destruct i as [|[|[|[|i]]]]; try lia; apply injective_projections; cbn; ring.
Qed.
Example ex_sums : forall T e1 s1 c1 e2 s2 c2, T <> 0 -> cluster_thermo (meye 2) (two_levels 1) [0; 1] T = Ok (e1, s1, c1) -> cluster_thermo (meye 2) (two_levels 2) [0; 2] T = Ok (e2, s2, c2) ->
  cluster_thermo (meye 4) four_levels [0; 2; 1; 3] T = Ok (e1 + e2, s1 + s2, c1 + c2).
Proof.
  apply (C143_sums _ _ _ _ _ _ _ _ _ (two_basis 1) (two_basis 2) four_basis); try discriminate.
  unfold energy_sums. cbn. replace (0 + 0) with 0 by ring. replace (0 + 2) with 2 by ring. replace (1 + 0) with 1 by ring. replace (1 + 2) with 3 by ring. reflexivity.
Qed.
