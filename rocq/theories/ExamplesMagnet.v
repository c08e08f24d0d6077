(** Concrete cases that meet the hypotheses of C178. *)
From Coq Require Import List Arith Lia Reals Lra ZArith QArith Bool Permutation.
From Verif Require Import Scalars Res Sums Matrix SpecMat ModelBase ModelSpins SpecSpins ModelGeometry ModelPhase ModelSymmetry ModelThermal SpecThermal ThermalBase ThermalFacts Spectral
  SymAverage SpecSigns SpecSectors SymBase SpinAlg SpinOps SpinApi ExamplesConvex ExamplesSigns ExamplesSectors Precess SpecMagnet PropertiesMagnet.
From Verif Require Magnet SignsSpins Thermo ExamplesAxes SpecAxes Sectors.
From Verif Require Import SymBase.
Import ListNotations.
Local Open Scope R_scope.

(** Three spins in a row in a field along z. *)
Definition lifted (x : R) : spins CR := let s := row 1 in Spins (sp_geom s) 1 (sp_jx s) (sp_jy s) (sp_jz s) (sp_hx s) (sp_hy s) (fun _ => (x, 0)).
Lemma lifted_more x : round_axis (lifted 0) /\ magnetised x (lifted 0) (lifted x).
Proof.
  split; [split; [reflexivity | intros; split; reflexivity]|]. split; [reflexivity|]. split; [reflexivity|]. split; [intros; repeat split; reflexivity|].
  intros i _. split; [reflexivity|]. split; [reflexivity|]. apply injective_projections; cbn; ring.
Qed.
Lemma lifted_solved x pr : match pr with Some P => ncol P = 8%nat | None => True end -> exists F V E, sp_createH root (lifted x) pr = Ok F /\ eigenbasis F V E.
Proof.
  intros C. assert (R1 : roots_ok (K:=CR) root 1).
  { intros i Hi. replace i with 0%nat by lia. change ((0 + 1) * (1 - 0))%nat with 1%nat. cbv beta. change (INR 1) with 1. rewrite sqrt_1. rewrite kofnat_S, kofnat_0. split; apply injective_projections; cbn; ring. }
  destruct (spin_hermitian root (lifted x) pr ltac:(destruct pr; [exact C | reflexivity]) R1) as (H & EH & (S1 & S2) & HM).
  - intros i j _ _. cbn [lifted row sp_jx sp_jy sp_jz]. destruct (next i j); repeat split; apply injective_projections; cbn; ring.
  - intros i _. repeat split; apply injective_projections; cbn; ring.
  - left. reflexivity.
  - assert (HH : hermitian (nrow H) H) by (intros i j Hi Hj; destruct HM as (_ & _ & M); rewrite <- (M i j) by (cbn [madj nrow ncol]; congruence || lia); reflexivity).
    destruct (spectral (nrow H) H HH eq_refl ltac:(congruence)) as (V & E & B). exists H, V, E. auto.
Qed.
(** A superposition of states with different moments: the first spin along z moves alike in
    fields 0 and 3. *)
Definition tangled : states := OneState 8 (fun i => if (i =? 1)%nat then (3 / 5, 0) else if (i =? 6)%nat then (4 / 5, 0) else c0).
Example ex_field : exists F F' V V' E E' O Ms Ms' v, sp_createH root (lifted 0) None = Ok F /\ sp_createH root (lifted 3) None = Ok F' /\ eigenbasis F V E /\ eigenbasis F' V' E' /\
  single_site_op (sp_sys (lifted 0)) 0 0 (sz_op 1) Boson = Ok O /\ quench tangled V E [1; 2] = Ok Ms /\ quench tangled V' E' [1; 2] = Ok Ms' /\
  exp_vals (Columns (nth 0 Ms (mzero 0 0))) O = Ok v /\ exp_vals (Columns (nth 0 Ms' (mzero 0 0))) O = Ok v /\ length v = 2%nat.
Proof.
  destruct (lifted_solved 0 None I) as (F & V & E & EF & B). destruct (lifted_solved 3 None I) as (F' & V' & E' & EF' & B'). destruct (lifted_more 3) as (RA & MG).
  destruct (ExamplesAxes.op_at (lifted 0) 0 SpecAxes.AZ eq_refl ltac:(cbn; lia)) as (O & EO). cbn [SpecAxes.spin_along] in EO. pose proof (axial_site root (lifted 0) 0 O ltac:(cbn; lia) EO) as AX.
  destruct (Magnet.axial_keeps root (lifted 0) 0 root_one eq_refl O AX) as (O1 & O2 & _).
  destruct (SignsSpins.spin_ent root (lifted 0) F eq_refl EF) as (S1 & _). destruct (SignsSpins.spin_ent root (lifted 3) F' eq_refl EF') as (S1' & _).
  assert (RV : nrow V = 8%nat) by (destruct B as ((_ & X & _) & _); rewrite <- X; exact S1). assert (RV' : nrow V' = 8%nat) by (destruct B' as ((_ & X & _) & _); rewrite <- X; exact S1'). change (2 ^ sg_nsites (sp_geom (lifted 0)))%nat with 8%nat in O1, O2.
  destruct (quench_entries tangled V E [1; 2] RV ltac:(apply B)) as (Ms & Q & _). destruct (quench_entries tangled V' E' [1; 2] RV' ltac:(apply B')) as (Ms' & Q' & _).
  assert (EX : exists x, exp_vals (Columns (nth 0 Ms (mzero 0 0))) O = Ok x /\ length x = 2%nat).
  { eexists. split; [apply (path_of V E tangled [1; 2] Ms 0 O Q (le_n 1)); congruence|]. rewrite map_length, seq_length. reflexivity. }
  destruct EX as (v & EX & LX). exists F, F', V, V', E, E', O, Ms, Ms', v. repeat (split; [assumption|]). split; [|exact LX].
  exact (C178_motion root (lifted 0) (lifted 3) 3 F F' V V' E E' root_one eq_refl RA MG EF EF' B B' O tangled 0%nat [1; 2] Ms Ms' v AX (le_n 1) Q Q' EX).
Qed.
(** One flipped spin of three: energies lower by 3/2, the same averages at temperature one. *)
Example ex_sector : exists H H' V V' E E' v, sp_createH root (lifted 0) (Some one_flip) = Ok H /\ sp_createH root (lifted 3) (Some one_flip) = Ok H' /\ eigenbasis H V E /\ eigenbasis H' V' E' /\
  Permutation (map (fun e => e - 3 / 2) E) E' /\ exp_vals_thermal V H E 1 = Ok v /\ exp_vals_thermal V' H E' 1 = Ok v.
Proof.
  destruct (lifted_solved 0 (Some one_flip) eq_refl) as (H & V & E & EH & B). destruct (lifted_solved 3 (Some one_flip) eq_refl) as (H' & V' & E' & EH' & B'). destruct (lifted_more 3) as (_ & MG).
  pose proof (C178_energies root (lifted 0) (lifted 3) 3 1 one_flip [1; 2; 4]%nat H H' V V' E E' eq_refl MG one_flipped EH EH' B B') as PE.
  assert (NE : E <> []). { apply (Thermo.E_some H V E B). destruct B as ((_ & X & _) & _). rewrite <- X. destruct (Sectors.sector_ent root (lifted 0) 1 one_flip [1; 2; 4]%nat H eq_refl one_flipped EH) as (L & _). rewrite L. discriminate. }
  assert (EX : exists v, exp_vals_thermal V H E 1 = Ok v). { eexists. apply thermal_finite; [|lra]. destruct B as ((L & X & Y & _) & _). repeat split; congruence. }
  destruct EX as (v & EX). exists H, H', V, V', E, E', v. repeat (split; [assumption|]). split; [|split; [exact EX|]].
  - rewrite (map_ext _ (fun e => e - 3 / 2)) in PE; [exact PE|]. intros e. change (sg_nsites (sp_geom (lifted 0))) with 3%nat. cbn. lra.
  - exact (C178_average root (lifted 0) (lifted 3) 3 1 one_flip [1; 2; 4]%nat H H' V V' E E' eq_refl MG one_flipped EH EH' B B' H 1 v ltac:(left; lra) EX).
Qed.
