(** Concrete cases that meet the hypotheses of C175. *)
From Coq Require Import List Arith Lia Reals Lra ZArith QArith Bool Permutation.
From Verif Require Import Scalars Res Matrix SqMat SpecMat SpecFock ModelBase ModelFermions OpsProofs FermiOps FermiApi ModelGeometry ModelPhase ModelSymmetry
  ModelThermal SpecThermal ThermalBase ThermalFacts SpecFermiGas SpecHalf SpecEta ModelFreeLattice SpecFreeLattice SpaceHubbard HalfLattice SpecGauge SpecMus PropertiesMus ExamplesGauge.
From Verif Require HamProofs ExamplesShells Thermo Precess.
From Verif Require Import FreeThermal SymBase.
Import ListNotations.
Local Open Scope R_scope.

(** A state that is a superposition of two configurations with different numbers. *)
Definition mixed (n : nat) : states := OneState n (fun i => if (i =? 5)%nat then (3 / 5, 0) else if (i =? 0)%nat then (4 / 5, 0) else k0).
(** Two by three sites, chemical potentials 0 and 7: the same density of the first site. *)
Example ex_motion : exists f f' H H' V V' E E' A Ms Ms' v, createH f None = Ok H /\ createH f' None = Ok H' /\ eigenbasis H V E /\ eigenbasis H' V' E' /\ fg_nsites (f_geom f) = 6%nat /\ f_mus f 0%nat = (0, 0) /\ f_mus f' 0%nat = (7, 0) /\
  single_site_op (f_sys f) 0 0 n_op Boson = Ok A /\ quench (mixed (nstates (f_sys f))) V E [1; 2] = Ok Ms /\ quench (mixed (nstates (f_sys f))) V' E' [1; 2] = Ok Ms' /\
  exp_vals (Columns (nth 0 Ms (mzero 0 0))) A = Ok v /\ exp_vals (Columns (nth 0 Ms' (mzero 0 0))) A = Ok v /\ length v = 2%nat.
Proof.
  destruct (pair_of 8 8 1 1 0 7) as (g & f & f' & H & H' & V & V' & E & E' & LG & made & made' & EH & EH' & B & B' & NS & NP & VR & VR' & NE).
  pose proof (C175_constructor _ _ _ _ _ _ _ _ _ f f' made made') as RG.
  number_op f 0%nat 0%nat A EA. assert (US : us_ok f) by (left; lia). assert (SQ : nrow A = nstates (f_sys f) /\ ncol A = nstates (f_sys f)) by (rewrite nstates2 by reflexivity; assumption). destruct SQ as (SQ1 & SQ2).
  destruct (quench_entries (mixed (nstates (f_sys f))) V E [1; 2] VR ltac:(apply B)) as (Ms & Q & _). destruct (quench_entries (mixed (nstates (f_sys f))) V' E' [1; 2] VR' ltac:(apply B')) as (Ms' & Q' & _).
  assert (EX : exists x, exp_vals (Columns (nth 0 Ms (mzero 0 0))) A = Ok x /\ length x = 2%nat).
  { eexists. split; [apply (Precess.path_of V E (mixed (nstates (f_sys f))) [1; 2] Ms 0 A Q (le_n 1)); congruence|]. rewrite map_length, seq_length. reflexivity. }
  destruct EX as (x & EX & LX). exists f, f', H, H', V, V', E, E', A, Ms, Ms', x. split; [exact EH|]. split; [exact EH'|]. split; [exact B|]. split; [exact B'|]. split; [exact NS|].
  destruct (couplings g _ _ _ _ _ 2 f made) as (_ & _ & _ & _ & _ & FM & _). destruct (couplings g _ _ _ _ _ 2 f' made') as (_ & _ & _ & _ & _ & FM' & _). split; [apply FM; lia|]. split; [apply FM'; lia|].
  split; [exact EA|]. split; [exact Q|]. split; [exact Q'|]. split; [exact EX|]. split; [|exact LX].
  exact (C175_motion _ f f' None (seq 0 (nstates (f_sys f))) H H' V V' E E' RG US eq_refl EH EH' B B' (seq_NoDup _ _) A A 1 (m_number f _ 0%nat 0%nat A ltac:(lia) ltac:(lia) EA) eq_refl (mixed (nstates (f_sys f))) 0%nat [1; 2] Ms Ms' x (le_n 1) Q Q' EX).
Qed.
(** Three sites in a row, two particles of one species and one of the other; chemical
    potentials 0 and 5: energies lower by 15, the same average of the first Hamiltonian. *)
Definition row3' (u : R) : fermions CR := let f := ExamplesShells.row3 u in Ferm (f_geom f) 2 (f_ts f) (f_us f) (f_same f) (fun _ => (5, 0)) (f_pot f) (f_proj f).
Example ex_fixed : exists P H H' V V' E E' v, n_projector (f_sys (ExamplesShells.row3 4)) (Some [Some 2%nat; Some 1%nat]) = Ok P /\ createH (ExamplesShells.row3 4) (Some P) = Ok H /\ createH (row3' 4) (Some P) = Ok H' /\
  eigenbasis H V E /\ eigenbasis H' V' E' /\ Permutation (map (fun e => e - 15) E) E' /\ exp_vals_thermal V H E 1 = Ok v /\ exp_vals_thermal V' H E' 1 = Ok v.
Proof.
  set (f := ExamplesShells.row3 4). set (f' := row3' 4). assert (US : us_ok f) by (left; cbn; lia). assert (US' : us_ok f') by (left; cbn; lia).
  assert (RG : raised (fun _ => 5) f f'). { repeat split; try reflexivity. intros k Hk. apply injective_projections; cbn; ring. }
  destruct (ExamplesShells.made_basis f [2; 1]%nat ltac:(discriminate) eq_refl US) as (P & idx0 & H & V & E & EP & SH & EH & B).
  { repeat split; intros; try (apply injective_projections; cbn; ring); cbn; destruct (ExamplesShells.near _ _); apply injective_projections; cbn; ring. }
  destruct (ExamplesShells.made_basis f' [2; 1]%nat ltac:(discriminate) eq_refl US') as (P' & idx1 & H' & V' & E' & EP' & SH' & EH' & B').
  { repeat split; intros; try (apply injective_projections; cbn; ring); cbn; destruct (ExamplesShells.near _ _); apply injective_projections; cbn; ring. }
  assert (P' = P) as -> by (change (f_sys f') with (f_sys f) in EP'; congruence).
  destruct (C175_sector f [2; 1]%nat P ltac:(discriminate) eq_refl EP) as (idx & SL & ND & SN).
  assert (NE : E <> []). { apply (Thermo.E_some H V E B). destruct B as ((_ & X & _) & _). rewrite <- X. destruct (GaugeRun.sel_ent f (Some P) idx SL H US EH) as (L & _). rewrite L. destruct idx; [|discriminate]. exfalso.
    destruct SL as ((R1 & _) & _). destruct SH as ((R0 & _) & _ & I). rewrite R1 in R0. destruct idx0; [|discriminate R0]. apply (proj2 (I 50%nat)). split; [apply Nat.ltb_lt; reflexivity|]. intros [|[|s]] Hs; [reflexivity | reflexivity | change (f_nspecies f) with 2%nat in Hs; lia]. }
  assert (EX : exists v, exp_vals_thermal V H E 1 = Ok v). { eexists. apply thermal_finite; [|lra]. destruct B as ((L & X & Y & _) & _). repeat split; congruence. }
  destruct EX as (v & EX). exists P, H, H', V, V', E, E', v. split; [exact EP|]. split; [exact EH|]. split; [exact EH'|]. split; [exact B|]. split; [exact B'|]. split; [|split; [exact EX|]].
  - pose proof (C175_energies _ f f' (Some P) idx H H' V V' E E' RG US SL EH EH' B B' ND _ SN) as PE. rewrite (map_ext _ (fun e => e - 15)) in PE; [exact PE|]. intros e. cbn. ring.
  - exact (C175_average _ f f' (Some P) idx H H' V V' E E' RG US SL EH EH' B B' ND _ SN H 1 v ltac:(left; lra) EX).
Qed.
