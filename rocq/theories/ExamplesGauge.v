(** Concrete cases that meet the hypotheses of C171 to C174. *)
From Coq Require Import List Arith Lia Reals Lra ZArith QArith Bool Permutation.
From Verif Require Import Scalars Res Matrix SqMat SpecMat ModelBase ModelFermions OpsProofs FermiOps FermiApi ModelGeometry ModelPhase ModelSymmetry
  ModelThermal SpecThermal ThermalBase ThermalFacts SpecFermiGas SpecHalf SpecEta ModelFreeLattice SpecFreeLattice SpaceHubbard HalfLattice SpecGauge GaugeRun PropertiesGauge.
From Verif Require HamProofs ExamplesHalf HalfHam Thermo Precess Gauge RefuteGauge.
From Verif Require Import FreeThermal SymBase.
Import ListNotations.
Local Open Scope R_scope.

(** Two systems on the open lattice of two by three sites. *)
Lemma pair_of u u' t t' mu mu' : exists g f f' H H' V V' E E',
  c_square_geometry 2 3 0 0 true true = Ok g /\
  fermions_init (fgeom_of g) (number u) (numbers 2 (fun _ => t)) None (numbers 2 (fun _ => mu)) (number 0) (numbers 2 (fun _ => 0)) 2 = Ok f /\
  fermions_init (fgeom_of g) (number u') (numbers 2 (fun _ => t')) None (numbers 2 (fun _ => mu')) (number 0) (numbers 2 (fun _ => 0)) 2 = Ok f' /\
  createH f None = Ok H /\ createH f' None = Ok H' /\ eigenbasis H V E /\ eigenbasis H' V' E' /\ fg_nsites (f_geom f) = 6%nat /\ f_nspecies f = 2%nat /\ nrow V = nstates (f_sys f) /\ nrow V' = nstates (f_sys f) /\ E <> [].
Proof.
  destruct (ExamplesHalf.solved 2 3 true true u 0 (fun _ => t) (fun _ => 0) (fun _ => mu) 2 ltac:(lia) ltac:(lia) ltac:(lia) ltac:(lia) ltac:(reflexivity) ltac:(reflexivity) (le_n 2))
    as (g & f & H & V & E & LG & made & EH & B & NS & NP).
  destruct (ExamplesHalf.solved 2 3 true true u' 0 (fun _ => t') (fun _ => 0) (fun _ => mu') 2 ltac:(lia) ltac:(lia) ltac:(lia) ltac:(lia) ltac:(reflexivity) ltac:(reflexivity) (le_n 2))
    as (g' & f' & H' & V' & E' & LG' & made' & EH' & B' & NS' & NP'). rewrite LG in LG'. injection LG' as <-. change (Z.to_nat (2 * 3)) with 6%nat in NS, NS'.
  destruct (HalfHam.H_is f ltac:(left; lia) H EH) as (HR & _ & _). destruct (HalfHam.H_is f' ltac:(left; lia) H' EH') as (HR' & _ & _).
  assert (NN : nstates (f_sys f) = (2 ^ nlog (f_sys f))%nat) by (apply nstates2; reflexivity). assert (FF : nlog (f_sys f') = nlog (f_sys f)) by (unfold f_sys, nlog, fsys; cbn; rewrite NS, NS', NP, NP'; reflexivity).
  assert (VR : nrow V = nstates (f_sys f)) by (destruct B as ((_ & Q & _) & _); congruence). assert (VR' : nrow V' = nstates (f_sys f)) by (destruct B' as ((_ & Q & _) & _); congruence).
  exists g, f, f', H, H', V, V', E, E'. repeat (split; [assumption|]). apply (Thermo.E_some H V E B). rewrite VR, NN. apply Nat.pow_nonzero. lia.
Qed.
(** The configuration with number five. *)
Definition start (n : nat) : states := OneState n (fun i => if (i =? 5)%nat then k1 else k0).
Lemma start_single n : single_config (as_columns (start n)) 0.
Proof. exists 5%nat. intros q _ NE. cbn. rewrite (proj2 (Nat.eqb_neq q 5) NE). reflexivity. Qed.
Ltac number_op f i k A EA := destruct (single_ok (K:=CR) (f_sys f) i k n_op Boson (HamProofs.f_two f) ltac:(discriminate) ltac:(change (i < fg_nsites (f_geom f))%nat; lia) ltac:(change (k < f_nspecies f)%nat; lia) (sq2 _ _ _ _)) as (A & EA & ? & _).

(** C174: with repulsion eight and with attraction eight the density of the first site
    takes the same values. *)
Example ex_opposite : exists f f' H H' V V' E E' A Ms Ms' x, createH f None = Ok H /\ createH f' None = Ok H' /\ eigenbasis H V E /\ eigenbasis H' V' E' /\
  fg_nsites (f_geom f) = 6%nat /\ f_us f 0%nat = (8, 0) /\ f_us f' 0%nat = (-8, 0) /\
  single_site_op (f_sys f) 0 0 n_op Boson = Ok A /\ quench (start (nstates (f_sys f))) V E [1; 2] = Ok Ms /\ quench (start (nstates (f_sys f))) V' E' [1; 2] = Ok Ms' /\
  exp_vals (Columns (nth 0 Ms (mzero 0 0))) A = Ok x /\ exp_vals (Columns (nth 0 Ms' (mzero 0 0))) A = Ok x /\ length x = 2%nat /\ Permutation (map Ropp E) E'.
Proof.
  destruct (pair_of 8 (- (8)) 1 1 0 (- 0)) as (g & f & f' & H & H' & V & V' & E & E' & LG & made & made' & EH & EH' & B & B' & NS & NP & VR & VR' & NE).
  assert (made2 : fermions_init (fgeom_of g) (number (- (8))) (numbers 2 (fun _ => 1)) None (numbers 2 (fun _ => - 0)) (number (- 0)) (numbers 2 (fun _ => - 0)) 2 = Ok f') by (replace (number (- 0)) with (number 0) by (rewrite Ropp_0; reflexivity); replace (numbers 2 (fun _ : nat => - 0)) with (numbers 2 (fun _ : nat => 0)) at 2 by (rewrite Ropp_0; reflexivity); exact made').
  destruct (C174_lattice 2 3 true true g 8 0 (fun _ => 1) (fun _ => 0) (fun _ => 0) 2 f f' ltac:(lia) ltac:(lia) ltac:(lia) ltac:(lia) LG made (or_introl eq_refl) (or_introl eq_refl) made2) as (TC & OE).
  number_op f 0%nat 0%nat A EA. assert (US : us_ok f) by (left; lia). assert (SQ : nrow A = nstates (f_sys f) /\ ncol A = nstates (f_sys f)) by (rewrite nstates2 by reflexivity; assumption). destruct SQ as (SQ1 & SQ2).
  destruct (quench_entries (start (nstates (f_sys f))) V E [1; 2] VR ltac:(apply B)) as (Ms & Q & _). destruct (quench_entries (start (nstates (f_sys f))) V' E' [1; 2] VR' ltac:(apply B')) as (Ms' & Q' & _).
  assert (EX : exists x, exp_vals (Columns (nth 0 Ms (mzero 0 0))) A = Ok x /\ length x = 2%nat).
  { eexists. split; [apply (Precess.path_of V E (start (nstates (f_sys f))) [1; 2] Ms 0 A Q (le_n 1)); congruence|]. rewrite map_length, seq_length. reflexivity. }
  destruct EX as (x & EX & LX). exists f, f', H, H', V, V', E, E', A, Ms, Ms', x. split; [exact EH|]. split; [exact EH'|]. split; [exact B|]. split; [exact B'|]. split; [exact NS|].
  destruct (couplings g 8 0 _ _ _ 2 f made) as (_ & _ & _ & FU & _). destruct (couplings g _ _ _ _ _ 2 f' made') as (_ & _ & _ & FU' & _). split; [apply FU|]. split; [rewrite FU'; apply injective_projections; cbn; lra|].
  split; [exact EA|]. split; [exact Q|]. split; [exact Q'|]. split; [exact EX|]. split; [|split; [exact LX|]].
  - replace x with (map (Rmult 1) x) by (transitivity (map (fun x => x) x); [apply map_ext; intros; ring | apply map_id]).
    apply (C174_motion (chess 3) f f' None (seq 0 (nstates (f_sys f))) H H' V V' E E' TC OE US eq_refl EH EH' B B' A A 1 (m_number f _ 0%nat 0%nat A ltac:(lia) ltac:(lia) EA) eq_refl (start (nstates (f_sys f))) 0%nat (le_n 1) (start_single _) [1; 2] Ms Ms' x Q Q' EX).
  - exact (C174_energies (chess 3) f f' None (seq 0 (nstates (f_sys f))) H H' V V' E E' TC OE US eq_refl EH EH' B B').
Qed.
(** C173: hopping one and minus one at temperature one: the same density and the same
    energies. *)
Example ex_hopping : exists f f' H H' V V' E E' A x, createH f None = Ok H /\ createH f' None = Ok H' /\ eigenbasis H V E /\ eigenbasis H' V' E' /\ fg_nsites (f_geom f) = 6%nat /\
  single_site_op (f_sys f) 0 0 n_op Boson = Ok A /\ exp_vals_thermal V A E 1 = Ok x /\ exp_vals_thermal V' A E' 1 = Ok (1 * x) /\ Permutation E E'.
Proof.
  destruct (pair_of 8 8 1 (- (1)) 3 3) as (g & f & f' & H & H' & V & V' & E & E' & LG & made & made' & EH & EH' & B & B' & NS & NP & VR & VR' & NE).
  destruct (C173_lattice 2 3 true true g 8 0 (fun _ => 1) (fun _ => 0) (fun _ => 3) 2 f f' ltac:(lia) ltac:(lia) ltac:(lia) ltac:(lia) LG made (or_introl eq_refl) (or_introl eq_refl) made') as (TC & OH).
  number_op f 0%nat 0%nat A EA. assert (US : us_ok f) by (left; lia). assert (SQ : nrow A = nstates (f_sys f) /\ ncol A = nstates (f_sys f)) by (rewrite nstates2 by reflexivity; assumption). destruct SQ as (SQ1 & SQ2).
  destruct (C173_same (chess 3) f f' None (seq 0 (nstates (f_sys f))) H H' V V' E E' TC OH US eq_refl EH EH' B B') as (P & _ & W).
  destruct (W A A 1 (m_number f _ 0%nat 0%nat A ltac:(lia) ltac:(lia) EA) eq_refl) as (W1 & _). assert (T1 : 1 <> 0) by lra.
  assert (EX : exp_vals_thermal V A E 1 = Ok (boltzmann 1 (levels E V A))) by (apply thermal_finite; [|exact T1]; repeat split; try congruence; apply B).
  exists f, f', H, H', V, V', E, E', A, (boltzmann 1 (levels E V A)). repeat (split; [assumption|]). split; [exact (W1 1 _ (or_introl T1) EX) | exact P].
Qed.
(** C172: all couplings twice as large, the hopping with the opposite sign; the hop between
    the first two sites at twice the temperature has the opposite sign. *)
Example ex_units : exists f f' H H' V V' E E' A x, createH f None = Ok H /\ createH f' None = Ok H' /\ eigenbasis H V E /\ eigenbasis H' V' E' /\ fg_nsites (f_geom f) = 6%nat /\
  regauged 2 (fun i _ => sign (chess 3) i) f f' /\ two_site_op (f_sys f) 0 0 1 0 cdag_op c_op Fermion = Ok A /\ exp_vals_thermal V A E 1 = Ok x /\ exp_vals_thermal V' A E' (2 * 1) = Ok (- x).
Proof.
  destruct (pair_of 8 16 1 (- (2)) 3 6) as (g & f & f' & H & H' & V & V' & E & E' & LG & made & made' & EH & EH' & B & B' & NS & NP & VR & VR' & NE).
  assert (RG : regauged 2 (fun i _ => sign (chess 3) i) f f').
  { destruct (couplings g _ _ _ _ _ 2 f made) as (FG & FN & FT & FU & FV & FM & FP). destruct (couplings g _ _ _ _ _ 2 f' made') as (FG' & FN' & FT' & FU' & FV' & FM' & FP').
    pose proof (chess_coloured 2 3 true true g _ _ _ _ _ 2 f ltac:(lia) ltac:(lia) ltac:(lia) ltac:(lia) LG made (or_introl eq_refl) (or_introl eq_refl)) as TC.
    split; [congruence|]. split; [congruence|]. rewrite FN. split; [|split; [|split; [|split; [|split]]]].
    - intros i k _ _. unfold sign. destruct (chess 3 i); auto.
    - intros i j k Hij Hk. assert (Q : f_ts f' i j k = real (- 2) *c f_ts f i j k) by (rewrite FT, FT' by exact Hk; apply injective_projections; cbn; ring). rewrite Q. destruct (Req_EM_T (nsq (f_ts f i j k)) 0) as [Z|NZ].
      + apply nsq_0 in Z. rewrite Z. apply injective_projections; cbn; ring.
      + pose proof (TC i j k Hij ltac:(rewrite FN; exact Hk) ltac:(intros X; apply NZ, nsq_0, X)) as SD. unfold sign. destruct (chess 3 i), (chess 3 j); try congruence; apply injective_projections; cbn; ring.
    - intros i _. rewrite FU, FU'. apply injective_projections; cbn; ring.
    - intros i j k _ Hk. rewrite FV, FV' by exact Hk. apply injective_projections; cbn; ring.
    - intros k Hk. rewrite FM, FM' by exact Hk. apply injective_projections; cbn; ring.
    - intros i k _ Hk. rewrite FP, FP'. apply injective_projections; cbn; ring. }
  destruct (two_ok (K:=CR) (f_sys f) 0 0 1 0 cdag_op c_op Fermion (HamProofs.f_two f) ltac:(discriminate) ltac:(change (0 < fg_nsites (f_geom f))%nat; lia) ltac:(change (0 < f_nspecies f)%nat; lia)
      ltac:(change (1 < fg_nsites (f_geom f))%nat; lia) ltac:(change (0 < f_nspecies f)%nat; lia) (sq2 _ _ _ _) (sq2 _ _ _ _)) as (A & EA & SQ & _).
  assert (US : us_ok f) by (left; lia). rewrite <- (nstates2 (f_sys f)) in SQ by reflexivity. destruct SQ as (SQ1 & SQ2). assert (T1 : 1 <> 0) by lra. assert (T2 : 2 <> 0) by lra.
  assert (EX : exp_vals_thermal V A E 1 = Ok (boltzmann 1 (levels E V A))) by (apply thermal_finite; [|exact T1]; repeat split; try congruence; apply B).
  exists f, f', H, H', V, V', E, E', A, (boltzmann 1 (levels E V A)). repeat (split; [assumption|]).
  pose proof (C172_average 2 _ f f' None (seq 0 (nstates (f_sys f))) H H' V V' E E' RG US eq_refl EH EH' B B' A A _ (m_hop f _ 0%nat 1%nat 0%nat A ltac:(lia) ltac:(lia) ltac:(lia) ltac:(lia) EA) eq_refl 1 _ T2 T1 EX) as Q.
  cbv beta in Q. rewrite Q. f_equal. unfold sign, chess. cbn. ring.
Qed.
(** C171: one particle on a triangle, two bases with opposite vectors. *)
Example ex_bases : exists H V V' E E' Ms Ms', eigenbasis H V E /\ eigenbasis H V' E' /\ nrow H = 3%nat /\ (exists i k, (i < 3)%nat /\ (k < 3)%nat /\ ent V' i k <> ent V i k) /\
  quench (OneState 3 (fun i => if (i =? 1)%nat then k1 else k0)) V E [1; 2] = Ok Ms /\ quench (OneState 3 (fun i => if (i =? 1)%nat then k1 else k0)) V' E' [1; 2] = Ok Ms' /\ meq (nth 0 Ms (mzero 0 0)) (nth 0 Ms' (mzero 0 0)).
Proof.
  destruct (RefuteGauge.tri_solved 1) as (H & V & E & _ & B & R1 & W). assert (RV : nrow V = 3%nat) by (destruct B as ((_ & X & _) & _); congruence). assert (RC : ncol H = 3%nat) by (destruct B as ((_ & _ & X & _) & _); congruence).
  assert (B' : eigenbasis H (Gauge.Vg 3 (fun _ => -1) V E) (Gauge.Eg 1 E)).
  { apply (Gauge.gauge_basis 3 (fun _ => -1) 1 H H V E); try assumption; [intros; ring|]. intros p q _ _. apply injective_projections; cbn; ring. }
  destruct (quench_entries (OneState 3 (fun i => if (i =? 1)%nat then k1 else k0)) V E [1; 2] RV ltac:(apply B)) as (Ms & Q & L & _).
  destruct (C171_states H V _ E _ _ [1; 2] Ms B B' Q) as (Ms' & Q' & _ & M). exists H, V, (Gauge.Vg 3 (fun _ => -1) V E), E, (Gauge.Eg 1 E), Ms, Ms'. split; [exact B|]. split; [exact B'|]. split; [exact R1|].
  split; [|split; [exact Q|]; split; [exact Q' | apply M; rewrite L; cbn; lia]].
  assert (LE : (0 < length E)%nat) by (pose proof (Thermo.E_some H V E B ltac:(rewrite RV; discriminate)); destruct E; [congruence | cbn; lia]).
  destruct B as ((LC & _) & ON & _). specialize (ON 0%nat 0%nat ltac:(lia) ltac:(lia)). rewrite RV in ON. unfold inner in ON. cbn [ksum Nat.eqb] in ON. apply (f_equal fst) in ON.
  assert (LT : (0 < 3)%nat) by lia.
  assert (D : forall i, (i < 3)%nat -> ent (Gauge.Vg 3 (fun _ => -1) V E) i 0 <> ent V i 0 \/ ent V i 0 = c0).
  { intros i Hi. cbn [ent Gauge.Vg]. destruct (ent V i 0) as (x, y). destruct (Req_EM_T x 0) as [->|NX]; [destruct (Req_EM_T y 0) as [->|NY]; [right; reflexivity|]|]; left; intros Z; injection Z; intros; lra. }
  destruct (D 0%nat ltac:(lia)) as [D0|D0]; [exists 0%nat, 0%nat; auto|]. destruct (D 1%nat ltac:(lia)) as [D1|D1]; [exists 1%nat, 0%nat; auto|]. destruct (D 2%nat ltac:(lia)) as [D2|D2]; [exists 2%nat, 0%nat; auto|].
  exfalso. unfold col in ON. rewrite D0, D1, D2 in ON. cbn in ON. lra.
Qed.
