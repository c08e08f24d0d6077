(** Concrete cases that meet the hypotheses of C139 and C140. *)
From Coq Require Import List Arith Lia Reals Lra ZArith QArith Bool.
From Verif Require Import Scalars Res Sums Matrix SqMat SpecMat ModelBase ModelFermions OpsProofs FermiOps ModelGeometry ModelPhase ModelSymmetry SpecGeometry
  ModelThermal SpecThermal ThermalBase Spectral SpecFermiGas ModelFreeLattice SpecFreeLattice SpecHalf SpecEta SpecThermo PropertiesThermo.
From Verif Require HamProofs FermiApi ExamplesHalf SpaceHubbard.
From Verif Require Import FreeThermal SymBase.
Import ListNotations.
Local Open Scope R_scope.

(** A system on an open lattice of two by three sites. *)
Lemma plaquettes mu : exists g f H V E, fermions_init (fgeom_of g) (number 8) (numbers 2 (fun _ => 1)) None (numbers 2 (fun _ => mu)) (number 0) (numbers 2 (fun _ => 0)) 2 = Ok f /\
  createH f None = Ok H /\ eigenbasis H V E /\ E <> [] /\ nrow V = (2 ^ nlog (f_sys f))%nat /\ fg_nsites (f_geom f) = 6%nat /\ f_nspecies f = 2%nat /\ pair_symmetric f (chess 3) (8 - 2 * mu).
Proof.
  destruct (ExamplesHalf.solved 2 3 true true 8 0 (fun _ => 1) (fun _ => 0) (fun _ => mu) 2 ltac:(lia) ltac:(lia) ltac:(lia) ltac:(lia) ltac:(reflexivity) ltac:(reflexivity) (le_n 2))
    as (g & f & H & V & E & LG & made & EH & B & NS & NP). change (Z.to_nat (2 * 3)) with 6%nat in NS.
  pose proof (C139_lattice 2 3 true true g 8 0 (fun _ => 1) (fun _ => 0) (fun _ => mu) 2 f ltac:(lia) ltac:(lia) ltac:(lia) ltac:(lia) LG made (or_introl eq_refl) (or_introl eq_refl) (le_n 2) eq_refl eq_refl eq_refl) as PS.
  cbv beta in PS. replace (8 + (0 - mu) + (0 - mu)) with (8 - 2 * mu) in PS by ring.
  destruct (HalfHam.H_is f ltac:(left; lia) H EH) as (HR & _ & _). assert (VR : nrow V = (2 ^ nlog (f_sys f))%nat) by (destruct B as ((_ & Q & _) & _); congruence).
  exists g, f, H, V, E. repeat (split; [assumption|]). split; [|split; [exact VR|split; [exact NS|split; [exact NP|exact PS]]]].
  apply (Thermo.E_some H V E B). rewrite VR. apply Nat.pow_nonzero. lia.
Qed.
Ltac one f i k A EA := destruct (single_ok (K:=CR) (f_sys f) i k n_op Boson (HamProofs.f_two f) ltac:(discriminate) ltac:(change (i < fg_nsites (f_geom f))%nat; lia) ltac:(change (k < f_nspecies f)%nat; lia) (sq2 _ _ _ _)) as (A & EA & ? & _).
Ltac two f i k j l a b A EA := destruct (two_ok (K:=CR) (f_sys f) i k j l a b Fermion (HamProofs.f_two f) ltac:(discriminate) ltac:(change (i < fg_nsites (f_geom f))%nat; lia) ltac:(change (k < f_nspecies f)%nat; lia)
      ltac:(change (j < fg_nsites (f_geom f))%nat; lia) ltac:(change (l < f_nspecies f)%nat; lia) (sq2 _ _ _ _) (sq2 _ _ _ _)) as (A & EA & ? & _).

(** C139: at half filling the correlation of the charges on neighbouring sites is
    minus twice that of the pairs. *)
Example ex_isotropic : exists f H V E A B U1 D1 U2 D2 x, createH f None = Ok H /\ eigenbasis H V E /\ fg_nsites (f_geom f) = 6%nat /\
  two_site_op (f_sys f) 0 0 0 1 cdag_op cdag_op Fermion = Ok A /\ two_site_op (f_sys f) 1 1 1 0 c_op c_op Fermion = Ok B /\
  single_site_op (f_sys f) 0 0 n_op Boson = Ok U1 /\ single_site_op (f_sys f) 0 1 n_op Boson = Ok D1 /\
  single_site_op (f_sys f) 1 0 n_op Boson = Ok U2 /\ single_site_op (f_sys f) 1 1 n_op Boson = Ok D2 /\
  exp_vals_thermal V (mmul A B) E 1 = Ok x /\
  let I := meye (2 ^ nlog (f_sys f)) in exp_vals_thermal V (mmul (msub I (madd U1 D1)) (msub I (madd U2 D2))) E 1 = Ok (- 2 * x).
Proof.
  destruct (plaquettes 4) as (g & f & H & V & E & _ & EH & B0 & NE & VR & NS & NP & PS).
  two f 0%nat 0%nat 0%nat 1%nat (@cdag_op CR _) (@cdag_op CR _) A EA. two f 1%nat 1%nat 1%nat 0%nat (@c_op CR _) (@c_op CR _) B EB.
  one f 0%nat 0%nat U1 Q1. one f 0%nat 1%nat D1 Q2. one f 1%nat 0%nat U2 Q3. one f 1%nat 1%nat D2 Q4.
  assert (T1 : 1 <> 0) by lra.
  exists f, H, V, E, A, B, U1, D1, U2, D2, (boltzmann 1 (levels E V (mmul A B))). repeat (split; [assumption|]).
  assert (EX : exp_vals_thermal V (mmul A B) E 1 = Ok (boltzmann 1 (levels E V (mmul A B)))).
  { apply thermal_finite; [|lra]. repeat match goal with Q : square _ _ |- _ => destruct Q end. split; [cbn [mmul nrow]; rewrite VR; assumption|]. split; [cbn [mmul ncol]; rewrite VR; assumption|]. split; [apply B0 | exact NE]. }
  split; [exact EX|]. intros I.
  rewrite (C139_isotropic f (chess 3) (8 - 2 * 4) PS H V E EH B0 1 (or_introl T1) 0%nat 1%nat A B U1 D1 U2 D2 I ltac:(lra) ltac:(lia) ltac:(lia) EA EB Q1 Q2 Q3 Q4 eq_refl _ EX).
  f_equal. unfold sign. change (chess 3 0) with true. change (chess 3 1) with false. cbn. ring.
Qed.
(** Away from half filling, with the pair energy two: adding the pair to a state of
    energy [nth 0 E 0] gives a state with two more. *)
Example ex_states : exists f H V E (A : nat -> mat CR), createH f None = Ok H /\ eigenbasis H V E /\ fg_nsites (f_geom f) = 6%nat /\
  (forall i, (i < 6)%nat -> two_site_op (f_sys f) i 0 i 1 cdag_op cdag_op Fermion = Ok (A i)) /\
  let N := (2 ^ nlog (f_sys f))%nat in
  let z := fun a => ksum 6 (fun i => kmul (re (sign (chess 3) i)) (ksum N (fun b => kmul (ent (A i) a b) (ent V b 0)))) in
  forall a, (a < N)%nat -> ksum N (fun b => kmul (ent H a b) (z b)) = kmul (re (nth 0 E 0 + 2)) (z a).
Proof.
  destruct (plaquettes 3) as (g & f & H & V & E & _ & EH & B0 & NE & VR & NS & NP & PS). replace (8 - 2 * 3) with 2 in PS by lra.
  assert (EX : forall i, (i < 6)%nat -> exists A, two_site_op (f_sys f) i 0 i 1 (@cdag_op CR _) cdag_op Fermion = Ok A).
  { intros i Hi. two f i 0%nat i 1%nat (@cdag_op CR _) (@cdag_op CR _) A EA. exists A. exact EA. }
  set (A := fun i => match two_site_op (f_sys f) i 0 i 1 (@cdag_op CR _) cdag_op Fermion with Ok A => A | Raise _ => meye 0 end).
  assert (EA : forall i, (i < 6)%nat -> two_site_op (f_sys f) i 0 i 1 cdag_op cdag_op Fermion = Ok (A i)).
  { intros i Hi. unfold A. destruct (EX i Hi) as (X & ->). reflexivity. }
  exists f, H, V, E, A. split; [exact EH|]. split; [exact B0|]. split; [exact NS|]. split; [exact EA|]. intros N z.
  pose proof (C139_states f (chess 3) 2 PS H EH A) as P. rewrite NS in P. apply (P EA (fun b => ent V b 0%nat) (nth 0 E 0)).
  intros a Ha. destruct B0 as ((L & _ & _ & EV) & _). rewrite VR in EV. apply (EV a 0%nat Ha). rewrite L. destruct E; [congruence | cbn; lia].
Qed.
Example ex_rule : exists f H V E (A : nat -> mat CR) B (P : nat -> R) x y, createH f None = Ok H /\ eigenbasis H V E /\ fg_nsites (f_geom f) = 6%nat /\
  (forall i, (i < 6)%nat -> two_site_op (f_sys f) i 0 i 1 cdag_op cdag_op Fermion = Ok (A i) /\ exp_vals_thermal V (mmul (A i) B) E 1 = Ok (P i)) /\
  two_site_op (f_sys f) 1 1 1 0 c_op c_op Fermion = Ok B /\
  (exists U D, single_site_op (f_sys f) 1 0 n_op Boson = Ok U /\ single_site_op (f_sys f) 1 1 n_op Boson = Ok D /\ exp_vals_thermal V U E 1 = Ok x /\ exp_vals_thermal V D E 1 = Ok y) /\
  1 - x - y = (exp 2 - 1) * total (fun i => sign (chess 3) i * sign (chess 3) 1 * P i) (seq 0 6).
Proof.
  destruct (plaquettes 3) as (g & f & H & V & E & _ & EH & B0 & NE & VR & NS & NP & PS). replace (8 - 2 * 3) with 2 in PS by lra.
  two f 1%nat 1%nat 1%nat 0%nat (@c_op CR _) (@c_op CR _) B EB. one f 1%nat 0%nat U EU. one f 1%nat 1%nat D ED. assert (T1 : 1 <> 0) by lra.
  assert (FT : forall O, nrow O = nrow V -> ncol O = nrow V -> exp_vals_thermal V O E 1 = Ok (boltzmann 1 (levels E V O))).
  { intros O O1 O2. apply thermal_finite; [|lra]. split; [exact O1|]. split; [exact O2|]. split; [apply B0 | exact NE]. }
  assert (EX : forall i, (i < 6)%nat -> exists A, two_site_op (f_sys f) i 0 i 1 (@cdag_op CR _) cdag_op Fermion = Ok A /\ nrow A = nrow V).
  { intros i Hi. two f i 0%nat i 1%nat (@cdag_op CR _) (@cdag_op CR _) A EA. exists A. split; [exact EA|]. rewrite VR. match goal with Q : square _ A |- _ => apply Q end. }
  set (A := fun i => match two_site_op (f_sys f) i 0 i 1 (@cdag_op CR _) cdag_op Fermion with Ok A => A | Raise _ => meye 0 end).
  assert (EA : forall i, (i < 6)%nat -> two_site_op (f_sys f) i 0 i 1 cdag_op cdag_op Fermion = Ok (A i) /\ nrow (A i) = nrow V).
  { intros i Hi. unfold A. destruct (EX i Hi) as (X & -> & Y). split; [reflexivity | exact Y]. }
  repeat match goal with Q : square _ _ |- _ => destruct Q end.
  assert (EP : forall i, (i < 6)%nat -> exp_vals_thermal V (mmul (A i) B) E 1 = Ok (boltzmann 1 (levels E V (mmul (A i) B)))).
  { intros i Hi. apply FT; [cbn [mmul nrow]; apply (EA i Hi) | cbn [mmul ncol]; congruence]. }
  assert (E1 : exp_vals_thermal V U E 1 = Ok (boltzmann 1 (levels E V U))) by (apply FT; congruence).
  assert (E2 : exp_vals_thermal V D E 1 = Ok (boltzmann 1 (levels E V D))) by (apply FT; congruence).
  exists f, H, V, E, A, B, (fun i => boltzmann 1 (levels E V (mmul (A i) B))), (boltzmann 1 (levels E V U)), (boltzmann 1 (levels E V D)).
  split; [exact EH|]. split; [exact B0|]. split; [exact NS|]. split; [intros i Hi; split; [apply EA; exact Hi | apply EP; exact Hi]|]. split; [exact EB|].
  split; [exists U, D; auto|].
  pose proof (C139_rule f (chess 3) 2 PS H V E EH B0 1 T1 A 1%nat B U D (fun i => boltzmann 1 (levels E V (mmul (A i) B))) (boltzmann 1 (levels E V U)) (boltzmann 1 (levels E V D))) as P. rewrite NS in P.
  replace (2 / 1) with 2 in P by field. exact (P (fun i Hi => proj1 (EA i Hi)) ltac:(lia) EB EU ED EP E1 E2).
Qed.

(** C140: the same system; the energy at temperature one is not above the energy at
    temperature two, and the number of particles of a species does not fall when its
    chemical potential rises from three to four. *)
Example ex_energy : exists f H V E x1 x2, createH f None = Ok H /\ eigenbasis H V E /\ fg_nsites (f_geom f) = 6%nat /\
  exp_vals_thermal V H E 1 = Ok x1 /\ exp_vals_thermal V H E 2 = Ok x2 /\ x1 <= x2.
Proof.
  destruct (plaquettes 3) as (g & f & H & V & E & _ & EH & B0 & NE & VR & NS & NP & PS).
  assert (FT : forall T, T <> 0 -> exp_vals_thermal V H E T = Ok (boltzmann T (levels E V H))).
  { intros T T0. apply thermal_finite; [|exact T0]. destruct B0 as ((L & S1 & S2 & _) & _). repeat split; assumption. }
  exists f, H, V, E, (boltzmann 1 (levels E V H)), (boltzmann 2 (levels E V H)). split; [exact EH|]. split; [exact B0|]. split; [exact NS|].
  split; [apply FT; lra|]. split; [apply FT; lra|].
  apply (C140_energy H V E B0 ltac:(rewrite VR; apply Nat.pow_nonzero; lia) 1 2 _ _ ltac:(lra)); apply FT; lra.
Qed.
Example ex_number : exists f Nk H1 V1 E1 H2 V2 E2 y1 y2, fg_nsites (f_geom f) = 6%nat /\ sum_op (f_sys f) n_op 1 Boson = Ok Nk /\
  createH (with_mu f 1 3) None = Ok H1 /\ createH (with_mu f 1 4) None = Ok H2 /\ eigenbasis H1 V1 E1 /\ eigenbasis H2 V2 E2 /\
  exp_vals_thermal V1 Nk E1 1 = Ok y1 /\ exp_vals_thermal V2 Nk E2 1 = Ok y2 /\ y1 <= y2.
Proof.
  destruct (plaquettes 3) as (g & f & H & V & E & made & EH & B0 & NE & VR & NS & NP & PS).
  assert (RC : HamProofs.real_couplings f).
  { destruct (SpaceHubbard.couplings g 8 0 (fun _ => 1) (fun _ => 0) (fun _ => 3) 2 f made) as (_ & _ & FT & FU & FV & FM & FP).
    split; [|split; [|split; [|split]]]; intros; unfold HamProofs.real; rewrite ?FT, ?FU, ?FV, ?FM, ?FP by lia; apply injective_projections; cbn; ring. }
  assert (S0 : fg_nsites (f_geom f) <> 0%nat) by lia. assert (M2 : (2 <= f_nspecies f)%nat) by lia. assert (K1 : (1 < f_nspecies f)%nat) by lia.
  destruct (sum_op_number (K:=CR) (f_sys f) 1 (HamProofs.f_two f) S0 K1) as (Nk & EN & NM).
  assert (N1 : nrow Nk = (2 ^ nlog (f_sys f))%nat) by apply NM. assert (N2 : ncol Nk = (2 ^ nlog (f_sys f))%nat) by apply NM.
  assert (SO : forall x, exists H V E, createH (with_mu f 1 x) None = Ok H /\ eigenbasis H V E /\ exp_vals_thermal V Nk E 1 = Ok (boltzmann 1 (levels E V Nk))).
  { intros x. destruct (ThermoMu.ham_fx f 1 K1 (or_introl M2) RC x) as (Hx & EHx & R1 & R2 & HH & _).
    destruct (spectral _ Hx HH R1 R2) as (Vx & Ex & Bx). exists Hx, Vx, Ex. split; [exact EHx|]. split; [exact Bx|].
    assert (VX : nrow Vx = (2 ^ nlog (f_sys f))%nat) by (destruct Bx as ((_ & Q & _) & _); congruence).
    apply thermal_finite; [|lra]. split; [congruence|]. split; [congruence|]. split; [apply Bx|]. apply (Thermo.E_some Hx Vx Ex Bx). rewrite VX. apply Nat.pow_nonzero. lia. }
  destruct (SO 3) as (H1 & V1 & E1 & A1 & B1 & C1). destruct (SO 4) as (H2 & V2 & E2 & A2 & B2 & C2).
  exists f, Nk, H1, V1, E1, H2, V2, E2, (boltzmann 1 (levels E1 V1 Nk)), (boltzmann 1 (levels E2 V2 Nk)). repeat (split; [assumption|]).
  exact (C140_number f 1 K1 S0 (or_introl M2) RC 1 R1_neq_R0 Nk 3 4 H1 H2 V1 V2 E1 E2 _ _ EN Rlt_0_1 ltac:(lra) A1 A2 B1 B2 C1 C2).
Qed.
(** One level of energy zero and one of energy one: the average of the energy tends to
    one half at high temperature, and is [exp (-1/T) / (1 + exp (-1/T))]. *)
Definition two_levels : mat CR := Mat 2 2 (fun i j => if (i =? 1)%nat && (j =? 1)%nat then c1 else c0).
Lemma two_levels_basis : eigenbasis two_levels (meye 2) [0; 1].
Proof.
  split; [|split].
  - repeat split. intros i k Hi Hk. cbn [nrow ncol meye] in *. destruct i as [|[|i]]; [| |lia]; (destruct k as [|[|k]]; [| |lia]); apply injective_projections; cbn; ring.
  - intros k l Hk Hl. cbn [nrow ncol meye] in *. destruct k as [|[|k]]; [| |lia]; (destruct l as [|[|l]]; [| |lia]); apply injective_projections; cbn; ring.
  - intros psi i Hi. cbn [nrow ncol meye] in *. destruct i as [|[|i]]; [| |lia]; apply injective_projections; cbn; ring.
Qed.
Example ex_hot : (forall T, T <> 0 -> exp_vals_thermal (meye 2) two_levels [0; 1] T = Ok (exp (-1 / T) / (1 + exp (-1 / T)))) /\
  forall eps, 0 < eps -> exists T0, 0 < T0 /\ forall T x, T0 < T -> exp_vals_thermal (meye 2) two_levels [0; 1] T = Ok x -> Rabs (x - 1 / 2) < eps.
Proof.
  split.
  - intros T T0. rewrite thermal_finite; [|repeat split; discriminate | exact T0]. f_equal. unfold boltzmann, levels, energy, value. cbn. unfold expect, inner, apply, col. cbn.
    replace (- 0 / T) with 0 by (field; exact T0). rewrite exp_0. assert (0 < exp (-1 / T)) by apply exp_pos. replace (-1 / T) with (- (1) / T) in * by reflexivity. field. lra.
  - intros eps He. destruct (C140_hot two_levels (meye 2) [0; 1] two_levels_basis ltac:(discriminate) two_levels ltac:(split; reflexivity) eps He) as (T0 & P & Q). exists T0. split; [exact P|].
    intros T x HT EX. specialize (Q T x HT EX). cbn in Q. replace ((0 + (1 + 0)) / (1 + 1)) with (1 / 2) in Q by field. exact Q.
Qed.
(** Its slope in the temperature is the variance over the square of the temperature. *)
Example ex_slope : exists F, (forall T, T <> 0 -> exp_vals_thermal (meye 2) two_levels [0; 1] T = Ok (F T)) /\ forall T, T <> 0 -> derivable_pt_lim F T ((F T - F T * F T) / T ^ 2).
Proof.
  destruct (C140_temperature two_levels (meye 2) [0; 1] two_levels_basis ltac:(discriminate) two_levels ltac:(split; reflexivity)) as (F & FV & FD). exists F. split; [exact FV|].
  intros T T0. apply (FD T (F T) (F T) (F T) T0); [apply FV; exact T0 | apply FV; exact T0|]. rewrite <- (FV T T0).
  rewrite !thermal_finite by (try exact T0; repeat split; discriminate). f_equal. unfold boltzmann, levels, energy, value, expect, inner, apply, col. cbn. f_equal; ring.
Qed.
