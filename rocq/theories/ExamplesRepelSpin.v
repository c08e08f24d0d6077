(** Concrete cases that meet the hypotheses of C155. *)
From Coq Require Import List Arith Lia Reals Lra ZArith QArith Qabs Bool.
From Verif Require Import Scalars Res Sums Matrix SqMat SpecMat SpecFock FockProofs FermiOps HamProofs ModelBase ModelFermions FermiApi ModelGeometry ModelPhase ModelSymmetry ModelThermal SpecThermal ThermalBase Spectral
  SymAverage SpecHeat SpecConvex Thermo SpecSigns SpecShells SymBase Signs Perron Shells ShellsRun ShellsRing ExamplesShells SpecHalf SpecLieb ExamplesLieb SpecSinglet SpecRepel SpecRepelSpin ExamplesRepel PropertiesRepelSpin.
From Verif Require Import FreeThermal.
Import ListNotations.
Local Open Scope R_scope.

Lemma fermi_spin_exists (f : fermions CR) : f_nspecies f = 2%nat -> fg_nsites (f_geom f) <> 0%nat -> exists X Y Z, fermi_spin f X Y Z.
Proof.
  intros NS NZ. set (n := fg_nsites (f_geom f)) in *. set (get := fun r : res (mat CR) => match r with Ok A => A | Raise _ => meye 1 end).
  set (A := fun i => get (two_site_op (f_sys f) i 0 i 1 cdag_op c_op Fermion)). set (C := fun i => get (two_site_op (f_sys f) i 1 i 0 cdag_op c_op Fermion)).
  destruct (sum_op_number (f_sys f) 0 (f_two f) NZ ltac:(cbn; lia)) as (N0 & E0 & _). destruct (sum_op_number (f_sys f) 1 (f_two f) NZ ltac:(cbn; lia)) as (N1 & E1 & _).
  exists (Mat (2 ^ (n * 2)) (2 ^ (n * 2)) (fun a b => @kmul CR _ (1 / 2, 0) (ksum n (fun i => kadd (ent (A i) a b) (ent (C i) a b))))),
    (Mat (2 ^ (n * 2)) (2 ^ (n * 2)) (fun a b => @kmul CR _ (0, - (1 / 2)) (ksum n (fun i => ksub (ent (A i) a b) (ent (C i) a b))))),
    (Mat (2 ^ (n * 2)) (2 ^ (n * 2)) (fun a b => @kmul CR _ (1 / 2, 0) (ksub (ent N0 a b) (ent N1 a b)))).
  exists A, C, N0, N1. split; [|split; [exact E0|]; split; [exact E1|]; intros a b _ _; cbn [ent]; auto].
  intros i Hi. unfold A, C.
  destruct (two_ok (f_sys f) i 0 i 1 cdag_op c_op Fermion (f_two f) ltac:(discriminate) Hi ltac:(cbn; lia) Hi ltac:(cbn; lia) (sq2 _ _ _ _) (sq2 _ _ _ _)) as (A' & EA & _).
  destruct (two_ok (f_sys f) i 1 i 0 cdag_op c_op Fermion (f_two f) ltac:(discriminate) Hi ltac:(cbn; lia) Hi ltac:(cbn; lia) (sq2 _ _ _ _) (sq2 _ _ _ _)) as (C' & EC & _). rewrite EA, EC. auto.
Qed.
Lemma ring_spins : sector_spin Nat.odd 4 2 = 0 /\ sector_spin Nat.odd 4 1 = 1.
Proof. unfold sector_spin, of_kind. cbn [seq filter Nat.odd Nat.even negb Bool.eqb length INR]. split; [rewrite Rabs_right by lra; rewrite Rabs_right by lra; rewrite Rmax_left by lra; lra | rewrite Rabs_left1 by lra; rewrite Rabs_right by lra; rewrite Rmax_left by lra; lra]. Qed.
Lemma row_spins : sector_spin Nat.odd 3 1 = 1 / 2 /\ sector_spin Nat.odd 3 2 = 1 / 2 /\ sector_spin Nat.odd 3 0 = 3 / 2.
Proof.
  unfold sector_spin, of_kind. cbn [seq filter Nat.odd Nat.even negb Bool.eqb length INR]. rewrite (Rabs_left1 (1 - (1 + 1))), (Rabs_left1 (1 - (1 + 1 + 1) / 2)), (Rabs_right (1 + 1 - (1 + 1 + 1) / 2)), (Rabs_left1 (0 - (1 + 1 + 1) / 2)) by lra.
  split; [rewrite Rmax_left by lra; lra|]. split; rewrite Rmax_left by lra; lra.
Qed.
Lemma row3_repels u : 0 < u -> repelling Nat.odd (row3 u).
Proof.
  intros Hu. split; [reflexivity|]. split; [|split; [|split]].
  - intros i j Hij. exists (if near i j then -1 else 0). rewrite !row3_amplitude by exact Hij. split; [reflexivity|]. split; [reflexivity|].
    assert (i = 1 \/ i = 2)%nat as [-> | ->] by (cbn in Hij; lia); destruct j as [|[|j]]; try (cbn in Hij; lia); cbn; intros Z; try discriminate; exfalso; apply Z; reflexivity.
  - intros. split; reflexivity.
  - exists 0. split; reflexivity.
  - exists (u / 2). intros i Hi. exists 0, u. repeat split; lra.
Qed.
Lemma row3_symmetric u : spin_symmetric (row3 u). Proof. split; [cbn; lia|]. repeat split; auto. Qed.
(** On the ring the lowest states with two particles of each species are singlets; those
    with one and three have spin 1 and lie higher. *)
Example ex_repel_spin : forall u, 0 < u -> exists P idx H V E P' idx' H' V' E' X Y Z, shell 4 2 [2; 2]%nat P idx /\ createH (pair_ring u) (Some P) = Ok H /\ eigenbasis H V E /\
  shell 4 2 [1; 3]%nat P' idx' /\ createH (pair_ring u) (Some P') = Ok H' /\ eigenbasis H' V' E' /\ fermi_spin (pair_ring u) X Y Z /\
  forall e e', smallest e E -> smallest e' E' -> e < e' /\ (forall psi, state_of (length idx) H e psi -> has_spin 256 X Y Z 0 (spread idx psi)) /\ (forall psi, state_of (length idx') H' e' psi -> has_spin 256 X Y Z 1 (spread idx' psi)).
Proof.
  intros u Hu. destruct (made_basis (pair_ring u) [2; 2]%nat ltac:(discriminate) eq_refl ltac:(left; cbn; lia) (pair_ring_real u)) as (P & idx & H & V & E & _ & SH & EH & B).
  destruct (made_basis (pair_ring u) [1; 3]%nat ltac:(discriminate) eq_refl ltac:(left; cbn; lia) (pair_ring_real u)) as (P' & idx' & H' & V' & E' & _ & SH' & EH' & B').
  destruct (fermi_spin_exists (pair_ring u) eq_refl ltac:(discriminate)) as (X & Y & Z & SC). destruct ring_spins as (S2 & S1).
  exists P, idx, H, V, E, P', idx', H', V', E', X, Y, Z. split; [exact SH|]. split; [exact EH|]. split; [exact B|]. split; [exact SH'|]. split; [exact EH'|]. split; [exact B'|]. split; [exact SC|]. intros e e' SM SM'.
  pose proof (C155_order Nat.odd (pair_ring u) (pair_ring_repels u Hu) (pair_ring_symmetric u) (pair_ring_linked u) 2 P idx H V E e 1 P' idx' H' V' E' e' ltac:(cbn; lia) SH EH B SM ltac:(cbn; lia) SH' EH' B' SM') as (O & _).
  pose proof (C155_spin Nat.odd (pair_ring u) (pair_ring_repels u Hu) (pair_ring_symmetric u) (pair_ring_linked u)) as W.
  split; [apply O; change (fg_nsites (f_geom (pair_ring u))) with 4%nat; lra|]. split.
  - intros psi ST. rewrite <- S2. exact (W 2%nat P idx H V E e X Y Z psi ltac:(cbn; lia) SH EH B SM SC ST).
  - intros psi ST. rewrite <- S1. exact (W 1%nat P' idx' H' V' E' e' X Y Z psi ltac:(cbn; lia) SH' EH' B' SM' SC ST).
Qed.
(** In a row of three sites the ends are of one kind: the lowest energies with one and two
    particles in the first species agree, those with none lie higher. *)
Example ex_repel_row : forall u, 0 < u -> exists P1 idx1 H1 V1 E1 P2 idx2 H2 V2 E2 P0 idx0 H0 V0 E0, shell 3 2 [1; 2]%nat P1 idx1 /\ createH (row3 u) (Some P1) = Ok H1 /\ eigenbasis H1 V1 E1 /\
  shell 3 2 [2; 1]%nat P2 idx2 /\ createH (row3 u) (Some P2) = Ok H2 /\ eigenbasis H2 V2 E2 /\ shell 3 2 [0; 3]%nat P0 idx0 /\ createH (row3 u) (Some P0) = Ok H0 /\ eigenbasis H0 V0 E0 /\
  forall e1 e2 e0, smallest e1 E1 -> smallest e2 E2 -> smallest e0 E0 -> e1 = e2 /\ e1 < e0.
Proof.
  intros u Hu. destruct (made_basis (row3 u) [1; 2]%nat ltac:(discriminate) eq_refl (row3_us u) (row3_real u)) as (P1 & idx1 & H1 & V1 & E1 & _ & SH1 & EH1 & B1).
  destruct (made_basis (row3 u) [2; 1]%nat ltac:(discriminate) eq_refl (row3_us u) (row3_real u)) as (P2 & idx2 & H2 & V2 & E2 & _ & SH2 & EH2 & B2).
  destruct (made_basis (row3 u) [0; 3]%nat ltac:(discriminate) eq_refl (row3_us u) (row3_real u)) as (P0 & idx0 & H0 & V0 & E0 & _ & SH0 & EH0 & B0). destruct row_spins as (S1 & S2 & S0).
  exists P1, idx1, H1, V1, E1, P2, idx2, H2, V2, E2, P0, idx0, H0, V0, E0. repeat (split; [assumption|]). intros e1 e2 e0 M1 M2 M0.
  pose proof (C155_order Nat.odd (row3 u) (row3_repels u Hu) (row3_symmetric u) (row3_linked u)) as O.
  pose proof (O 1%nat P1 idx1 H1 V1 E1 e1 2%nat P2 idx2 H2 V2 E2 e2 ltac:(cbn; lia) SH1 EH1 B1 M1 ltac:(cbn; lia) SH2 EH2 B2 M2) as (_ & O12).
  pose proof (O 1%nat P1 idx1 H1 V1 E1 e1 0%nat P0 idx0 H0 V0 E0 e0 ltac:(cbn; lia) SH1 EH1 B1 M1 ltac:(cbn; lia) SH0 EH0 B0 M0) as (O10 & _).
  change (fg_nsites (f_geom (row3 u))) with 3%nat in *. split; [apply O12; lra | apply O10; lra].
Qed.
