(** Concrete cases that meet the hypotheses of C154. *)
From Coq Require Import List Arith Lia Reals Lra ZArith QArith Qabs Bool.
From Verif Require Import Scalars Res Sums Matrix SqMat SpecMat SpecFock FockProofs FermiOps HamProofs ModelBase ModelFermions FermiApi ModelGeometry ModelPhase ModelSymmetry ModelThermal SpecThermal ThermalBase Spectral
  SymAverage SpecHeat SpecConvex Thermo SpecSigns SpecShells SymBase Signs Perron Shells ShellsRun ShellsRing ExamplesShells SpecHalf SpecLieb ExamplesLieb SpecRepel PropertiesRepel.
From Verif Require Import FreeThermal.
Import ListNotations.
Local Open Scope R_scope.

(** The ring of four sites with hopping 1 and repulsion [u]; odd and even sites are the two
    kinds. *)
Lemma pair_ring_repels u : 0 < u -> repelling Nat.odd (pair_ring u).
Proof.
  intros Hu. split; [reflexivity|]. split; [|split; [|split]].
  - intros i j Hij. exists (IZR (ring_t i j)). rewrite !pair_amplitude, !ring_amplitude by exact Hij. split; [reflexivity|]. split; [reflexivity|].
    assert (i = 1 \/ i = 2 \/ i = 3)%nat as [-> | [-> | ->]] by (cbn in Hij; lia); destruct j as [|[|[|j]]]; try (cbn in Hij; lia); cbn; intros Z; try discriminate; exfalso; apply Z; reflexivity.
  - intros. split; reflexivity.
  - exists 0. split; reflexivity.
  - exists (u / 2). intros i Hi. exists 0, u. repeat split; lra.
Qed.
(** Two particles of each species, and one of the first and three of the second. *)
Example ex_repel_ring : forall u M, 0 < u -> (M <= 4)%nat -> exists P (idx : list nat) H V E, n_projector (f_sys (pair_ring u)) (Some [Some M; Some (4 - M)%nat]) = Ok P /\ shell 4 2 [M; 4 - M]%nat P idx /\ createH (pair_ring u) (Some P) = Ok H /\ eigenbasis H V E /\
  forall e k j, smallest e E -> (k < length E)%nat -> (j < length E)%nat -> nth k E 0 = e -> nth j E 0 = e -> k = j.
Proof.
  intros u M Hu HM. destruct (made_basis (pair_ring u) [M; 4 - M]%nat ltac:(discriminate) eq_refl ltac:(left; cbn; lia) (pair_ring_real u)) as (P & idx & H & V & E & EP & SH & EH & B).
  exists P, idx, H, V, E. split; [exact EP|]. split; [exact SH|]. split; [exact EH|]. split; [exact B|].
  intros e k j SM. exact (C154_unique Nat.odd (pair_ring u) M P idx H V E e (pair_ring_repels u Hu) (pair_ring_linked u) HM SH EH B SM k j).
Qed.
(** Spins of neighbours point in opposite directions, those across the ring in the same
    one, and every site carries one particle on average. *)
Example ex_repel_corr : forall u, 0 < u -> exists P (idx : list nat) H V E O1 O2 N0 N1, shell 4 2 [2; 2]%nat P idx /\ createH (pair_ring u) (Some P) = Ok H /\ eigenbasis H V E /\
  (exists A C1 C2, two_site_op (f_sys (pair_ring u)) 0 0 0 1 cdag_op c_op Fermion = Ok A /\ two_site_op (f_sys (pair_ring u)) 1 1 1 0 cdag_op c_op Fermion = Ok C1 /\ two_site_op (f_sys (pair_ring u)) 2 1 2 0 cdag_op c_op Fermion = Ok C2 /\
    sandwich P (mmul A C1) = Ok O1 /\ sandwich P (mmul A C2) = Ok O2) /\
  (exists A0 A1, single_site_op (f_sys (pair_ring u)) 0 0 n_op Boson = Ok A0 /\ single_site_op (f_sys (pair_ring u)) 0 1 n_op Boson = Ok A1 /\ sandwich P A0 = Ok N0 /\ sandwich P A1 = Ok N1) /\
  forall e psi, smallest e E -> state_of (length idx) H e psi -> expect (length idx) O1 psi <= 0 <= expect (length idx) O2 psi /\ expect (length idx) N0 psi + expect (length idx) N1 psi = norm2 (length idx) psi.
Proof.
  intros u Hu. destruct (made_basis (pair_ring u) [2; 2]%nat ltac:(discriminate) eq_refl ltac:(left; cbn; lia) (pair_ring_real u)) as (P & idx & H & V & E & EP & SH & EH & B).
  destruct (two_ok (f_sys (pair_ring u)) 0 0 0 1 cdag_op c_op Fermion (f_two _) ltac:(discriminate) ltac:(cbn; lia) ltac:(cbn; lia) ltac:(cbn; lia) ltac:(cbn; lia) (sq2 _ _ _ _) (sq2 _ _ _ _)) as (A & EA & SA & _).
  destruct (two_ok (f_sys (pair_ring u)) 1 1 1 0 cdag_op c_op Fermion (f_two _) ltac:(discriminate) ltac:(cbn; lia) ltac:(cbn; lia) ltac:(cbn; lia) ltac:(cbn; lia) (sq2 _ _ _ _) (sq2 _ _ _ _)) as (C1 & EC1 & SC1 & _).
  destruct (two_ok (f_sys (pair_ring u)) 2 1 2 0 cdag_op c_op Fermion (f_two _) ltac:(discriminate) ltac:(cbn; lia) ltac:(cbn; lia) ltac:(cbn; lia) ltac:(cbn; lia) (sq2 _ _ _ _) (sq2 _ _ _ _)) as (C2 & EC2 & SC2 & _).
  destruct (single_ok (f_sys (pair_ring u)) 0 0 n_op Boson (f_two _) ltac:(discriminate) ltac:(cbn; lia) ltac:(cbn; lia) (sq2 _ _ _ _)) as (A0 & E0 & S0 & _).
  destruct (single_ok (f_sys (pair_ring u)) 0 1 n_op Boson (f_two _) ltac:(discriminate) ltac:(cbn; lia) ltac:(cbn; lia) (sq2 _ _ _ _)) as (A1 & E1 & S1 & _).
  assert (SM1 : square (2 ^ nlog (f_sys (pair_ring u))) (mmul A C1)) by (split; cbn [mmul nrow ncol]; [apply SA | apply SC1]).
  assert (SM2 : square (2 ^ nlog (f_sys (pair_ring u))) (mmul A C2)) by (split; cbn [mmul nrow ncol]; [apply SA | apply SC2]).
  destruct (sandwich_ok (2 ^ nlog (f_sys (pair_ring u))) P (mmul A C1) (proj1 (proj2 (proj1 SH))) SM1) as (O1 & EO1 & _ & _).
  destruct (sandwich_ok (2 ^ nlog (f_sys (pair_ring u))) P (mmul A C2) (proj1 (proj2 (proj1 SH))) SM2) as (O2 & EO2 & _ & _).
  destruct (sandwich_ok (2 ^ nlog (f_sys (pair_ring u))) P A0 (proj1 (proj2 (proj1 SH))) S0) as (N0 & EN0 & _ & _).
  destruct (sandwich_ok (2 ^ nlog (f_sys (pair_ring u))) P A1 (proj1 (proj2 (proj1 SH))) S1) as (N1 & EN1 & _ & _).
  exists P, idx, H, V, E, O1, O2, N0, N1. split; [exact SH|]. split; [exact EH|]. split; [exact B|]. split; [exists A, C1, C2; auto|]. split; [exists A0, A1; auto|]. intros e psi Sm ST.
  pose proof (C154_spins Nat.odd (pair_ring u) 2 P idx H V E e (pair_ring_repels u Hu) (pair_ring_linked u) ltac:(cbn; lia) SH EH B Sm 0%nat 1%nat A C1 O1 psi ltac:(cbn; lia) ltac:(cbn; lia) EA EC1 EO1 ST) as Q1.
  pose proof (C154_spins Nat.odd (pair_ring u) 2 P idx H V E e (pair_ring_repels u Hu) (pair_ring_linked u) ltac:(cbn; lia) SH EH B Sm 0%nat 2%nat A C2 O2 psi ltac:(cbn; lia) ltac:(cbn; lia) EA EC2 EO2 ST) as Q2.
  unfold side in Q1, Q2. cbn [Nat.odd Nat.even negb] in Q1, Q2. split; [split; lra|].
  exact (C154_density Nat.odd (pair_ring u) 2 P idx H V E e (pair_ring_repels u Hu) (pair_ring_linked u) ltac:(cbn; lia) SH EH B Sm 0%nat A0 A1 N0 N1 psi ltac:(cbn; lia) E0 E1 EN0 EN1 ST).
Qed.
