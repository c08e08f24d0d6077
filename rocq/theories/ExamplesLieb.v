(** Concrete cases that meet the hypotheses of C150. *)
From Coq Require Import List Arith Lia Reals Lra ZArith QArith Qabs Bool.
From Verif Require Import Scalars Res Sums Matrix SqMat SpecMat SpecFock FockProofs FermiOps HamProofs ModelBase ModelFermions FermiApi ModelGeometry ModelPhase ModelSymmetry ModelThermal SpecThermal ThermalBase Spectral
  SymAverage SpecHeat SpecConvex Thermo SpecSigns SpecShells SymBase Signs Perron Shells ShellsRun ShellsRing ExamplesShells SpecHalf SpecLieb PropertiesLieb.
From Verif Require Import FreeThermal.
From Verif Require SpecSinglet.
Import ListNotations.
Local Open Scope R_scope.

(** Two species on the ring of four sites of [ring_f], hopping 1 and interaction [u]. *)
Definition pair_ring (u : R) : fermions CR := Ferm square_ring 2 (fun i j _ => (IZR (ring_t i j), 0)) (fun _ => (u, 0)) (fun _ _ _ => k0) (fun _ => k0) (fun _ _ => k0) (meye 256).
Lemma pair_amplitude u i j s : amplitude (pair_ring u) i j s = amplitude ring_f i j s. Proof. reflexivity. Qed.
Lemma pair_ring_attracts u : u < 0 -> attracting (pair_ring u).
Proof.
  intros Hu. split; [reflexivity|]. split; [|split; [|split; [|split]]].
  - intros i j Hij. exists (IZR (ring_t i j)). rewrite !pair_amplitude, !ring_amplitude by exact Hij. auto.
  - intros. exists 0. auto.
  - exists 0. auto.
  - intros. exists 0. auto.
  - intros. exists u. auto.
Qed.
Lemma pair_ring_linked u : connected_hops (pair_ring u).
Proof.
  intros s i j Hs Hi Hj. pose proof (ring_linked 0%nat i j ltac:(cbn; lia) Hi Hj) as L. induction L as [|j k L IH Hj' Hk HP]; [constructor|]. apply (hop_next _ _ _ j); [apply IH; exact Hj' | exact Hj' | exact Hk | exact HP].
Qed.
Lemma pair_ring_symmetric u : spin_symmetric (pair_ring u). Proof. split; [cbn; lia|]. repeat split; auto. Qed.
Lemma pair_ring_real u : real_couplings (pair_ring u). Proof. repeat split; intros; apply injective_projections; cbn; ring. Qed.
(** Two particles of each species: without interaction the ring has several ground states
    (C148), with any attraction it has one. *)
Example ex_pair_ring : forall u, u < 0 -> exists P (idx : list nat) H V E, n_projector (f_sys (pair_ring u)) (Some [Some 2%nat; Some 2%nat]) = Ok P /\ shell 4 2 [2; 2]%nat P idx /\ createH (pair_ring u) (Some P) = Ok H /\ eigenbasis H V E /\
  (forall e k j, smallest e E -> (k < length E)%nat -> (j < length E)%nat -> nth k E 0 = e -> nth j E 0 = e -> k = j) /\
  exists A, (forall i, (i < 4)%nat -> two_site_op (f_sys (pair_ring u)) i 0 i 1 cdag_op c_op Fermion = Ok (A i)) /\
    forall e psi, smallest e E -> state_of (length idx) H e psi -> forall a, (a < 256)%nat -> ksum 4 (fun i => apply 256 (A i) (SpecSinglet.spread idx psi) a) = k0.
Proof.
  intros u Hu. destruct (made_basis (pair_ring u) [2; 2]%nat ltac:(discriminate) eq_refl ltac:(left; cbn; lia) (pair_ring_real u)) as (P & idx & H & V & E & EP & SH & EH & B).
  exists P, idx, H, V, E. split; [exact EP|]. split; [exact SH|]. split; [exact EH|]. split; [exact B|]. split.
  - intros e k j SM. exact (C150_unique (pair_ring u) 2 P idx H V E e (pair_ring_attracts u Hu) (pair_ring_linked u) SH EH B SM k j).
  - exists (fun i => match two_site_op (f_sys (pair_ring u)) i 0 i 1 cdag_op c_op Fermion with Ok A => A | Raise _ => meye 1 end).
    assert (EA : forall i, (i < 4)%nat -> two_site_op (f_sys (pair_ring u)) i 0 i 1 cdag_op c_op Fermion = Ok (match two_site_op (f_sys (pair_ring u)) i 0 i 1 cdag_op c_op Fermion with Ok A => A | Raise _ => meye 1 end)).
    { intros i Hi. destruct (two_ok (f_sys (pair_ring u)) i 0 i 1 cdag_op c_op Fermion (f_two _) ltac:(discriminate) Hi ltac:(cbn; lia) Hi ltac:(cbn; lia) (sq2 _ _ _ _) (sq2 _ _ _ _)) as (A & -> & _). reflexivity. }
    split; [exact EA|]. intros e psi SM ST a Ha.
    exact (proj1 (C150_singlet (pair_ring u) 2 P idx H V E e (pair_ring_attracts u Hu) (pair_ring_linked u) SH EH B SM _ psi (pair_ring_symmetric u) EA ST a Ha)).
Qed.
(** Pairs hop coherently across the ring. *)
Example ex_pair_corr : forall u, u < 0 -> exists P (idx : list nat) H V E O, shell 4 2 [2; 2]%nat P idx /\ createH (pair_ring u) (Some P) = Ok H /\ eigenbasis H V E /\
  (exists A0 A1, two_site_op (f_sys (pair_ring u)) 0 0 2 0 cdag_op c_op Fermion = Ok A0 /\ two_site_op (f_sys (pair_ring u)) 0 1 2 1 cdag_op c_op Fermion = Ok A1 /\ sandwich P (mmul A0 A1) = Ok O) /\
  forall e psi, smallest e E -> state_of (length idx) H e psi -> 0 <= expect (length idx) O psi.
Proof.
  intros u Hu. destruct (made_basis (pair_ring u) [2; 2]%nat ltac:(discriminate) eq_refl ltac:(left; cbn; lia) (pair_ring_real u)) as (P & idx & H & V & E & EP & SH & EH & B).
  destruct (two_ok (f_sys (pair_ring u)) 0 0 2 0 cdag_op c_op Fermion (f_two _) ltac:(discriminate) ltac:(cbn; lia) ltac:(cbn; lia) ltac:(cbn; lia) ltac:(cbn; lia) (sq2 _ _ _ _) (sq2 _ _ _ _)) as (A0 & E0 & S0 & _).
  destruct (two_ok (f_sys (pair_ring u)) 0 1 2 1 cdag_op c_op Fermion (f_two _) ltac:(discriminate) ltac:(cbn; lia) ltac:(cbn; lia) ltac:(cbn; lia) ltac:(cbn; lia) (sq2 _ _ _ _) (sq2 _ _ _ _)) as (A1 & E1 & S1 & _).
  assert (SM : square (2 ^ nlog (f_sys (pair_ring u))) (mmul A0 A1)) by (split; cbn [mmul nrow ncol]; [apply S0 | apply S1]).
  destruct (sandwich_ok (2 ^ nlog (f_sys (pair_ring u))) P (mmul A0 A1) (proj1 (proj2 (proj1 SH))) SM) as (O & EO & _ & _).
  exists P, idx, H, V, E, O. split; [exact SH|]. split; [exact EH|]. split; [exact B|]. split; [exists A0, A1; auto|]. intros e psi Sm ST.
  exact (C150_pairs (pair_ring u) 2 P idx H V E e (pair_ring_attracts u Hu) (pair_ring_linked u) SH EH B Sm 0%nat 2%nat A0 A1 O psi ltac:(discriminate) ltac:(cbn; lia) ltac:(cbn; lia) E0 E1 EO ST).
Qed.
