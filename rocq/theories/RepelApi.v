(** Fermions that repel each other, as many particles as sites: the statements for the
    objects of the code. *)
From Coq Require Import List Arith Lia Reals Lra ZArith QArith Qabs Bool Permutation Classical.
From Verif Require Import Scalars Res Matrix Sums SqMat SpecMat SpecFock OpsProofs FockProofs FermiOps ModelBase ModelFermions ModelSpins SpecSpins Digits SpinOps SpinAlg SpinSwap SpinJordan HamProofs FermiApi SpecPerm
  ModelGeometry ModelPhase ModelSymmetry SymBase ModelThermal SpecThermal ThermalBase ThermalFacts ThermalBasis Spectral Thermo SpecHeat SpecConvex Convex SpecSigns Signs SignsHeat SignsSpins SpecSectors Perron Sectors HopSigns SpecShells Shells ShellsRun SpecLieb Halves SpecHalf SpecRepel Repel RepelRun RepelCorr.
Import ListNotations.
Local Open Scope R_scope.

Section Api.
  Variables (part : nat -> bool) (f : fermions CR) (M : nat) (P : mat CR) (idx : list nat) (H V : mat CR) (E : list R) (e : R).
  Notation ns := (fg_nsites (f_geom f)).
  Notation N := (length idx).
  Hypothesis rep : repelling part f.
  Hypothesis conn : connected_hops f.
  Hypothesis Mn : (M <= ns)%nat.
  Hypothesis sec : shell ns 2 [M; ns - M]%nat P idx.
  Hypothesis made : createH f (Some P) = Ok H.
  Hypothesis basis : eigenbasis H V E.
  Hypothesis sm : smallest e E.
  Lemma rep_pair : f = pairsys (f_geom f) (f_ts f) (f_us f) (f_same f) (f_mus f) (f_pot f) (f_proj f).
  Proof using rep. clear - rep. destruct f as [g m ts us same mus pot pr]. destruct rep as (Q & _). cbn in Q. subst m. reflexivity. Qed.
  Theorem repel_unique k j : (k < length E)%nat -> (j < length E)%nat -> nth k E 0 = e -> nth j E 0 = e -> k = j.
  Proof using All.
    pose proof rep_pair as Q. revert rep conn Mn sec made. rewrite Q. cbn [f_geom pairsys]. intros rep' conn' Mn' sec' made'. exact (half_unique part _ _ _ _ _ _ _ rep' conn' M P idx H V E e Mn' sec' made' basis sm k j).
  Qed.
  Theorem repel_state : exists G : nat -> nat -> R,
    (forall x y, G x y = G y x) /\
    (forall w : nat -> CR, (exists x, config ns M x /\ w x <> c0) -> 0 < fst (ksum (2 ^ ns) (fun x => ksum (2 ^ ns) (fun y => conj (w x) *c (real (G x y) *c w y))))) /\
    (forall psi, state_of N H e psi <-> exists z, forall p, (p < N)%nat ->
      let x := (nth p idx 0 / 2 ^ ns)%nat in let y := holes ns (nth p idx 0 mod 2 ^ ns)%nat in psi p = z *c real (hole_sign part ns y * G x y)).
  Proof using All.
    pose proof rep_pair as Q. revert rep conn Mn sec made. rewrite Q. cbn [f_geom pairsys]. intros rep' conn' Mn' sec' made'. exact (half_state part _ _ _ _ _ _ _ rep' conn' M P idx H V E e Mn' sec' made' basis sm).
  Qed.
  Theorem repel_spins i j A C O psi : (i < ns)%nat -> (j < ns)%nat ->
    two_site_op (f_sys f) i 0 i 1 cdag_op c_op Fermion = Ok A -> two_site_op (f_sys f) j 1 j 0 cdag_op c_op Fermion = Ok C -> sandwich P (mmul A C) = Ok O -> state_of N H e psi -> 0 <= side part i * side part j * expect N O psi.
  Proof using All.
    pose proof rep_pair as Q. revert rep conn Mn sec made. rewrite Q. cbn [f_geom pairsys]. intros rep' conn' Mn' sec' made'. exact (half_spins part _ _ _ _ _ _ _ rep' conn' M P idx H V E e Mn' sec' made' basis sm i j A C O psi).
  Qed.
  Theorem repel_density i A0 A1 O0 O1 psi : (i < ns)%nat -> single_site_op (f_sys f) i 0 n_op Boson = Ok A0 -> single_site_op (f_sys f) i 1 n_op Boson = Ok A1 -> sandwich P A0 = Ok O0 -> sandwich P A1 = Ok O1 ->
    state_of N H e psi -> expect N O0 psi + expect N O1 psi = norm2 N psi.
  Proof using All.
    pose proof rep_pair as Q. revert rep conn Mn sec made. rewrite Q. cbn [f_geom pairsys]. intros rep' conn' Mn' sec' made'. exact (half_density part _ _ _ _ _ _ _ rep' conn' M P idx H V E e Mn' sec' made' basis sm i A0 A1 O0 O1 psi).
  Qed.
End Api.
