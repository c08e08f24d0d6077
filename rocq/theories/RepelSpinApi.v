(** Total spin of fermions that repel each other, as many particles as sites: the statements
    for the objects of the code. *)
From Coq Require Import List Arith Lia Reals Lra ZArith QArith Qabs Bool Permutation Classical.
From Verif Require Import Scalars Res Matrix Sums SpecMat SpecFock ModelBase ModelFermions
  ModelGeometry ModelPhase ModelSymmetry SymBase ModelThermal SpecThermal ThermalBase ThermalFacts ThermalBasis Spectral Thermo SpecHeat SpecConvex Convex SpecSigns Signs SpecShells Shells ShellsRun SpecLieb Halves LiebSpin SpecHalf SpecSinglet SpecRepel RepelApi RepelMove RepelSpin RepelSector SpecRepelSpin RepelLevel.
From Verif Require Chain.
Import ListNotations.
Local Open Scope R_scope.

Section Api.
  Variables (part : nat -> bool) (f : fermions CR).
  Notation ns := (fg_nsites (f_geom f)).
  Hypothesis rep : repelling part f.
  Hypothesis sym : spin_symmetric f.
  Hypothesis conn : connected_hops f.
  Theorem repel_spin M P idx H V E e X Y Z psi : (M <= ns)%nat -> shell ns 2 [M; ns - M]%nat P idx -> createH f (Some P) = Ok H -> eigenbasis H V E -> smallest e E -> fermi_spin f X Y Z ->
    state_of (length idx) H e psi -> has_spin (2 ^ (ns * 2)) X Y Z (sector_spin part ns M) (spread idx psi).
  Proof using All.
    pose proof (rep_pair part f rep) as Q. revert rep sym conn. rewrite Q. cbn [f_geom pairsys]. intros rep' sym' conn' Mn sec made basis sm comps ST.
    destruct (classic (exists p, (p < length idx)%nat /\ psi p <> k0)) as [(p & Hp & NP)|NP].
    - apply (ground_spin part _ _ _ _ _ _ _ sym' rep' conn' X Y Z comps M e). split; [exact (smallest_least _ _ _ _ _ _ _ M P idx H Mn sec made V E e basis sm)|]. split; [apply (spread_lives _ M P idx Mn sec)|]. split; [exact (spread_eig _ _ _ _ _ _ _ M P idx H Mn sec made e psi ST)|].
      exists (nth p idx 0%nat). split; [apply (RepelSector.at_D _ M P idx Mn sec p Hp)|]. rewrite (spread_pos _ M P idx sec psi p Hp). exact NP.
    - assert (Z0 : forall a, spread idx psi a = k0).
      { intros a. unfold spread. apply ksum_zero. intros p Hp. destruct (_ =? _)%nat; [|reflexivity]. apply NNPP. intros W. apply NP. exists p. auto. }
      intros a Ha. assert (AZ : forall T : mat CR, forall u, (forall b, u b = k0) -> forall b, apply (2 ^ (ns * 2)) T u b = k0) by (intros T u U b; apply ksum_zero; intros c _; rewrite U; ring).
      rewrite !AZ by (intros; auto using AZ). rewrite Z0. apply injective_projections; cbn; ring.
  Qed.
  Theorem repel_order M P idx H V E e M' P' idx' H' V' E' e' : (M <= ns)%nat -> shell ns 2 [M; ns - M]%nat P idx -> createH f (Some P) = Ok H -> eigenbasis H V E -> smallest e E ->
    (M' <= ns)%nat -> shell ns 2 [M'; ns - M']%nat P' idx' -> createH f (Some P') = Ok H' -> eigenbasis H' V' E' -> smallest e' E' ->
    (sector_spin part ns M < sector_spin part ns M' -> e < e') /\ (sector_spin part ns M = sector_spin part ns M' -> e = e').
  Proof using All.
    pose proof (rep_pair part f rep) as Q. revert rep sym conn. rewrite Q. cbn [f_geom pairsys]. intros rep' sym' conn' Mn sec made basis sm Mn' sec' made' basis' sm'.
    pose proof (smallest_least _ _ _ _ _ _ _ M P idx H Mn sec made V E e basis sm) as L. pose proof (smallest_least _ _ _ _ _ _ _ M' P' idx' H' Mn' sec' made' V' E' e' basis' sm') as L'.
    split; [exact (sectors_order part _ _ _ _ _ _ _ sym' rep' conn' M M' e e' Mn Mn' L L') | exact (sectors_same part _ _ _ _ _ _ _ sym' rep' conn' M M' e e' Mn Mn' L L')].
  Qed.
End Api.
