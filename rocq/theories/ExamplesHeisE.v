(** Concrete cases that meet the hypotheses of C193. *)
From Coq Require Import List Arith Lia Reals Lra QArith ZArith Bool.
From Verif Require Import Scalars Res Matrix SpecMat ModelBase ModelFermions ModelSpins SpinAlg SpinApi Spectral ModelGeometry ModelPhase ModelSymmetry ModelThermal SpecThermal SymBase SpecBloch SpecParts FreeSpectrum AxesRun ExamplesParts PropertiesHeisE.
Import ListNotations.
Local Open Scope R_scope.

(** Three spins, each coupled to the others; the couplings may have any sign. *)
Definition triangle (J : nat -> nat -> R) : spins CR := Spins (SGeom 3 (fun i j => negb (i =? j)%nat) (fun _ _ => c1)) 1 (fun i j => real (J i j)) (fun i j => real (J i j)) (fun i j => real (J i j)) (fun _ => c0) (fun _ => c0) (fun _ => c0).
Lemma triangle_solved J : exists H V E, sp_createH root (triangle J) None = Ok H /\ eigenbasis H V E.
Proof.
  assert (R1 : roots_ok (K:=CR) root 1).
  { intros i Hi. replace i with 0%nat by lia. change ((0 + 1) * (1 - 0))%nat with 1%nat. rewrite root_1, kofnat_S, kofnat_0. split; apply injective_projections; cbn; ring. }
  destruct (spin_hermitian root (triangle J) None eq_refl R1) as (H & EH & (S1 & S2) & HM).
  - intros i j _ _. repeat split; apply injective_projections; cbn; ring.
  - intros i _. repeat split; apply injective_projections; cbn; ring.
  - left. reflexivity.
  - assert (HH : hermitian (nrow H) H) by (intros i j Hi Hj; destruct HM as (_ & _ & M); rewrite <- (M i j) by (cbn [madj nrow ncol]; congruence || lia); reflexivity).
    destruct (spectral (nrow H) H HH eq_refl ltac:(congruence)) as (V & E & B). exists H, V, E. split; [exact EH | exact B].
Qed.
Example ex_triangle : exists H V E, sp_createH root (triangle (fun _ _ => 1)) None = Ok H /\ eigenbasis H V E /\ length E = 8%nat /\ forall k, (k < 8)%nat -> - (9 / 2) <= nth k E 0 <= 3 / 2.
Proof.
  destruct (triangle_solved (fun _ _ => 1)) as (H & V & E & EH & B). exists H, V, E. split; [exact EH|]. split; [exact B|].
  assert (L : length E = 8%nat).
  { rewrite (basis_length H V E B). destruct B as ((_ & N1 & _) & _). rewrite <- N1. exact (proj1 (AxesRun.full_size root 3 (triangle (fun _ _ => 1)) H eq_refl eq_refl EH)). }
  split; [exact L|]. intros k Hk.
  pose proof (C193_energies root (triangle (fun _ _ => 1)) (fun _ _ => 1) H V E k root_1 eq_refl ltac:(intros; repeat split) ltac:(intros; repeat split) EH B ltac:(lia)) as X. cbv zeta in X. cbn [triangle sp_geom sg_nsites rsum] in X.
  unfold Rmin, Rmax in X. destruct (Rle_dec _ _) in X; lra.
Qed.
(** A ferromagnetic and two antiferromagnetic bonds. *)
Example ex_mixed : let J i j := if ((i =? 1) && (j =? 0))%nat then -1 else 1 in exists H V E, sp_createH root (triangle J) None = Ok H /\ eigenbasis H V E /\ forall k, (k < length E)%nat -> - (7 / 2) <= nth k E 0 <= 5 / 2.
Proof.
  intros J. destruct (triangle_solved J) as (H & V & E & EH & B). exists H, V, E. split; [exact EH|]. split; [exact B|]. intros k Hk.
  pose proof (C193_energies root (triangle J) J H V E k root_1 eq_refl ltac:(intros; repeat split) ltac:(intros; repeat split) EH B Hk) as X. cbv zeta in X. cbn [triangle sp_geom sg_nsites rsum] in X. cbn in X.
  unfold Rmin, Rmax in X. repeat destruct (Rle_dec _ _) in X; lra.
Qed.
(** The highest energy of the antiferromagnetic triangle is 3/2, the lowest one of the ferromagnetic triangle -3/2. *)
Example ex_extreme : exists H V E H' V' E', sp_createH root (triangle (fun _ _ => 1)) None = Ok H /\ eigenbasis H V E /\ sp_createH root (triangle (fun _ _ => -1)) None = Ok H' /\ eigenbasis H' V' E' /\
  In (3 / 2) E /\ (forall e, In e E -> e <= 3 / 2) /\ In (- (3 / 2)) E' /\ (forall e, In e E' -> - (3 / 2) <= e).
Proof.
  destruct (triangle_solved (fun _ _ => 1)) as (H & V & E & EH & B). destruct (triangle_solved (fun _ _ => -1)) as (H' & V' & E' & EH' & B'). exists H, V, E, H', V', E'. do 4 (split; [assumption|]).
  assert (S1 : rsum 3 (fun i => rsum i (fun _ => 1 / 2 * 1)) = 3 / 2) by (cbn; lra). assert (S2 : rsum 3 (fun i => rsum i (fun _ => 1 / 2 * -1)) = - (3 / 2)) by (cbn; lra).
  rewrite <- S2, <- S1. split; [exact (C193_parallel root (triangle (fun _ _ => 1)) (fun _ _ => 1) H V E root_1 eq_refl ltac:(intros; repeat split) ltac:(intros; repeat split) EH B)|].
  split; [intros e He; refine (proj2 (C193_extreme root (triangle (fun _ _ => 1)) (fun _ _ => 1) H V E e root_1 eq_refl ltac:(intros; repeat split) ltac:(intros; repeat split) EH B He) _); intros; lra|].
  split; [exact (C193_parallel root (triangle (fun _ _ => -1)) (fun _ _ => -1) H' V' E' root_1 eq_refl ltac:(intros; repeat split) ltac:(intros; repeat split) EH' B')|].
  intros e He; refine (proj1 (C193_extreme root (triangle (fun _ _ => -1)) (fun _ _ => -1) H' V' E' e root_1 eq_refl ltac:(intros; repeat split) ltac:(intros; repeat split) EH' B' He) _); intros; lra.
Qed.
