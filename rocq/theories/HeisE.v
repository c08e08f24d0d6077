(** Bounds on the energies of Heisenberg models of spins 1/2. *)
From Coq Require Import List Arith Lia Reals Lra Psatz ZArith QArith Bool.
From Verif Require Import Scalars Res Matrix Sums SqMat SpecMat ModelBase ModelFermions ModelSpins SpecSpins Digits SpinAlg SpinOps HamProofs SpinHam SpinApi ModelGeometry ModelPhase
  SignsSpins Sectors Ladder Axes SpecUncertain Uncertain SpecPrecess Precess ModelSymmetry SymBase ModelThermal SpecThermal ThermalBase ThermalBasis Scalar.
Import ListNotations.
Local Open Scope R_scope.

Section Energy.
  Variables (rt : nat -> CR) (n : nat) (J : nat -> nat -> R).
  Notation D := (2 ^ n)%nat.
  Hypothesis R1 : rt 1%nat = k1.
  Notation X := (ent (sx_op rt 1)).
  Notation Y := (ent (sy_op rt 1)).
  Notation Z := (ent (sz_op (K:=CR) 1)).
  Notation pair i j A psi := (Axes.st n i A (Axes.st n j A psi)).
  Notation HE := (spin_elem 2 n (kofnat 2) k1 X Y Z (fun i j => real (J i j)) (fun i j => real (J i j)) (fun i j => real (J i j)) (fun _ => c0) (fun _ => c0) (fun _ => c0)).
  Lemma he_acts psi a : (a < D)%nat -> ksum D (fun b => HE a b *c psi b) = ksum n (fun i => ksum i (fun j => real (2 * J i j) *c (pair i j X psi a +c pair i j Y psi a +c pair i j Z psi a))).
  Proof using.
    intros Ha. transitivity (ksum D (fun b => ksum n (fun i => ksum i (fun j => real (2 * J i j) *c (pair_elem 2 n i j X X a b *c psi b +c pair_elem 2 n i j Y Y a b *c psi b +c pair_elem 2 n i j Z Z a b *c psi b))))).
    - apply ksum_ext. intros b Hb. unfold spin_elem.
      match goal with |- kmul (ksub ?A ?B) _ = _ => assert (ZB : B = c0) by (apply ksum_zero; intros p _; change (@k0 CR _) with c0; ring); rewrite ZB; transitivity (A *c psi b); [ring|]; clear ZB end.
      rewrite <- ksum_mul_r. apply ksum_ext. intros i _. rewrite <- ksum_mul_r. apply ksum_ext. intros j _. replace (real (2 * J i j)) with (kofnat 2 *c real (J i j)); [ring|]. apply injective_projections; cbn; unfold Q2R; cbn; field.
    - rewrite ksum_swap. apply ksum_ext. intros i Hi. rewrite ksum_swap. apply ksum_ext. intros j Hj. rewrite ksum_mul_l, !ksum_add. rewrite !pair_acts by lia. reflexivity.
  Qed.
  Lemma inner_he psi : inner D psi (fun a => ksum D (fun b => HE a b *c psi b)) = ksum n (fun i => ksum i (fun j => real (2 * J i j) *c (inner D psi (pair i j X psi) +c inner D psi (pair i j Y psi) +c inner D psi (pair i j Z psi)))).
  Proof using.
    unfold inner. transitivity (ksum D (fun a => ksum n (fun i => ksum i (fun j => real (2 * J i j) *c (conj (psi a) *c pair i j X psi a +c conj (psi a) *c pair i j Y psi a +c conj (psi a) *c pair i j Z psi a))))).
    - apply ksum_ext. intros a Ha. rewrite he_acts by exact Ha. rewrite <- ksum_mul_l. apply ksum_ext. intros i _. rewrite <- ksum_mul_l. apply ksum_ext. intros j _. ring.
    - rewrite ksum_swap. apply ksum_ext. intros i Hi. rewrite ksum_swap. apply ksum_ext. intros j Hj. rewrite ksum_mul_l, !ksum_add. reflexivity.
  Qed.
  Lemma sum_bounds (m : nat) (f lo hi : nat -> R) : (forall i, (i < m)%nat -> lo i <= f i <= hi i) -> rsum m lo <= rsum m f <= rsum m hi.
  Proof using. induction m as [|m IH]; intros B; [cbn; lra|]. cbn. specialize (IH ltac:(intros; apply B; lia)). specialize (B m ltac:(lia)). lra. Qed.
  Lemma he_bounds psi : norm2 D psi = 1 ->
    rsum n (fun i => rsum i (fun j => Rmin (- (3 / 2) * J i j) (1 / 2 * J i j))) <= fst (inner D psi (fun a => ksum D (fun b => HE a b *c psi b))) <= rsum n (fun i => rsum i (fun j => Rmax (- (3 / 2) * J i j) (1 / 2 * J i j))).
  Proof using R1.
    intros U. rewrite inner_he, fst_ksum. apply sum_bounds. intros i Hi. rewrite fst_ksum. apply sum_bounds. intros j Hj.
    pose proof (scalar_bounds rt n i j R1 Hi ltac:(lia) ltac:(lia) psi) as B. rewrite U in B. destruct (_ +c _) as (u, v). cbn [fst] in B |- *.
    replace (fst (real (2 * J i j) *c (u, v))) with (2 * J i j * u) by (cbn; ring). unfold Rmin, Rmax. destruct (Rle_dec _ _); nra.
  Qed.
End Energy.
Theorem heisenberg_energies rt (s : spins CR) (J : nat -> nat -> R) (H V : mat CR) E k : let n := sg_nsites (sp_geom s) in rt 1%nat = k1 -> sp_two s = 1%nat ->
  (forall i j, (j < i < n)%nat -> sp_jx s i j = real (J i j) /\ sp_jy s i j = real (J i j) /\ sp_jz s i j = real (J i j)) -> (forall i, (i < n)%nat -> sp_hx s i = c0 /\ sp_hy s i = c0 /\ sp_hz s i = c0) ->
  sp_createH rt s None = Ok H -> eigenbasis H V E -> (k < length E)%nat ->
  rsum n (fun i => rsum i (fun j => Rmin (- (3 / 2) * J i j) (1 / 2 * J i j))) <= nth k E 0 <= rsum n (fun i => rsum i (fun j => Rmax (- (3 / 2) * J i j) (1 / 2 * J i j))).
Proof.
  intros n R1 half HJ HF EH ((L & N1 & N2 & EV) & ON & _) Hk. unfold n in *.
  destruct (any_spin rt s) as (H' & EH' & (M1 & M2 & M)); [intros i Hi; apply HF; lia|]. rewrite EH in EH'. injection EH' as <-. cbn [spin_hamiltonian nrow ncol ent] in M1, M2, M. rewrite half in M1, M2, M. change (1 + 1)%nat with 2%nat in *.
  set (m := sg_nsites (sp_geom s)) in *. assert (NV : nrow V = (2 ^ m)%nat) by congruence. rewrite NV in *.
  assert (U : norm2 (2 ^ m) (col V k) = 1) by (pose proof (ON k k ltac:(congruence) ltac:(congruence)) as O; rewrite NV, Nat.eqb_refl in O; unfold norm2; rewrite O; reflexivity).
  pose proof (he_bounds rt m J R1 (col V k) U) as B.
  match type of B with _ <= fst ?I <= _ => assert (X : I = real (nth k E 0)) end.
  { transitivity (inner (2 ^ m) (col V k) (fun a => real (nth k E 0) *c col V k a)).
    - apply inner_ext; [reflexivity|]. intros a Ha. transitivity (apply (2 ^ m) H (col V k) a); [|exact (EV a k Ha ltac:(congruence))]. unfold apply. apply ksum_ext. intros b Hb. rewrite (M a b) by (rewrite ?M1, ?M2; assumption). f_equal.
      unfold spin_elem. f_equal; apply ksum_ext; intros i Hi; [apply ksum_ext; intros j Hj; destruct (HJ i j ltac:(lia)) as (-> & -> & ->); reflexivity | destruct (HF i Hi) as (-> & -> & ->); reflexivity].
    - rewrite inner_scale, inner_self, U. apply injective_projections; cbn; ring. }
  rewrite X in B. exact B.
Qed.
