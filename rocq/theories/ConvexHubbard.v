(** Interactions and potentials of the Hubbard model: proofs. *)
From Coq Require Import List Arith Lia Reals Lra ZArith QArith Bool.
From Verif Require Import Scalars Res Matrix Sums SqMat CarAlgebra ModelBase ModelFermions SpecFock SpecHubbard OpsProofs
  FockProofs FermiOps SwapProofs HamProofs HamSym
  ModelGeometry ModelPhase ModelSymmetry SymBase ModelThermal SpecThermal ThermalBase ThermalFacts ThermalBasis Spectral FreeKms FreeFermi FreeThermal SpecFermiGas SpecHalf HalfModes HalfHam Thermo SpecHeat SpecConvex Convex ConvexRun.
Import ListNotations.
Local Open Scope R_scope.

Lemma cancel_u (A u w C D E : CR) : ((A +c u +c C -c D +c E) -c (A +c w +c C -c D +c E)) = u -c w. Proof. ring. Qed.
Lemma cancel_v (A u v w C D : CR) : ((A +c u +c C -c D +c v) -c (A +c u +c C -c D +c w)) = v -c w. Proof. ring. Qed.
Section Common.
  Variable f : fermions CR.
  Notation s := (f_sys f).
  Notation ns := (fg_nsites (f_geom f)).
  Notation m := (f_nspecies f).
  Notation nl := (nlog (f_sys f)).
  Notation N := (2 ^ nlog (f_sys f))%nat.
  Lemma N_some : N <> 0%nat. Proof using. apply Nat.pow_nonzero. discriminate. Qed.
  Lemma basis_rows H V E : nrow H = N -> eigenbasis H V E -> nrow V = N.
  Proof using. intros R ((_ & S & _) & _). congruence. Qed.
  (** A pair of numbers is not negative. *)
  Lemma double_pos i O psi : (2 <= m)%nat -> (i < ns)%nat -> two_site_op s i 0 i 1 n_op n_op Boson = Ok O -> 0 <= expect N O psi.
  Proof using.
    intros Hm Hi EO. destruct (two_ok s i 0 i 1 n_op n_op Boson (f_two f) ltac:(discriminate) Hi ltac:(change (0 < m)%nat; lia) Hi ltac:(change (1 < m)%nat; lia) (sq2 _ _ _ _) (sq2 _ _ _ _)) as (O' & EO' & SO & VO).
    rewrite EO in EO'. injection EO' as <-. change (seqv (N:=N) (ent O) (smul (Nn nl (lsite s i 0)) (Nn nl (lsite s i 1)))) in VO.
    assert (Q0 : (lsite s i 0 < nl)%nat) by (apply q_lt; lia). assert (Q1 : (lsite s i 1 < nl)%nat) by (apply q_lt; lia).
    set (P := smul (N:=N) (Nn (K:=CR) nl (lsite s i 0)) (Nn nl (lsite s i 1))) in *.
    assert (PP : seqv (N:=N) (smul P P) P).
    { unfold P. set (x := Nn (K:=CR) nl (lsite s i 0)). set (y := Nn (K:=CR) nl (lsite s i 1)).
      assert (C : seqv (N:=N) (smul y x) (smul x y)) by (apply (NN_comm f); assumption). assert (IX : seqv (N:=N) (smul x x) x) by (apply Nn_idem; assumption). assert (IY : seqv (N:=N) (smul y y) y) by (apply Nn_idem; assumption).
      transitivity (smul (N:=N) x (smul (smul y x) y)); [rewrite !smul_assoc; reflexivity|]. rewrite C. transitivity (smul (N:=N) (smul x x) (smul y y)); [rewrite !smul_assoc; reflexivity|]. rewrite IX, IY. reflexivity. }
    assert (PA : seqv (N:=N) (sadj P) P) by (apply NN_adj; assumption).
    unfold expect.
    assert (X : inner N psi (apply N O psi) = inner N (apply N O psi) (apply N O psi)).
    { rewrite <- (inner_apply_herm N O psi (apply N O psi)).
      - apply inner_ext; [reflexivity|]. intros a Ha. unfold apply.
        transitivity (ksum N (fun b => smul (N:=N) P P a b *c psi b)).
        + apply ksum_ext. intros b Hb. rewrite (PP a b Ha Hb). rewrite VO by assumption. reflexivity.
        + unfold smul. rewrite (ksum_ext N _ (fun b => ksum N (fun c => P a c *c (P c b *c psi b)))) by (intros b Hb; rewrite <- ksum_mul_r; apply ksum_ext; intros; ring).
          rewrite ksum_swap. apply ksum_ext. intros c Hc. rewrite ksum_mul_l. rewrite (VO a c Ha Hc). f_equal. apply ksum_ext. intros b Hb. rewrite (VO c b Hc Hb). reflexivity.
      - intros a b Ha Hb. rewrite !VO by assumption. rewrite <- (PA a b Ha Hb). reflexivity. }
    rewrite X. unfold inner. rewrite fst_ksum, rsum_total. apply total_ge0. intros c _. destruct (apply N O psi c) as (x, y). cbn. nra.
  Qed.
End Common.

Section Interactions.
  Variables (f : fermions CR) (u1 u2 : nat -> R).
  Notation s := (f_sys f).
  Notation ns := (fg_nsites (f_geom f)).
  Notation m := (f_nspecies f).
  Notation nl := (nlog (f_sys f)).
  Notation N := (2 ^ nlog (f_sys f))%nat.
  Hypothesis Hm : (2 <= m)%nat.
  Notation f1 := (with_interactions f u1).
  Notation f2 := (with_interactions f u2).
  Variables (H1 V1 H2 V2 : mat CR) (E1 E2 : list R).
  Hypothesis h1 : createH f1 None = Ok H1.
  Hypothesis h2 : createH f2 None = Ok H2.
  Hypothesis b1 : eigenbasis H1 V1 E1.
  Hypothesis b2 : eigenbasis H2 V2 E2.
  Variable O : nat -> mat CR.
  Hypothesis ops : forall i, (i < ns)%nat -> two_site_op s i 0 i 1 n_op n_op Boson = Ok (O i).

  Lemma inter_size : nrow H1 = N /\ ncol H1 = N /\ nrow H2 = N /\ ncol H2 = N.
  Proof using Hm h1 h2.
    destruct (H_is f1 (or_introl Hm) H1 h1) as (A & B & _). destruct (H_is f2 (or_introl Hm) H2 h2) as (C & D & _). auto.
  Qed.
  Lemma inter_ops i : (i < ns)%nat -> nrow (O i) = N /\ ncol (O i) = N /\ seqv (N:=N) (ent (O i)) (smul (Nn nl (lsite s i 0)) (Nn nl (lsite s i 1))).
  Proof using Hm ops.
    clear h1 h2 b1 b2. intros Hi. destruct (two_ok s i 0 i 1 n_op n_op Boson (f_two f) ltac:(discriminate) Hi ltac:(change (0 < m)%nat; lia) Hi ltac:(change (1 < m)%nat; lia) (sq2 _ _ _ _) (sq2 _ _ _ _)) as (O' & EO' & (S1 & S2) & VO).
    rewrite (ops i Hi) in EO'. injection EO' as <-. auto.
  Qed.
  Lemma inter_difference a b : (a < N)%nat -> (b < N)%nat -> ent (msub H2 H1) a b = ksum ns (fun i => real (u2 i - u1 i) *c ent (O i) a b).
  Proof using Hm h1 h2 ops.
    intros Ha Hb. destruct (H_is f1 (or_introl Hm) H1 h1) as (_ & _ & W1). destruct (H_is f2 (or_introl Hm) H2 h2) as (_ & _ & W2).
    cbn [msub ent]. rewrite (W1 a b Ha Hb), (W2 a b Ha Hb). unfold HS2. cbn [with_interactions f_us f_same f_mus f_pot].
    change (f_geom f1) with (f_geom f). change (f_geom f2) with (f_geom f). change (nlog (f_sys f1)) with nl. change (nlog (f_sys f2)) with nl. change (lsite (f_sys f1)) with (lsite s). change (lsite (f_sys f2)) with (lsite s).
    change (f_nspecies f1) with m. change (f_nspecies f2) with m. change (teff f1) with (teff f). change (teff f2) with (teff f).
    assert (X : ksum ns (fun i => real (u2 i - u1 i) *c ent (O i) a b) =
      ksum ns (fun i => re (u2 i) *c smul (N:=N) (Nn nl (lsite s i 0)) (Nn nl (lsite s i 1)) a b) -c ksum ns (fun i => re (u1 i) *c smul (N:=N) (Nn nl (lsite s i 0)) (Nn nl (lsite s i 1)) a b)).
    { rewrite <- ksum_minus. apply ksum_ext. intros i Hi. destruct (inter_ops i Hi) as (_ & _ & V). rewrite (V a b Ha Hb). unfold re. apply injective_projections; cbn; ring. }
    rewrite X. apply cancel_u.
  Qed.
  Lemma inter_average H V E T (d : nat -> R) : nrow H = N -> eigenbasis H V E -> allowed T E -> (forall i, (i < ns)%nat -> exp_vals_thermal V (O i) E T = Ok (d i)) ->
    exp_vals_thermal V (msub H2 H1) E T = Ok (total (fun i => (u2 i - u1 i) * d i) (seq 0 ns)).
  Proof using Hm h1 h2 ops.
    intros RH B HT AV. pose proof (basis_rows f H V E RH B) as R. destruct inter_size as (S1 & S2 & S3 & S4).
    apply (average_sum H V E T (msub H2 H1) ns (fun i => u2 i - u1 i) d O B); rewrite ?R; [apply N_some | exact HT | exact S3 | exact S4 | | | exact AV].
    - intros i Hi. destruct (inter_ops i Hi) as (A1 & A2 & _). auto.
    - intros i j Hi Hj. apply inter_difference; assumption.
  Qed.
  Variables (T : R) (d1 d2 : nat -> R).
  Hypothesis av1 : forall i, (i < ns)%nat -> exp_vals_thermal V1 (O i) E1 T = Ok (d1 i).
  Hypothesis av2 : forall i, (i < ns)%nat -> exp_vals_thermal V2 (O i) E2 T = Ok (d2 i).
  Theorem doubles_respond : 0 <= T -> allowed T E1 -> allowed T E2 -> total (fun i => (u2 i - u1 i) * (d2 i - d1 i)) (seq 0 ns) <= 0.
  Proof using All.
    intros TP A1 A2. destruct inter_size as (S1 & S2 & S3 & S4). pose proof (basis_rows f H1 V1 E1 S1 b1) as R1. pose proof (basis_rows f H2 V2 E2 S3 b2) as R2.
    pose proof (average_falls H1 V1 H2 V2 E1 E2 b1 b2 ltac:(congruence) ltac:(rewrite R1; apply N_some) T _ _ TP A1 A2 (inter_average H1 V1 E1 T d1 S1 b1 A1 av1) (inter_average H2 V2 E2 T d2 S3 b2 A2 av2)) as X.
    rewrite (total_ext _ (fun i => (u2 i - u1 i) * d2 i + -1 * ((u2 i - u1 i) * d1 i))) by (intros; ring). rewrite total_add, total_scale. lra.
  Qed.
  Theorem interactions_free_energy : 0 < T -> total (fun i => (u2 i - u1 i) * d2 i) (seq 0 ns) <= free_energy T E2 - free_energy T E1 <= total (fun i => (u2 i - u1 i) * d1 i) (seq 0 ns).
  Proof using All.
    intros TP. destruct inter_size as (S1 & S2 & S3 & S4). pose proof (basis_rows f H1 V1 E1 S1 b1) as R1. pose proof (basis_rows f H2 V2 E2 S3 b2) as R2.
    apply (free_energy_bounds H1 V1 H2 V2 E1 E2 b1 b2 ltac:(congruence) ltac:(rewrite R1; apply N_some) T _ _ TP); [apply (inter_average H1) | apply (inter_average H2)]; try assumption; left; lra.
  Qed.
  Theorem repulsion_costs : 0 < T -> (forall i, (i < ns)%nat -> u1 i <= u2 i) -> free_energy T E1 <= free_energy T E2.
  Proof using All.
    intros TP LE. destruct inter_size as (S1 & S2 & S3 & S4). pose proof (basis_rows f H2 V2 E2 S3 b2) as R2.
    assert (P : 0 <= total (fun i => (u2 i - u1 i) * d2 i) (seq 0 ns)); [|pose proof (interactions_free_energy TP); lra].
    apply total_ge0. intros i Hi. apply in_seq in Hi. apply Rmult_le_pos; [specialize (LE i ltac:(lia)); lra|]. destruct (inter_ops i ltac:(lia)) as (A1 & A2 & _).
    apply (average_pos H2 V2 E2 T (O i) (d2 i) b2); [rewrite R2; apply N_some | left; lra | congruence | congruence | | apply av2; lia].
    intros psi. rewrite R2. apply (double_pos f i); [exact Hm | lia | apply ops; lia].
  Qed.
End Interactions.

Section Potentials.
  Variables (f : fermions CR) (v1 v2 : nat -> nat -> R).
  Notation s := (f_sys f).
  Notation ns := (fg_nsites (f_geom f)).
  Notation m := (f_nspecies f).
  Notation nl := (nlog (f_sys f)).
  Notation N := (2 ^ nlog (f_sys f))%nat.
  Hypothesis Hm : (2 <= m)%nat \/ (forall i, (i < ns)%nat -> f_us f i = c0).
  Notation f1 := (with_potentials f v1).
  Notation f2 := (with_potentials f v2).
  Variables (H1 V1 H2 V2 : mat CR) (E1 E2 : list R).
  Hypothesis h1 : createH f1 None = Ok H1.
  Hypothesis h2 : createH f2 None = Ok H2.
  Hypothesis b1 : eigenbasis H1 V1 E1.
  Hypothesis b2 : eigenbasis H2 V2 E2.
  Variable O : nat -> nat -> mat CR.
  Hypothesis ops : forall i k, (i < ns)%nat -> (k < m)%nat -> single_site_op s i k n_op Boson = Ok (O i k).

  Lemma pot_size : nrow H1 = N /\ ncol H1 = N /\ nrow H2 = N /\ ncol H2 = N.
  Proof using Hm h1 h2.
    destruct (H_is f1 Hm H1 h1) as (A & B & _). destruct (H_is f2 Hm H2 h2) as (C & D & _). auto.
  Qed.
  Lemma pot_ops i k : (i < ns)%nat -> (k < m)%nat -> nrow (O i k) = N /\ ncol (O i k) = N /\ seqv (N:=N) (ent (O i k)) (Nn nl (lsite s i k)).
  Proof using ops.
    clear h1 h2 b1 b2 Hm. intros Hi Hk. destruct (single_ok s i k n_op Boson (f_two f) ltac:(discriminate) Hi Hk (sq2 _ _ _ _)) as (O' & EO' & (S1 & S2) & VO).
    rewrite (ops i k Hi Hk) in EO'. injection EO' as <-. auto.
  Qed.
  Lemma pot_difference a b : (a < N)%nat -> (b < N)%nat -> ent (msub H2 H1) a b = ksum ns (fun i => real 1 *c ent (Mat N N (fun a b => ksum m (fun k => real (v2 i k - v1 i k) *c ent (O i k) a b))) a b).
  Proof using Hm h1 h2 ops.
    intros Ha Hb. destruct (H_is f1 Hm H1 h1) as (_ & _ & W1). destruct (H_is f2 Hm H2 h2) as (_ & _ & W2).
    cbn [msub ent]. rewrite (W1 a b Ha Hb), (W2 a b Ha Hb). unfold HS2. cbn [with_potentials f_us f_same f_mus f_pot].
    change (f_geom f1) with (f_geom f). change (f_geom f2) with (f_geom f). change (nlog (f_sys f1)) with nl. change (nlog (f_sys f2)) with nl. change (lsite (f_sys f1)) with (lsite s). change (lsite (f_sys f2)) with (lsite s).
    change (f_nspecies f1) with m. change (f_nspecies f2) with m. change (teff f1) with (teff f). change (teff f2) with (teff f).
    match goal with |- _ = ?r => assert (X : r =
      ksum ns (fun i => ksum m (fun k => re (v2 i k) *c Nn nl (lsite s i k) a b)) -c ksum ns (fun i => ksum m (fun k => re (v1 i k) *c Nn nl (lsite s i k) a b))) end.
    { rewrite <- ksum_minus. apply ksum_ext. intros i Hi. rewrite <- ksum_minus. change (real 1) with c1. transitivity (ksum m (fun k => real (v2 i k - v1 i k) *c ent (O i k) a b)); [ring|].
      apply ksum_ext. intros k Hk. destruct (pot_ops i k Hi Hk) as (_ & _ & V). rewrite (V a b Ha Hb). unfold re. apply injective_projections; cbn; ring. }
    rewrite X. apply cancel_v.
  Qed.
  Lemma pot_average H V E T (d : nat -> nat -> R) : nrow H = N -> eigenbasis H V E -> allowed T E -> (forall i k, (i < ns)%nat -> (k < m)%nat -> exp_vals_thermal V (O i k) E T = Ok (d i k)) ->
    exp_vals_thermal V (msub H2 H1) E T = Ok (total (fun i => total (fun k => (v2 i k - v1 i k) * d i k) (seq 0 m)) (seq 0 ns)).
  Proof using Hm h1 h2 ops.
    intros RH B HT AV. pose proof (basis_rows f H V E RH B) as R. destruct pot_size as (S1 & S2 & S3 & S4).
    rewrite (average_sum H V E T (msub H2 H1) ns (fun _ => 1) (fun i => total (fun k => (v2 i k - v1 i k) * d i k) (seq 0 m)) (fun i => Mat N N (fun a b => ksum m (fun k => real (v2 i k - v1 i k) *c ent (O i k) a b))) B); rewrite ?R.
    - f_equal. apply total_ext. intros; ring.
    - apply N_some.
    - exact HT.
    - exact S3.
    - exact S4.
    - intros i Hi. split; reflexivity.
    - intros i j Hi Hj. apply pot_difference; assumption.
    - intros i Hi. apply (average_sum H V E T _ m (fun k => v2 i k - v1 i k) (d i) (O i) B); rewrite ?R; [apply N_some | exact HT | reflexivity | reflexivity | | reflexivity | intros k Hk; apply AV; assumption].
      intros k Hk. destruct (pot_ops i k Hi Hk) as (A1 & A2 & _). auto.
  Qed.
  Variables (T : R) (d1 d2 : nat -> nat -> R).
  Hypothesis av1 : forall i k, (i < ns)%nat -> (k < m)%nat -> exp_vals_thermal V1 (O i k) E1 T = Ok (d1 i k).
  Hypothesis av2 : forall i k, (i < ns)%nat -> (k < m)%nat -> exp_vals_thermal V2 (O i k) E2 T = Ok (d2 i k).
  Theorem densities_respond : 0 <= T -> allowed T E1 -> allowed T E2 -> total (fun i => total (fun k => (v2 i k - v1 i k) * (d2 i k - d1 i k)) (seq 0 m)) (seq 0 ns) <= 0.
  Proof using All.
    intros TP A1 A2. destruct pot_size as (S1 & S2 & S3 & S4). pose proof (basis_rows f H1 V1 E1 S1 b1) as R1. pose proof (basis_rows f H2 V2 E2 S3 b2) as R2.
    pose proof (average_falls H1 V1 H2 V2 E1 E2 b1 b2 ltac:(congruence) ltac:(rewrite R1; apply N_some) T _ _ TP A1 A2 (pot_average H1 V1 E1 T d1 S1 b1 A1 av1) (pot_average H2 V2 E2 T d2 S3 b2 A2 av2)) as X.
    rewrite (total_ext _ (fun i => total (fun k => (v2 i k - v1 i k) * d2 i k) (seq 0 m) + -1 * total (fun k => (v2 i k - v1 i k) * d1 i k) (seq 0 m))).
    - rewrite total_add, total_scale. lra.
    - intros i _. rewrite <- total_scale, <- total_add. apply total_ext. intros; ring.
  Qed.
  Theorem potentials_free_energy : 0 < T -> total (fun i => total (fun k => (v2 i k - v1 i k) * d2 i k) (seq 0 m)) (seq 0 ns) <= free_energy T E2 - free_energy T E1
      <= total (fun i => total (fun k => (v2 i k - v1 i k) * d1 i k) (seq 0 m)) (seq 0 ns).
  Proof using All.
    intros TP. destruct pot_size as (S1 & S2 & S3 & S4). pose proof (basis_rows f H1 V1 E1 S1 b1) as R1. pose proof (basis_rows f H2 V2 E2 S3 b2) as R2.
    apply (free_energy_bounds H1 V1 H2 V2 E1 E2 b1 b2 ltac:(congruence) ltac:(rewrite R1; apply N_some) T _ _ TP); [apply (pot_average H1) | apply (pot_average H2)]; try assumption; left; lra.
  Qed.
End Potentials.
