(** Fields on spins 1/2: proofs. *)
From Coq Require Import List Arith Lia Reals Lra ZArith QArith Bool.
From Verif Require Import Scalars Res Matrix Sums SqMat ModelBase ModelSpins SpecSpins OpsProofs SpinOps SpinAlg SpinHam SpinApi
  ModelGeometry ModelPhase ModelSymmetry SymBase ModelThermal SpecThermal ThermalBase ThermalFacts ThermalBasis SpecFermiGas Thermo SpecHeat SpecConvex Convex ConvexRun.
Import ListNotations.
Local Open Scope R_scope.

Lemma axis_square rt c : square 2 (axis_op rt c).
Proof. destruct c as [|[|c]]; split; reflexivity. Qed.
Section Fields.
  Variables (rt : nat -> CR) (s : spins CR) (h1 h2 : nat -> nat -> R).
  Notation n := (sg_nsites (sp_geom s)).
  Notation N := (2 ^ sg_nsites (sp_geom s))%nat.
  Hypothesis half : sp_two s = 1%nat.
  Variables (H1 V1 H2 V2 : mat CR) (E1 E2 : list R).
  Hypothesis m1 : sp_createH rt (with_fields s h1) None = Ok H1.
  Hypothesis m2 : sp_createH rt (with_fields s h2) None = Ok H2.
  Hypothesis b1 : eigenbasis H1 V1 E1.
  Hypothesis b2 : eigenbasis H2 V2 E2.
  Variable O : nat -> nat -> mat CR.
  Hypothesis ops : forall c i, (c < 3)%nat -> (i < n)%nat -> single_site_op (sp_sys s) i 0 (axis_op rt c) Boson = Ok (O c i).

  Lemma field_ham h H : sp_createH rt (with_fields s h) None = Ok H -> nrow H = N /\ ncol H = N /\ forall a b, (a < N)%nat -> (b < N)%nat -> ent H a b = H_elem rt (with_fields s h) a b.
  Proof using half.
    clear - half. intros EH. destruct (createH_full rt (with_fields s h) (half_fields (with_fields s h) half)) as (H' & E' & (S1 & S2) & V). rewrite EH in E'. injection E' as <-.
    cbn [with_fields sp_two sp_geom] in S1, S2, V. rewrite half in S1, S2, V. auto.
  Qed.
  Lemma field_ops c i : (c < 3)%nat -> (i < n)%nat -> nrow (O c i) = N /\ ncol (O c i) = N /\ forall a b, (a < N)%nat -> (b < N)%nat -> ent (O c i) a b = site_elem 2 n i (ent (axis_op rt c)) a b.
  Proof using half ops.
    clear - half ops. intros Hc Hi. destruct (single_elem (K:=CR) 2 ltac:(lia) n i (axis_op rt c) (axis_square rt c) Hi (or_introl eq_refl)) as (T & ET & (S1 & S2) & V).
    pose proof (ops c i Hc Hi) as X. unfold sp_sys in X. rewrite half in X. change (Sys n 1 (1 + 1)) with (dsys 2 n) in X. rewrite X in ET. injection ET as <-. auto.
  Qed.
  Lemma field_difference a b : (a < N)%nat -> (b < N)%nat -> ent (msub H2 H1) a b = ksum n (fun i => real 1 *c ent (Mat N N (fun a b => ksum 3 (fun c => real (- (h2 c i - h1 c i)) *c ent (O c i) a b))) a b).
  Proof using half m1 m2 ops.
    intros Ha Hb. destruct (field_ham h1 H1 m1) as (_ & _ & W1). destruct (field_ham h2 H2 m2) as (_ & _ & W2).
    cbn [msub ent]. rewrite (W1 a b Ha Hb), (W2 a b Ha Hb). unfold H_elem, spin_elem. cbn [with_fields sp_two sp_geom sp_jx sp_jy sp_jz sp_hx sp_hy sp_hz]. rewrite half. change (1 + 1)%nat with 2%nat.
    set (J := ksum n (fun i => ksum i _)).
    assert (X : forall h, ksum n (fun i => c1 *c (re (h 0%nat i) *c site_elem 2 n i (ent (sx_op rt 1)) a b +c re (h 1%nat i) *c site_elem 2 n i (ent (sy_op rt 1)) a b +c re (h 2%nat i) *c site_elem 2 n i (ent (sz_op 1)) a b)) =
      ksum n (fun i => ksum 3 (fun c => real (h c i) *c ent (O c i) a b))).
    { intros h. apply ksum_ext. intros i Hi. cbn [ksum]. destruct (field_ops 0 i ltac:(lia) Hi) as (_ & _ & Q0). destruct (field_ops 1 i ltac:(lia) Hi) as (_ & _ & Q1). destruct (field_ops 2 i ltac:(lia) Hi) as (_ & _ & Q2).
      rewrite (Q0 a b Ha Hb), (Q1 a b Ha Hb), (Q2 a b Ha Hb). cbn [axis_op]. change (re (h 0%nat i)) with (real (h 0%nat i)). change (re (h 1%nat i)) with (real (h 1%nat i)). change (re (h 2%nat i)) with (real (h 2%nat i)). change k0 with c0. ring. }
    transitivity ((J -c ksum n (fun i => ksum 3 (fun c => real (h2 c i) *c ent (O c i) a b))) -c (J -c ksum n (fun i => ksum 3 (fun c => real (h1 c i) *c ent (O c i) a b)))).
    - rewrite <- !X. reflexivity.
    - transitivity (ksum n (fun i => ksum 3 (fun c => real (h1 c i) *c ent (O c i) a b)) -c ksum n (fun i => ksum 3 (fun c => real (h2 c i) *c ent (O c i) a b))); [ring|].
      rewrite <- ksum_minus. apply ksum_ext. intros i Hi. rewrite <- ksum_minus. change (real 1) with c1. transitivity (ksum 3 (fun c => real (- (h2 c i - h1 c i)) *c ent (O c i) a b)); [|ring].
      apply ksum_ext. intros c Hc. apply injective_projections; cbn; ring.
  Qed.
  Lemma N_one : N <> 0%nat. Proof using. apply Nat.pow_nonzero. discriminate. Qed.
  Lemma field_rows H V E : nrow H = N -> eigenbasis H V E -> nrow V = N.
  Proof using. intros R ((_ & S & _) & _). congruence. Qed.
  Lemma field_average H V E T (m : nat -> nat -> R) : nrow H = N -> eigenbasis H V E -> allowed T E -> (forall c i, (c < 3)%nat -> (i < n)%nat -> exp_vals_thermal V (O c i) E T = Ok (m c i)) ->
    exp_vals_thermal V (msub H2 H1) E T = Ok (total (fun i => total (fun c => - (h2 c i - h1 c i) * m c i) (seq 0 3)) (seq 0 n)).
  Proof using half m1 m2 ops.
    intros RH B HT AV. pose proof (field_rows H V E RH B) as R. destruct (field_ham h2 H2 m2) as (S3 & S4 & _).
    rewrite (average_sum H V E T (msub H2 H1) n (fun _ => 1) (fun i => total (fun c => - (h2 c i - h1 c i) * m c i) (seq 0 3)) (fun i => Mat N N (fun a b => ksum 3 (fun c => real (- (h2 c i - h1 c i)) *c ent (O c i) a b))) B); rewrite ?R.
    - f_equal. apply total_ext. intros; ring.
    - apply N_one.
    - exact HT.
    - exact S3.
    - exact S4.
    - intros i Hi. split; reflexivity.
    - intros i j Hi Hj. apply field_difference; assumption.
    - intros i Hi. apply (average_sum H V E T _ 3 (fun c => - (h2 c i - h1 c i)) (fun c => m c i) (fun c => O c i) B); rewrite ?R; [apply N_one | exact HT | reflexivity | reflexivity | | reflexivity | intros c Hc; apply AV; assumption].
      intros c Hc. destruct (field_ops c i Hc Hi) as (A1 & A2 & _). auto.
  Qed.
  Variables (T : R) (p1 p2 : nat -> nat -> R).
  Hypothesis av1 : forall c i, (c < 3)%nat -> (i < n)%nat -> exp_vals_thermal V1 (O c i) E1 T = Ok (p1 c i).
  Hypothesis av2 : forall c i, (c < 3)%nat -> (i < n)%nat -> exp_vals_thermal V2 (O c i) E2 T = Ok (p2 c i).
  Theorem moments_respond : 0 <= T -> allowed T E1 -> allowed T E2 -> 0 <= total (fun i => total (fun c => (h2 c i - h1 c i) * (p2 c i - p1 c i)) (seq 0 3)) (seq 0 n).
  Proof using All.
    intros TP A1 A2. destruct (field_ham h1 H1 m1) as (S1 & _). destruct (field_ham h2 H2 m2) as (S3 & _). pose proof (field_rows H1 V1 E1 S1 b1) as R1. pose proof (field_rows H2 V2 E2 S3 b2) as R2.
    pose proof (average_falls H1 V1 H2 V2 E1 E2 b1 b2 ltac:(congruence) ltac:(rewrite R1; apply N_one) T _ _ TP A1 A2 (field_average H1 V1 E1 T p1 S1 b1 A1 av1) (field_average H2 V2 E2 T p2 S3 b2 A2 av2)) as X.
    rewrite (total_ext _ (fun i => -1 * total (fun c => - (h2 c i - h1 c i) * p2 c i) (seq 0 3) + total (fun c => - (h2 c i - h1 c i) * p1 c i) (seq 0 3))).
    - rewrite total_add, total_scale. lra.
    - intros i _. rewrite <- total_scale, <- total_add. apply total_ext. intros; ring.
  Qed.
  Theorem fields_free_energy : 0 < T -> total (fun i => total (fun c => (h2 c i - h1 c i) * p1 c i) (seq 0 3)) (seq 0 n) <= free_energy T E1 - free_energy T E2
      <= total (fun i => total (fun c => (h2 c i - h1 c i) * p2 c i) (seq 0 3)) (seq 0 n).
  Proof using All.
    intros TP. destruct (field_ham h1 H1 m1) as (S1 & _). destruct (field_ham h2 H2 m2) as (S3 & _). pose proof (field_rows H1 V1 E1 S1 b1) as R1. pose proof (field_rows H2 V2 E2 S3 b2) as R2.
    pose proof (free_energy_bounds H1 V1 H2 V2 E1 E2 b1 b2 ltac:(congruence) ltac:(rewrite R1; apply N_one) T _ _ TP (field_average H1 V1 E1 T p1 S1 b1 (or_introl (Rgt_not_eq _ _ TP)) av1) (field_average H2 V2 E2 T p2 S3 b2 (or_introl (Rgt_not_eq _ _ TP)) av2)) as X.
    assert (Y : forall p : nat -> nat -> R, total (fun i => total (fun c => - (h2 c i - h1 c i) * p c i) (seq 0 3)) (seq 0 n) = - total (fun i => total (fun c => (h2 c i - h1 c i) * p c i) (seq 0 3)) (seq 0 n)).
    { intros p. rewrite <- (Rmult_1_l (total (fun i => total (fun c => (h2 c i - h1 c i) * p c i) (seq 0 3)) (seq 0 n))), Ropp_mult_distr_l, <- total_scale. apply total_ext. intros i _. rewrite <- total_scale. apply total_ext. intros; ring. }
    rewrite !Y in X. lra.
  Qed.
End Fields.
