(** Addition of two spins: the states of [t/2] and [s/2] together split into
    multiplets of total spin [T/2], [T = t + s - 2K]. *)
From Coq Require Import List Arith Lia Reals Lra Bool.
From Verif Require Import Scalars Res Matrix ModelGeometry ModelPhase ModelSymmetry SymBase SpecThermal ThermalBase ThermalBasis.
Import ListNotations.
Local Open Scope R_scope.

Lemma real_neg x : real (- x) = kopp (real x).
Proof. unfold real; cbn. unfold cr_opp. cbn. f_equal; ring. Qed.

(** ** Factors of the ladder *)
Definition gf (t m : nat) : CR := real (sqrt (INR (m * (S t - m)))).
Lemma gf_0 t : gf t 0 = c0. Proof. unfold gf. cbn. rewrite sqrt_0. reflexivity. Qed.
Lemma gf_top t : gf t (S t) = c0. Proof. unfold gf. rewrite Nat.sub_diag, Nat.mul_0_r. cbn. rewrite sqrt_0. reflexivity. Qed.
Lemma gf_conj t m : conj (gf t m) = gf t m. Proof. apply real_conj. Qed.
Lemma gf_sq t m : (m <= S t)%nat -> gf t m *c gf t m = real (INR m * (INR t + 1 - INR m)).
Proof.
  intros Hm. unfold gf. rewrite <- real_mul, sqrt_sqrt by apply pos_INR. f_equal. rewrite mult_INR, minus_INR, S_INR by exact Hm. reflexivity.
Qed.
Definition gi (t m : nat) : CR := real (/ sqrt (INR (m * (S t - m)))).
Lemma gi_gf t m : (1 <= m <= t)%nat -> gi t m *c gf t m = c1.
Proof.
  intros Hm. unfold gi, gf. apply real_inv. apply Rgt_not_eq. apply sqrt_lt_R0. apply lt_0_INR. nia.
Qed.
Lemma gi_conj t m : conj (gi t m) = gi t m. Proof. apply real_conj. Qed.

Lemma ksum_S (n : nat) (F : nat -> CR) : ksum (S n) F = ksum n F +c F n.
Proof. reflexivity. Qed.
Lemma ksum_0S (n : nat) (F : nat -> CR) : ksum (S n) F = F 0%nat +c ksum n (fun m => F (S m)).
Proof. change (S n) with (1 + n)%nat. rewrite ksum_plus. cbn [ksum Nat.add]. ring. Qed.
Lemma shift_sum t (f : nat -> nat -> CR) :
  ksum (S t) (fun m => gf t m *c f (m - 1)%nat m) = ksum (S t) (fun m => gf t (S m) *c f m (S m)).
Proof.
  rewrite ksum_0S, gf_0, ksum_S, gf_top.
  rewrite (ksum_ext t (fun m => gf t (S m) *c f (S m - 1)%nat (S m)) (fun m => gf t (S m) *c f m (S m))) by (intros m _; cbn; rewrite Nat.sub_0_r; reflexivity). ring.
Qed.

Section Two.
  Variables t s : nat.
  Definition vec2 := nat -> nat -> CR.
  Definition oL (x : vec2) : vec2 := fun m b => gf t m *c x (m - 1)%nat b +c gf s b *c x m (b - 1)%nat.
  Definition oU (x : vec2) : vec2 := fun m b => gf t (S m) *c x (S m) b +c gf s (S b) *c x m (S b).
  Definition wt (m b : nat) : R := (INR t + INR s) / 2 - INR m - INR b.
  Definition oZ (x : vec2) : vec2 := fun m b => real (wt m b) *c x m b.
  (** Twice the product of the two spins. *)
  Definition oX (x : vec2) : vec2 := fun m b =>
    real (2 * (INR t / 2 - INR m) * (INR s / 2 - INR b)) *c x m b
    +c gf t (S m) *c gf s b *c x (S m) (b - 1)%nat +c gf t m *c gf s (S b) *c x (m - 1)%nat (S b).
  Definition in2 (m b : nat) : Prop := (m <= t)%nat /\ (b <= s)%nat.
  Definition eq2 (x y : vec2) : Prop := forall m b, in2 m b -> x m b = y m b.
  Definition ip (x y : vec2) : CR := ksum (S t) (fun m => ksum (S s) (fun b => conj (x m b) *c y m b)).

  Lemma ip_ext x x' y y' : eq2 x x' -> eq2 y y' -> ip x y = ip x' y'.
  Proof. intros E F. apply ksum_ext. intros m Hm. apply ksum_ext. intros b Hb. rewrite E, F by (split; lia). reflexivity. Qed.
  Lemma ip_conj x y : conj (ip x y) = ip y x.
  Proof. unfold ip. rewrite ksum_conj. apply ksum_ext. intros m _. rewrite ksum_conj. apply ksum_ext. intros b _. rewrite kconj_mul, kconj_inv. ring. Qed.
  Lemma ip_scale c x y : ip x (fun m b => c *c y m b) = c *c ip x y.
  Proof. unfold ip. rewrite <- ksum_mul_l. apply ksum_ext. intros m _. rewrite <- ksum_mul_l. apply ksum_ext. intros b _. ring. Qed.
  Lemma ip_scale_l c x y : ip (fun m b => c *c x m b) y = conj c *c ip x y.
  Proof. rewrite <- ip_conj, ip_scale, kconj_mul, ip_conj. reflexivity. Qed.
  Lemma oL_ext x y : eq2 x y -> eq2 (oL x) (oL y).
  Proof. intros E m b (Hm & Hb). unfold oL. rewrite !E by (split; lia). reflexivity. Qed.
  Lemma oU_ext x y : eq2 x y -> eq2 (oU x) (oU y).
  Proof.
    intros E m b (Hm & Hb). unfold oU. f_equal.
    - destruct (Nat.eq_dec m t) as [->|]; [rewrite gf_top; ring|]. rewrite E by (split; lia). reflexivity.
    - destruct (Nat.eq_dec b s) as [->|]; [rewrite gf_top; ring|]. rewrite E by (split; lia). reflexivity.
  Qed.
  Lemma oZ_ext x y : eq2 x y -> eq2 (oZ x) (oZ y).
  Proof. intros E m b H. unfold oZ. rewrite E by exact H. reflexivity. Qed.
  Lemma oL_scale c x m b : oL (fun m b => c *c x m b) m b = c *c oL x m b. Proof. unfold oL. ring. Qed.
  Lemma oU_scale c x m b : oU (fun m b => c *c x m b) m b = c *c oU x m b. Proof. unfold oU. ring. Qed.

  (** Lowering and raising are adjoint. *)
  Lemma adjoint x y : ip (oL x) y = ip x (oU y).
  Proof.
    unfold ip, oL, oU.
    rewrite (ksum_ext (S t) _ (fun m => ksum (S s) (fun b => gf t m *c (conj (x (m - 1)%nat b) *c y m b)) +c ksum (S s) (fun b => gf s b *c (conj (x m (b - 1)%nat) *c y m b)))).
    2:{ intros m _. rewrite <- ksum_add. apply ksum_ext. intros b _. rewrite kconj_add, !kconj_mul, !gf_conj. ring. }
    rewrite (ksum_ext (S t) (fun m => ksum (S s) (fun b => conj (x m b) *c (gf t (S m) *c y (S m) b +c gf s (S b) *c y m (S b))))
      (fun m => ksum (S s) (fun b => gf t (S m) *c (conj (x m b) *c y (S m) b)) +c ksum (S s) (fun b => gf s (S b) *c (conj (x m b) *c y m (S b))))).
    2:{ intros m _. rewrite <- ksum_add. apply ksum_ext. intros b _. ring. }
    rewrite !ksum_add. f_equal.
    - rewrite (ksum_ext (S t) _ (fun m => gf t m *c (fun i j => ksum (S s) (fun b => conj (x i b) *c y j b)) (m - 1)%nat m)) by (intros m _; rewrite <- ksum_mul_l; reflexivity).
      rewrite (shift_sum t (fun i j => ksum (S s) (fun b => conj (x i b) *c y j b))). apply ksum_ext. intros m _. rewrite <- ksum_mul_l. reflexivity.
    - apply ksum_ext. intros m _. rewrite (shift_sum s (fun i j => conj (x m i) *c y m j)). reflexivity.
  Qed.
  Lemma weight_self x y : ip (oZ x) y = ip x (oZ y).
  Proof. unfold ip, oZ. apply ksum_ext. intros m _. apply ksum_ext. intros b _. rewrite kconj_mul, real_conj. ring. Qed.

  (** The algebra. *)
  Lemma comm x m b : in2 m b -> oU (oL x) m b = oL (oU x) m b +c real 2 *c oZ x m b.
  Proof.
    intros (Hm & Hb). unfold oU, oL, oZ. cbn [Nat.sub]. rewrite !Nat.sub_0_r.
    assert (A : gf t m *c gf t (S (m - 1)) *c x (S (m - 1)) b = gf t m *c gf t m *c x m b).
    { destruct m as [|m]; [rewrite gf_0; ring|]. cbn [Nat.sub]. rewrite Nat.sub_0_r. reflexivity. }
    assert (B : gf s b *c gf s (S (b - 1)) *c x m (S (b - 1)) = gf s b *c gf s b *c x m b).
    { destruct b as [|b]; [rewrite gf_0; ring|]. cbn [Nat.sub]. rewrite Nat.sub_0_r. reflexivity. }
    transitivity ((gf t (S m) *c gf t (S m) +c gf s (S b) *c gf s (S b)) *c x m b +c gf t (S m) *c gf s b *c x (S m) (b - 1)%nat +c gf s (S b) *c gf t m *c x (m - 1)%nat (S b)); [ring|].
    transitivity ((gf t m *c gf t (S (m - 1)) *c x (S (m - 1)) b +c gf s b *c gf s (S (b - 1)) *c x m (S (b - 1))) +c real 2 *c (real (wt m b) *c x m b)
      +c gf t (S m) *c gf s b *c x (S m) (b - 1)%nat +c gf s (S b) *c gf t m *c x (m - 1)%nat (S b)); [|ring].
    rewrite A, B, !gf_sq by lia. f_equal. f_equal.
    transitivity (real (INR (S m) * (INR t + 1 - INR (S m)) + INR (S b) * (INR s + 1 - INR (S b))) *c x m b); [rewrite real_add; reflexivity|].
    transitivity (real (INR m * (INR t + 1 - INR m) + INR b * (INR s + 1 - INR b) + 2 * wt m b) *c x m b); [|rewrite !real_add, (real_mul 2); ring].
    f_equal. f_equal. unfold wt. rewrite !S_INR. field.
  Qed.
  Lemma lower_wt x m b : in2 m b -> oZ (oL x) m b = oL (oZ x) m b +c kopp (oL x m b).
  Proof.
    intros (Hm & Hb). unfold oZ, oL.
    assert (A : gf t m *c (real (wt (m - 1) b) *c x (m - 1)%nat b) = gf t m *c (real (wt m b) *c x (m - 1)%nat b +c x (m - 1)%nat b)).
    { destruct m as [|m]; [rewrite gf_0; ring|]. cbn [Nat.sub]. rewrite Nat.sub_0_r. f_equal. unfold wt. rewrite S_INR.
      replace ((INR t + INR s) / 2 - INR m - INR b) with (((INR t + INR s) / 2 - (INR m + 1) - INR b) + 1) by ring. rewrite real_add, real_1. ring. }
    assert (B : gf s b *c (real (wt m (b - 1)) *c x m (b - 1)%nat) = gf s b *c (real (wt m b) *c x m (b - 1)%nat +c x m (b - 1)%nat)).
    { destruct b as [|b]; [rewrite gf_0; ring|]. cbn [Nat.sub]. rewrite Nat.sub_0_r. f_equal. unfold wt. rewrite S_INR.
      replace ((INR t + INR s) / 2 - INR m - INR b) with (((INR t + INR s) / 2 - INR m - (INR b + 1)) + 1) by ring. rewrite real_add, real_1. ring. }
    rewrite A, B. ring.
  Qed.
  (** Square of the sum. *)
  Lemma square_sum x m b : in2 m b ->
    oX x m b +c real (INR t * (INR t + 2) / 4 + INR s * (INR s + 2) / 4) *c x m b = oL (oU x) m b +c oZ (oZ x) m b +c oZ x m b.
  Proof.
    intros (Hm & Hb). unfold oU, oL, oZ, oX.
    assert (A : gf t m *c gf t (S (m - 1)) *c x (S (m - 1)) b = gf t m *c gf t m *c x m b).
    { destruct m as [|m]; [rewrite gf_0; ring|]. cbn [Nat.sub]. rewrite Nat.sub_0_r. reflexivity. }
    assert (B : gf s b *c gf s (S (b - 1)) *c x m (S (b - 1)) = gf s b *c gf s b *c x m b).
    { destruct b as [|b]; [rewrite gf_0; ring|]. cbn [Nat.sub]. rewrite Nat.sub_0_r. reflexivity. }
    transitivity ((gf t m *c gf t (S (m - 1)) *c x (S (m - 1)) b +c gf s b *c gf s (S (b - 1)) *c x m (S (b - 1))) +c real (wt m b) *c (real (wt m b) *c x m b) +c real (wt m b) *c x m b
      +c gf t (S m) *c gf s b *c x (S m) (b - 1)%nat +c gf s (S b) *c gf t m *c x (m - 1)%nat (S b)); [|ring].
    rewrite A, B, !gf_sq by lia.
    transitivity (real (2 * (INR t / 2 - INR m) * (INR s / 2 - INR b) + (INR t * (INR t + 2) / 4 + INR s * (INR s + 2) / 4)) *c x m b
      +c gf t (S m) *c gf s b *c x (S m) (b - 1)%nat +c gf s (S b) *c gf t m *c x (m - 1)%nat (S b)); [rewrite !real_add; ring|].
    f_equal. f_equal.
    transitivity (real (INR m * (INR t + 1 - INR m) + INR b * (INR s + 1 - INR b) + wt m b * wt m b + wt m b) *c x m b); [|rewrite !real_add, (real_mul (wt m b)); ring].
    f_equal. f_equal. unfold wt. field.
  Qed.

  (** A standard multiplet of total spin [T/2]. *)
  Definition multiplet (T : nat) (u : nat -> vec2) : Prop := forall M, (M <= T)%nat ->
    eq2 (oL (u M)) (fun m b => gf T (S M) *c u (S M) m b) /\
    eq2 (oU (u M)) (fun m b => gf T M *c u (M - 1)%nat m b) /\
    eq2 (oZ (u M)) (fun m b => real (INR T / 2 - INR M) *c u M m b).
  Definition units (T : nat) (u : nat -> vec2) : Prop := forall M, (M <= T)%nat -> ip (u M) (u M) = c1.

  Lemma multiplet_energy T u : multiplet T u -> forall M, (M <= T)%nat ->
    eq2 (oX (u M)) (fun m b => real (INR T * (INR T + 2) / 4 - INR t * (INR t + 2) / 4 - INR s * (INR s + 2) / 4) *c u M m b).
  Proof.
    intros H M HM m b I. destruct (H M HM) as (HL & HU & HZ).
    pose proof (square_sum (u M) m b I) as Q.
    assert (Q1 : oL (oU (u M)) m b = gf T M *c gf T M *c u M m b).
    { rewrite (oL_ext _ _ HU m b I), oL_scale. destruct M as [|M]; [rewrite gf_0; ring|]. cbn [Nat.sub]. rewrite Nat.sub_0_r.
      destruct (H M ltac:(lia)) as (HL' & _ & _). rewrite (HL' m b I). ring. }
    assert (Q2 : oZ (oZ (u M)) m b = real (INR T / 2 - INR M) *c real (INR T / 2 - INR M) *c u M m b).
    { rewrite (oZ_ext _ _ HZ m b I). unfold oZ at 1. change (real (wt m b) *c (real (INR T / 2 - INR M) *c u M m b) = real (INR T / 2 - INR M) *c real (INR T / 2 - INR M) *c u M m b).
      transitivity (real (INR T / 2 - INR M) *c (oZ (u M) m b)); [unfold oZ; ring|]. rewrite (HZ m b I). ring. }
    rewrite Q1, Q2, (HZ m b I), gf_sq in Q by lia.
    set (k := INR t * (INR t + 2) / 4 + INR s * (INR s + 2) / 4) in *.
    transitivity (oX (u M) m b +c real k *c u M m b +c kopp (real k *c u M m b)); [ring|]. rewrite Q.
    transitivity (real (INR M * (INR T + 1 - INR M) + (INR T / 2 - INR M) * (INR T / 2 - INR M) + (INR T / 2 - INR M) + - k) *c u M m b);
      [rewrite !real_add, (real_mul (INR T / 2 - INR M)); rewrite real_neg; ring|].
    f_equal. f_equal. unfold k. field.
  Qed.

  (** States of different multiplets, or different states of one, are orthogonal. *)
  Lemma wt_orth x y p q : eq2 (oZ x) (fun m b => real p *c x m b) -> eq2 (oZ y) (fun m b => real q *c y m b) -> p <> q -> ip x y = c0.
  Proof.
    intros HX HY N. pose proof (weight_self x y) as W.
    rewrite (ip_ext _ _ y y HX (fun _ _ _ => eq_refl)), (ip_ext x x _ _ (fun _ _ _ => eq_refl) HY), ip_scale, ip_scale_l, real_conj in W.
    destruct (ip x y) as [a b]. unfold real in W. cbn in W. injection W as W1 W2.
    assert (A : (p - q) * a = 0) by lra. assert (B : (p - q) * b = 0) by lra.
    apply Rmult_integral in A as [A|A]; [lra|]. apply Rmult_integral in B as [B|B]; [lra|]. subst. reflexivity.
  Qed.
  Lemma below_orth T u T' u' : multiplet T u -> multiplet T' u' -> forall M' M, (M' < M <= T)%nat -> (M' <= T')%nat -> ip (u M) (u' M') = c0.
  Proof.
    intros H H'. induction M' as [|M' IH]; intros M HM HM'.
    - destruct M as [|M]; [lia|]. destruct (H M ltac:(lia)) as (HL & _ & _). destruct (H' 0%nat HM') as (_ & HU & _).
      transitivity (gi T (S M) *c (gf T (S M) *c ip (u (S M)) (u' 0%nat))); [transitivity ((gi T (S M) *c gf T (S M)) *c ip (u (S M)) (u' 0%nat)); [rewrite gi_gf by lia; ring|ring]|].
      rewrite <- (gf_conj T (S M)), <- ip_scale_l, <- (ip_ext _ _ (u' 0%nat) (u' 0%nat) HL (fun _ _ _ => eq_refl)), adjoint, (ip_ext (u M) (u M) _ _ (fun _ _ _ => eq_refl) HU), ip_scale, gf_0. ring.
    - destruct M as [|M]; [lia|]. destruct (H M ltac:(lia)) as (HL & _ & _). destruct (H' (S M') HM') as (_ & HU & _).
      transitivity (gi T (S M) *c (gf T (S M) *c ip (u (S M)) (u' (S M')))); [transitivity ((gi T (S M) *c gf T (S M)) *c ip (u (S M)) (u' (S M'))); [rewrite gi_gf by lia; ring|ring]|].
      rewrite <- (gf_conj T (S M)), <- ip_scale_l, <- (ip_ext _ _ (u' (S M')) (u' (S M')) HL (fun _ _ _ => eq_refl)), adjoint, (ip_ext (u M) (u M) _ _ (fun _ _ _ => eq_refl) HU), ip_scale.
      cbn [Nat.sub]. rewrite Nat.sub_0_r, IH by lia. ring.
  Qed.
  Lemma multiplets_orth T u T' u' : multiplet T u -> multiplet T' u' -> forall M M', (M <= T)%nat -> (M' <= T')%nat -> (M <> M' \/ T <> T') -> ip (u M) (u' M') = c0.
  Proof.
    intros H H' M M' HM HM' N. destruct (lt_eq_lt_dec M M') as [[L|E]|L].
    - rewrite <- ip_conj, (below_orth T' u' T u H' H M M') by lia. apply kconj_0.
    - subst M'. destruct (H M HM) as (_ & _ & HZ). destruct (H' M HM') as (_ & _ & HZ'). apply (wt_orth _ _ _ _ HZ HZ').
      assert (T <> T') by (destruct N; congruence). intros E. apply H0. apply INR_eq. lra.
    - apply (below_orth T u T' u' H H'); lia.
  Qed.

  (** A multiplet from its highest state. *)
  Section Make.
    Variables (T : nat) (h : vec2).
    Fixpoint rung (M : nat) : vec2 := match M with O => h | S k => fun m b => gi T (S k) *c oL (rung k) m b end.
    Hypothesis h_top : eq2 (oU h) (fun _ _ => c0).
    Hypothesis h_wt : eq2 (oZ h) (fun m b => real (INR T / 2) *c h m b).
    Hypothesis h_unit : ip h h = c1.
    Lemma oL_rung M : (M < T)%nat -> forall m b, oL (rung M) m b = gf T (S M) *c rung (S M) m b.
    Proof using. intros HM m b. cbn [rung]. transitivity ((gi T (S M) *c gf T (S M)) *c oL (rung M) m b); [rewrite gi_gf by lia; ring | ring]. Qed.
    Lemma oL_pred M m b : (M <= T)%nat -> gf T M *c oL (rung (M - 1)) m b = gf T M *c gf T M *c rung M m b.
    Proof using. intros HM. destruct M as [|M]; [rewrite gf_0; ring|]. cbn [Nat.sub]. rewrite Nat.sub_0_r, oL_rung by lia. ring. Qed.
    Lemma rung_facts M : (M <= T)%nat ->
      eq2 (oU (rung M)) (fun m b => gf T M *c rung (M - 1)%nat m b) /\ eq2 (oZ (rung M)) (fun m b => real (INR T / 2 - INR M) *c rung M m b) /\ ip (rung M) (rung M) = c1.
    Proof using h_top h_wt h_unit.
      induction M as [|M IH]; intros HM.
      - cbn [rung]. split; [intros m b I; rewrite h_top, gf_0 by exact I; ring|]. split; [|exact h_unit].
        intros m b I. rewrite h_wt by exact I. cbn [INR]. rewrite Rminus_0_r. reflexivity.
      - destruct IH as (HU & HZ & HN); [lia|].
        assert (UL : eq2 (oU (oL (rung M))) (fun m b => gf T (S M) *c gf T (S M) *c rung M m b)).
        { intros m b I. rewrite comm, (oL_ext _ _ HU m b I), oL_scale, (HZ m b I) by exact I.
          assert (E : gf T M *c oL (rung (M - 1)) m b = gf T M *c gf T M *c rung M m b).
          { destruct M as [|M]; [rewrite gf_0; ring|]. cbn [Nat.sub]. rewrite Nat.sub_0_r, oL_rung by lia. ring. }
          rewrite E, !gf_sq by lia.
          transitivity (real (INR M * (INR T + 1 - INR M) + 2 * (INR T / 2 - INR M)) *c rung M m b); [rewrite real_add, (real_mul 2); ring|].
          f_equal. f_equal. rewrite S_INR. field. }
        split; [|split].
        + intros m b I. cbn [rung Nat.sub]. rewrite Nat.sub_0_r, oU_scale, (UL m b I).
          transitivity ((gi T (S M) *c gf T (S M)) *c gf T (S M) *c rung M m b); [ring|]. rewrite gi_gf by lia. ring.
        + intros m b I. cbn [rung]. transitivity (gi T (S M) *c oZ (oL (rung M)) m b); [unfold oZ; ring|].
          rewrite lower_wt by exact I. rewrite (oL_ext _ _ HZ m b I), oL_scale.
          rewrite S_INR. replace (INR T / 2 - INR M) with (INR T / 2 - (INR M + 1) + 1) by ring. rewrite real_add, real_1. ring.
        + cbn [rung]. rewrite ip_scale, ip_scale_l, gi_conj, adjoint, (ip_ext (rung M) (rung M) _ _ (fun _ _ _ => eq_refl) UL), ip_scale, HN.
          transitivity ((gi T (S M) *c gf T (S M)) *c (gi T (S M) *c gf T (S M))); [ring|]. rewrite gi_gf by lia. ring.
    Qed.
    Lemma ip_zero x : ip x x = c0 -> eq2 x (fun _ _ => c0).
    Proof using.
      intros E m b (Hm & Hb).
      assert (F : rsum (S t) (fun m => rsum (S s) (fun b => nsq (x m b))) = 0).
      { apply real_inj. rewrite real_0, <- E. unfold ip. clear.
        assert (G : forall k (f : nat -> R), real (rsum k f) = ksum k (fun i => real (f i))) by (intros k f; induction k as [|k IH]; [reflexivity|]; cbn [rsum ksum]; rewrite real_add, IH; reflexivity).
        rewrite G. apply ksum_ext. intros m _. rewrite G. apply ksum_ext. intros b _. destruct (x m b) as [p q]. unfold nsq, real. cbn. unfold cr_mul, cr_conj. cbn. f_equal; ring. }
      assert (P : forall m', 0 <= rsum (S s) (fun b => nsq (x m' b))) by (intros m'; apply rsum_ge; intros; apply nsq_ge).
      pose proof (rsum_0 (S t) _ (fun i _ => P i) F m ltac:(lia)) as F1. cbn beta in F1.
      pose proof (rsum_0 (S s) _ (fun i _ => nsq_ge _) F1 b ltac:(lia)) as F2. cbn beta in F2. apply nsq_0. exact F2.
    Qed.
    Lemma rung_multiplet : multiplet T rung /\ units T rung.
    Proof using h_top h_wt h_unit.
      split; [|intros M HM; apply rung_facts; exact HM]. intros M HM. destruct (rung_facts M HM) as (HU & HZ & HN). split; [|split; assumption].
      destruct (Nat.eq_dec M T) as [->|N]; [|intros m b _; apply oL_rung; lia].
      assert (Z : eq2 (oL (rung T)) (fun _ _ => c0)).
      { apply ip_zero. rewrite adjoint.
        assert (UL : eq2 (oU (oL (rung T))) (fun m b => c0 *c rung T m b)).
        { intros m b I. rewrite comm, (oL_ext _ _ HU m b I), oL_scale, (HZ m b I) by exact I.
          pose proof (oL_pred T m b (le_n T)) as E.
          rewrite E, !gf_sq by lia.
          transitivity (real (INR T * (INR T + 1 - INR T) + 2 * (INR T / 2 - INR T)) *c rung T m b); [rewrite real_add, (real_mul 2); ring|].
          f_equal. rewrite <- real_0. f_equal. field. }
        rewrite (ip_ext (rung T) (rung T) _ _ (fun _ _ _ => eq_refl) UL), ip_scale. ring. }
      intros m b I. rewrite Z, gf_top by exact I. ring.
    Qed.
  End Make.
End Two.
