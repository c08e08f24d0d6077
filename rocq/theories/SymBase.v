(** Complex numbers over the reals: field facts needed for projectors. *)
From Coq Require Import List Arith Lia Reals Lra Bool Ring Setoid Morphisms.
From Verif Require Import Scalars Matrix ModelPhase ModelSymmetry.
Import ListNotations.
Local Open Scope R_scope.

Add Ring CRring : (@k_ring CR CR_StarRing).

Notation "x +c y" := (@kadd CR CR_StarRing x y) (at level 50, left associativity).
Notation "x *c y" := (@kmul CR CR_StarRing x y) (at level 40, left associativity).
Notation "'conj' x" := (@kconj CR CR_StarRing x) (at level 30).
Notation c0 := (@k0 CR CR_StarRing).
Notation c1 := (@k1 CR CR_StarRing).

Definition nsq (z : CR) : R := fst z * fst z + snd z * snd z.

Lemma nsq_ge z : 0 <= nsq z.
Proof. unfold nsq. nra. Qed.
Lemma nsq_0 z : nsq z = 0 <-> z = c0.
Proof.
  destruct z as [a b]. unfold nsq; cbn. split.
  - intros H. assert (a = 0) by nra. assert (b = 0) by nra. subst. reflexivity.
  - intros H. injection H as -> ->. ring.
Qed.
Lemma nsq_pos z : z <> c0 -> 0 < nsq z.
Proof. intros H. pose proof (nsq_ge z). assert (nsq z <> 0) by (rewrite nsq_0; assumption). lra. Qed.
Lemma nsq_mul a b : nsq (a *c b) = nsq a * nsq b.
Proof. destruct a, b. unfold nsq; cbn. ring. Qed.
Lemma nsq_conj a : nsq (conj a) = nsq a.
Proof. destruct a. unfold nsq; cbn. ring. Qed.
Lemma mul_conj z : z *c conj z = real (nsq z).
Proof. destruct z as [a b]. unfold nsq, real; cbn. unfold cr_mul; cbn. f_equal; ring. Qed.
Lemma conj_mul_self z : conj z *c z = real (nsq z).
Proof. rewrite <- mul_conj. ring. Qed.
Lemma modulus_nsq z : modulus z = sqrt (nsq z).
Proof. reflexivity. Qed.
Lemma modulus_0 z : modulus z = 0 <-> z = c0.
Proof.
  rewrite modulus_nsq. split.
  - intros H. apply sqrt_eq_0 in H; [|apply nsq_ge]. apply nsq_0. assumption.
  - intros ->. rewrite (proj2 (nsq_0 c0) eq_refl). apply sqrt_0.
Qed.
Lemma modulus_ge z : 0 <= modulus z.
Proof. apply sqrt_pos. Qed.
Lemma modulus_1 z : nsq z = 1 -> modulus z = 1.
Proof. intros H. rewrite modulus_nsq, H. apply sqrt_1. Qed.

Lemma real_add x y : real (x + y) = real x +c real y.
Proof. unfold real; cbn; unfold cr_add; cbn. f_equal; ring. Qed.
Lemma real_mul x y : real (x * y) = real x *c real y.
Proof. unfold real; cbn; unfold cr_mul; cbn. f_equal; ring. Qed.
Lemma real_0 : real 0 = c0.
Proof. reflexivity. Qed.
Lemma real_1 : real 1 = c1.
Proof. reflexivity. Qed.
Lemma real_conj x : conj (real x) = real x.
Proof. unfold real; cbn; unfold cr_conj; cbn. f_equal; ring. Qed.
Lemma real_inj x y : real x = real y -> x = y.
Proof. intros H. injection H. auto. Qed.
Lemma real_inv x : x <> 0 -> real (/ x) *c real x = c1.
Proof. intros H. rewrite <- real_mul, Rinv_l by assumption. reflexivity. Qed.
Lemma real_nsq x : nsq (real x) = x * x.
Proof. unfold nsq, real; cbn. ring. Qed.

Lemma mul_0 a b : a *c b = c0 -> a = c0 \/ b = c0.
Proof.
  intros H. apply (f_equal nsq) in H. rewrite nsq_mul, (proj2 (nsq_0 c0) eq_refl) in H.
  apply Rmult_integral in H. rewrite !nsq_0 in H. assumption.
Qed.
Lemma mul_cancel a b c : a <> c0 -> a *c b = a *c c -> b = c.
Proof.
  intros Ha H. assert (E : a *c (b +c kopp c) = c0).
  { replace (a *c (b +c kopp c)) with (a *c b +c kopp (a *c c)) by ring. rewrite H. ring. }
  apply mul_0 in E as [E|E]; [contradiction|].
  replace b with ((b +c kopp c) +c c) by ring. rewrite E. ring.
Qed.

Lemma c1_neq_0 : c1 <> c0.
Proof. intros H. injection H. lra. Qed.

(** Sums of non-negative reals. *)
Fixpoint rsum (n : nat) (f : nat -> R) : R := match n with O => 0 | S m => rsum m f + f m end.
Lemma rsum_ext n f g : (forall i, (i < n)%nat -> f i = g i) -> rsum n f = rsum n g.
Proof. induction n; simpl; intros H; [reflexivity|]. rewrite IHn, H; auto. Qed.
Lemma ksum_real n f : ksum n (fun i => real (f i)) = real (rsum n f).
Proof. induction n; simpl; [reflexivity|]. rewrite IHn, real_add. reflexivity. Qed.
Lemma rsum_ge n f : (forall i, (i < n)%nat -> 0 <= f i) -> 0 <= rsum n f.
Proof. induction n; simpl; intros H; [lra|]. assert (0 <= rsum n f) by (apply IHn; auto). assert (0 <= f n) by auto. lra. Qed.
Lemma rsum_0 n f : (forall i, (i < n)%nat -> 0 <= f i) -> rsum n f = 0 -> forall i, (i < n)%nat -> f i = 0.
Proof.
  induction n; simpl; intros H E i Hi; [lia|].
  assert (0 <= rsum n f) by (apply rsum_ge; auto). assert (0 <= f n) by auto.
  destruct (Nat.eq_dec i n) as [->|]; [lra|]. apply IHn; auto; [lra|lia].
Qed.
Lemma rsum_const n f c : (forall i, (i < n)%nat -> f i = c) -> rsum n f = INR n * c.
Proof.
  induction n as [|n IH]; intros H; [simpl; ring|]. cbn [rsum]. rewrite IH by auto. rewrite H by lia. rewrite S_INR. ring.
Qed.

Lemma kneb_true a b : @kneb CR CR_StarRing a b = true <-> a <> b.
Proof. unfold kneb. destruct (keq_dec a b); split; intros; congruence. Qed.
