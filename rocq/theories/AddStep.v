(** One more spin: multiplets of the spins so far, coupled to a further one. *)
From Coq Require Import List Arith Lia Reals Lra Bool.
From Verif Require Import Scalars Res Matrix ModelGeometry ModelPhase ModelSymmetry SymBase SpecThermal ThermalBase ThermalBasis Addition AddTop.
Import ListNotations.
Local Open Scope R_scope.

Definition kern := nat -> nat -> CR.
Definition act (n : nat) (A : kern) (x : nat -> CR) (i : nat) : CR := ksum n (fun j => A i j *c x j).
Definition one_k : kern := fun i j => kb (i =? j)%nat.
Definition add_k (A B : kern) : kern := fun i j => A i j +c B i j.
Definition sc_k (c : CR) (A : kern) : kern := fun i j => c *c A i j.
Definition cross (d : nat) (A B : kern) : kern := fun k l => A (k / d)%nat (l / d)%nat *c B (k mod d)%nat (l mod d)%nat.
Lemma act_add n A B x i : act n (add_k A B) x i = act n A x i +c act n B x i.
Proof. unfold act, add_k. rewrite <- ksum_add. apply ksum_ext. intros. ring. Qed.
Lemma act_sc n c A x i : act n (sc_k c A) x i = c *c act n A x i.
Proof. unfold act, sc_k. rewrite <- ksum_mul_l. apply ksum_ext. intros. ring. Qed.
Lemma act_one n x i : (i < n)%nat -> act n one_k x i = x i.
Proof.
  intros Hi. unfold act, one_k. rewrite (ksum_single n i); [rewrite Nat.eqb_refl; cbn [kb]; ring|exact Hi|].
  intros j _ N. rewrite (proj2 (Nat.eqb_neq i j)) by congruence. cbn [kb]. ring.
Qed.
Lemma act_ext n A B x y i : (forall j, (j < n)%nat -> A i j = B i j) -> (forall j, (j < n)%nat -> x j = y j) -> act n A x i = act n B y i.
Proof. intros E F. apply ksum_ext. intros j Hj. rewrite E, F by exact Hj. reflexivity. Qed.

(** One spin. *)
Definition sL (s : nat) : kern := fun i j => kb (i =? S j)%nat *c gf s i.
Definition sU (s : nat) : kern := fun i j => kb (j =? S i)%nat *c gf s j.
Definition sZ (s : nat) : kern := fun i j => kb (i =? j)%nat *c real (INR s / 2 - INR i).
Lemma act_sL s x b : (b <= s)%nat -> act (S s) (sL s) x b = gf s b *c x (b - 1)%nat.
Proof.
  intros Hb. unfold act, sL. destruct b as [|b].
  - rewrite gf_0. rewrite ksum_zero; [ring|]. intros j _. cbn [Nat.eqb kb]. ring.
  - rewrite (ksum_single (S s) b); [rewrite Nat.eqb_refl; cbn [kb Nat.sub]; rewrite Nat.sub_0_r; ring|lia|].
    intros j _ N. rewrite (proj2 (Nat.eqb_neq (S b) (S j))) by congruence. cbn [kb]. ring.
Qed.
Lemma act_sU s x b : (b <= s)%nat -> act (S s) (sU s) x b = gf s (S b) *c x (S b).
Proof.
  intros Hb. unfold act, sU. destruct (Nat.eq_dec b s) as [->|N].
  - rewrite gf_top. rewrite ksum_zero; [ring|]. intros j Hj. rewrite (proj2 (Nat.eqb_neq j (S s))) by lia. cbn [kb]. ring.
  - rewrite (ksum_single (S s) (S b)); [rewrite Nat.eqb_refl; cbn [kb]; ring|lia|].
    intros j _ N'. rewrite (proj2 (Nat.eqb_neq j (S b))) by congruence. cbn [kb]. ring.
Qed.
Lemma act_sZ s x b : (b <= s)%nat -> act (S s) (sZ s) x b = real (INR s / 2 - INR b) *c x b.
Proof.
  intros Hb. unfold act, sZ. rewrite (ksum_single (S s) b); [rewrite Nat.eqb_refl; cbn [kb]; ring|lia|].
  intros j _ N'. rewrite (proj2 (Nat.eqb_neq b j)) by congruence. cbn [kb]. ring.
Qed.

(** The spins so far. *)
Definition rep (n : nat) (Z U L : kern) (T : nat) (v : nat -> nat -> CR) : Prop := forall M, (M <= T)%nat -> forall i, (i < n)%nat ->
  act n L (v M) i = gf T (S M) *c v (S M) i /\ act n U (v M) i = gf T M *c v (M - 1)%nat i /\ act n Z (v M) i = real (INR T / 2 - INR M) *c v M i.
Definition both (d : nat) (A B : kern) : kern := add_k (cross d A one_k) (cross d one_k B).
(** Twice the product of the spin so far and the new one. *)
Definition dot2 (s : nat) (Z U L : kern) : kern := add_k (sc_k (real 2) (cross (S s) Z (sZ s))) (add_k (cross (S s) U (sL s)) (cross (S s) L (sU s))).

Section Step.
  Variables (n s : nat).
  Definition lift (t : nat) (v : nat -> nat -> CR) (u : vec2) : nat -> CR :=
    fun k => ksum (S t) (fun m => u m (k mod S s)%nat *c v m (k / S s)%nat).
  Lemma act_cross A B t v u a b : (a < n)%nat -> (b <= s)%nat ->
    act (n * S s) (cross (S s) A B) (lift t v u) (a * S s + b) = ksum (S t) (fun m => act (S s) B (u m) b *c act n A (v m) a).
  Proof using.
    intros Ha Hb. unfold act at 1. rewrite ksum_prod. unfold cross, lift.
    assert (D : forall a' b', (b' <= s)%nat -> ((a' * S s + b') / S s)%nat = a' /\ ((a' * S s + b') mod S s)%nat = b').
    { intros a' b' Hb'. split; [rewrite Nat.div_add_l, Nat.div_small by lia; lia|]. rewrite Nat.add_comm, Nat.mod_add, Nat.mod_small by lia. reflexivity. }
    destruct (D a b Hb) as (D1 & D2). rewrite D1, D2.
    transitivity (ksum n (fun a' => ksum (S s) (fun b' => ksum (S t) (fun m => (B b b' *c u m b') *c (A a a' *c v m a'))))).
    { apply ksum_ext. intros a' Ha'. apply ksum_ext. intros b' Hb'. destruct (D a' b' ltac:(lia)) as (D3 & D4). rewrite D3, D4, <- ksum_mul_l. apply ksum_ext. intros. ring. }
    transitivity (ksum n (fun a' => ksum (S t) (fun m => act (S s) B (u m) b *c (A a a' *c v m a')))).
    { apply ksum_ext. intros a' Ha'. rewrite ksum_swap. apply ksum_ext. intros m _. unfold act. apply ksum_mul_r. }
    rewrite ksum_swap. apply ksum_ext. intros m _. unfold act. apply ksum_mul_l.
  Qed.
  Lemma lift_at t v u a b : (b <= s)%nat -> lift t v u (a * S s + b) = ksum (S t) (fun m => u m b *c v m a).
  Proof using.
    intros Hb. unfold lift. rewrite Nat.div_add_l, Nat.div_small, Nat.add_0_r by lia. rewrite Nat.add_comm, Nat.mod_add, Nat.mod_small by lia. reflexivity.
  Qed.
  Lemma each (P : nat -> Prop) : (forall a b, (a < n)%nat -> (b <= s)%nat -> P (a * S s + b)%nat) -> forall i, (i < n * S s)%nat -> P i.
  Proof using.
    intros H i Hi. rewrite (Nat.div_mod i (S s)) by lia. rewrite Nat.mul_comm. apply H.
    - apply Nat.div_lt_upper_bound; lia.
    - pose proof (Nat.mod_upper_bound i (S s)). lia.
  Qed.
  Lemma lift_inner t v u t' v' u' :
    inner (n * S s) (lift t v u) (lift t' v' u') = ksum (S t) (fun m => ksum (S t') (fun m' => inner n (v m) (v' m') *c ksum (S s) (fun b => conj (u m b) *c u' m' b))).
  Proof using.
    unfold inner at 1. rewrite ksum_prod.
    transitivity (ksum n (fun a => ksum (S s) (fun b => ksum (S t) (fun m => ksum (S t') (fun m' => (conj (v m a) *c v' m' a) *c (conj (u m b) *c u' m' b)))))).
    { apply ksum_ext. intros a _. apply ksum_ext. intros b Hb. rewrite !lift_at by lia. rewrite ksum_conj, <- ksum_mul_r. apply ksum_ext. intros m _. rewrite <- ksum_mul_l. apply ksum_ext. intros m' _. rewrite kconj_mul. ring. }
    transitivity (ksum n (fun a => ksum (S t) (fun m => ksum (S t') (fun m' => (conj (v m a) *c v' m' a) *c ksum (S s) (fun b => conj (u m b) *c u' m' b))))).
    { apply ksum_ext. intros a _. rewrite ksum_swap. apply ksum_ext. intros m _. rewrite ksum_swap. apply ksum_ext. intros m' _. apply ksum_mul_l. }
    rewrite ksum_swap. apply ksum_ext. intros m _. rewrite ksum_swap. apply ksum_ext. intros m' _. unfold inner. apply ksum_mul_r.
  Qed.
  Lemma lift_apart t v u t' v' u' : (forall m m', (m <= t)%nat -> (m' <= t')%nat -> inner n (v m) (v' m') = c0) -> inner (n * S s) (lift t v u) (lift t' v' u') = c0.
  Proof using.
    intros H. rewrite lift_inner. apply ksum_zero. intros m Hm. apply ksum_zero. intros m' Hm'. rewrite H by lia. ring.
  Qed.
  Lemma lift_iso t v u u' : (forall m m', (m <= t)%nat -> (m' <= t)%nat -> inner n (v m) (v m') = kb (m =? m')%nat) -> inner (n * S s) (lift t v u) (lift t v u') = ip t s u u'.
  Proof using.
    intros H. rewrite lift_inner. unfold ip. apply ksum_ext. intros m Hm.
    rewrite (ksum_single (S t) m); [rewrite H, Nat.eqb_refl by lia; cbn [kb]; ring|exact Hm|].
    intros m' Hm' N. rewrite H by lia. rewrite (proj2 (Nat.eqb_neq m m')) by congruence. cbn [kb]. ring.
  Qed.

  Variables (Z U L : kern) (t : nat) (v : nat -> nat -> CR).
  Hypothesis V : rep n Z U L t v.
  Lemma lift_ext u u' : eq2 t s u u' -> forall i, lift t v u i = lift t v u' i.
  Proof using. intros E i. apply ksum_ext. intros m Hm. rewrite E; [reflexivity|]. split; [lia|]. pose proof (Nat.mod_upper_bound i (S s)). lia. Qed.
  Lemma lift_scale c u i : lift t v (fun m b => c *c u m b) i = c *c lift t v u i.
  Proof using. unfold lift. rewrite <- ksum_mul_l. apply ksum_ext. intros. ring. Qed.
  Lemma sumL (f : nat -> CR) a : (a < n)%nat -> ksum (S t) (fun m => f m *c act n L (v m) a) = ksum (S t) (fun m => gf t m *c f (m - 1)%nat *c v m a).
  Proof using V.
    intros Ha. rewrite (ksum_ext (S t) _ (fun m => gf t (S m) *c (f m *c v (S m) a))) by (intros m Hm; destruct (V m ltac:(lia) a Ha) as (E & _ & _); rewrite E; ring).
    rewrite <- (shift_sum t (fun i j => f i *c v j a)). apply ksum_ext. intros. ring.
  Qed.
  Lemma sumU (f : nat -> CR) a : (a < n)%nat -> ksum (S t) (fun m => f m *c act n U (v m) a) = ksum (S t) (fun m => gf t (S m) *c f (S m) *c v m a).
  Proof using V.
    intros Ha. rewrite (ksum_ext (S t) _ (fun m => gf t m *c (f m *c v (m - 1)%nat a))) by (intros m Hm; destruct (V m ltac:(lia) a Ha) as (_ & E & _); rewrite E; ring).
    rewrite (shift_sum t (fun i j => f j *c v i a)). apply ksum_ext. intros. ring.
  Qed.
  Lemma sumZ (f : nat -> CR) a : (a < n)%nat -> ksum (S t) (fun m => f m *c act n Z (v m) a) = ksum (S t) (fun m => real (INR t / 2 - INR m) *c f m *c v m a).
  Proof using V. intros Ha. apply ksum_ext. intros m Hm. destruct (V m ltac:(lia) a Ha) as (_ & _ & E). rewrite E. ring. Qed.

  Lemma lift_L u i : (i < n * S s)%nat -> act (n * S s) (both (S s) L (sL s)) (lift t v u) i = lift t v (oL t s u) i.
  Proof using V.
    revert i. apply each. intros a b Ha Hb. unfold both. rewrite act_add, !act_cross, lift_at by assumption.
    rewrite (ksum_ext (S t) (fun m => act (S s) one_k (u m) b *c act n L (v m) a) (fun m => u m b *c act n L (v m) a)) by (intros; rewrite act_one by lia; reflexivity).
    rewrite (sumL (fun m => u m b)) by exact Ha. rewrite <- ksum_add. apply ksum_ext. intros m _. rewrite act_one, act_sL by assumption. unfold oL. ring.
  Qed.
  Lemma lift_U u i : (i < n * S s)%nat -> act (n * S s) (both (S s) U (sU s)) (lift t v u) i = lift t v (oU t s u) i.
  Proof using V.
    revert i. apply each. intros a b Ha Hb. unfold both. rewrite act_add, !act_cross, lift_at by assumption.
    rewrite (ksum_ext (S t) (fun m => act (S s) one_k (u m) b *c act n U (v m) a) (fun m => u m b *c act n U (v m) a)) by (intros; rewrite act_one by lia; reflexivity).
    rewrite (sumU (fun m => u m b)) by exact Ha. rewrite <- ksum_add. apply ksum_ext. intros m _. rewrite act_one, act_sU by assumption. unfold oU. ring.
  Qed.
  Lemma lift_Z u i : (i < n * S s)%nat -> act (n * S s) (both (S s) Z (sZ s)) (lift t v u) i = lift t v (oZ t s u) i.
  Proof using V.
    revert i. apply each. intros a b Ha Hb. unfold both. rewrite act_add, !act_cross, lift_at by assumption.
    rewrite (ksum_ext (S t) (fun m => act (S s) one_k (u m) b *c act n Z (v m) a) (fun m => u m b *c act n Z (v m) a)) by (intros; rewrite act_one by lia; reflexivity).
    rewrite (sumZ (fun m => u m b)) by exact Ha. rewrite <- ksum_add. apply ksum_ext. intros m _. rewrite act_one, act_sZ by assumption. unfold oZ, wt.
    replace ((INR t + INR s) / 2 - INR m - INR b) with ((INR t / 2 - INR m) + (INR s / 2 - INR b)) by field. rewrite (real_add (INR t / 2 - INR m)). ring.
  Qed.
  Lemma lift_X u i : (i < n * S s)%nat -> act (n * S s) (dot2 s Z U L) (lift t v u) i = lift t v (oX t s u) i.
  Proof using V.
    revert i. apply each. intros a b Ha Hb. unfold dot2. rewrite !act_add, act_sc, !act_cross, lift_at by assumption.
    rewrite (sumZ (fun m => act (S s) (sZ s) (u m) b)), (sumU (fun m => act (S s) (sL s) (u m) b)), (sumL (fun m => act (S s) (sU s) (u m) b)) by exact Ha.
    rewrite <- ksum_mul_l, <- !ksum_add. apply ksum_ext. intros m _. rewrite !act_sZ, !act_sL, !act_sU by assumption. unfold oX.
    rewrite !real_mul. ring.
  Qed.
  Lemma lift_rep T u : multiplet t s T u -> rep (n * S s) (both (S s) Z (sZ s)) (both (S s) U (sU s)) (both (S s) L (sL s)) T (fun M => lift t v (u M)).
  Proof using V.
    intros H M HM i Hi. destruct (H M HM) as (HL & HU & HZ). rewrite lift_L, lift_U, lift_Z by exact Hi.
    rewrite (lift_ext _ _ HL), (lift_ext _ _ HU), (lift_ext _ _ HZ), !lift_scale. auto.
  Qed.
  Variables (H : kern) (e : R).
  Hypothesis HV : forall M, (M <= t)%nat -> forall i, (i < n)%nat -> act n H (v M) i = real e *c v M i.
  Definition next_energy (c : R) (T : nat) : R := e + c * (INR T * (INR T + 2) / 4 - INR t * (INR t + 2) / 4 - INR s * (INR s + 2) / 4).
  Lemma lift_H c T u : multiplet t s T u -> forall M, (M <= T)%nat -> forall i, (i < n * S s)%nat ->
    act (n * S s) (add_k (cross (S s) H one_k) (sc_k (real c) (dot2 s Z U L))) (lift t v (u M)) i = real (next_energy c T) *c lift t v (u M) i.
  Proof using V HV.
    intros Hu M HM i Hi. rewrite act_add, act_sc, lift_X by exact Hi. rewrite (lift_ext _ _ (multiplet_energy t s T u Hu M HM)), lift_scale.
    assert (E : act (n * S s) (cross (S s) H one_k) (lift t v (u M)) i = real e *c lift t v (u M) i).
    { revert i Hi. apply each. intros a b Ha Hb. rewrite act_cross, lift_at by assumption. rewrite <- ksum_mul_l. apply ksum_ext. intros m Hm. rewrite act_one by lia. rewrite HV by lia. ring. }
    rewrite E. unfold next_energy. rewrite real_add, (real_mul c). ring.
  Qed.
End Step.
