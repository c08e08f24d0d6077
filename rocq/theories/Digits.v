(** Digits of basis-state indices and entries of Kronecker chains. *)
From Coq Require Import List Arith Lia Bool QArith Ring.
From Verif Require Import Scalars Res Matrix SpecSpins SpecFock OpsProofs.
Import ListNotations.
Local Open Scope nat_scope.
Arguments Nat.div : simpl never.
Arguments Nat.modulo : simpl never.
Arguments Nat.pow : simpl never.

Section Dig.
  Variable d : nat.
  Hypothesis Hd : d <> 0.

  Fixpoint of_digits (n : nat) (f : nat -> nat) : nat :=
    match n with O => 0 | S m => f 0 * d ^ m + of_digits m (fun p => f (S p)) end.

  Lemma pow_pos n : d ^ n <> 0.
  Proof. apply Nat.pow_nonzero. assumption. Qed.

  Lemma digit_lt n p k : digit d n p k < d.
  Proof. apply Nat.mod_upper_bound. assumption. Qed.

  Lemma digit_0 n k : k < d ^ S n -> digit d (S n) 0 k = k / d ^ n.
  Proof.
    intros H. unfold digit. replace (S n - 1 - 0) with n by lia. apply Nat.mod_small.
    apply Nat.div_lt_upper_bound; [apply pow_pos|]. rewrite Nat.pow_succ_r' in H. lia.
  Qed.

  Lemma div_mod_pow k m j : m < j -> (k mod d ^ j) / d ^ m mod d = k / d ^ m mod d.
  Proof.
    intros H. assert (E : d ^ j = d ^ m * d * d ^ (j - m - 1)).
    { rewrite <- Nat.mul_assoc, <- Nat.pow_succ_r', <- Nat.pow_add_r. f_equal. lia. }
    pose proof (pow_pos m). pose proof (pow_pos (j - m - 1)).
    rewrite (Nat.div_mod k (d ^ j)) at 2 by apply pow_pos.
    rewrite E at 2. rewrite (Nat.add_comm _ (k mod d ^ j)).
    replace (d ^ m * d * d ^ (j - m - 1) * (k / d ^ j)) with ((d ^ (j - m - 1) * (k / d ^ j)) * d * d ^ m) by ring.
    rewrite Nat.div_add by assumption. rewrite Nat.mod_add by assumption. reflexivity.
  Qed.

  Lemma digit_S n p k : p < n -> digit d (S n) (S p) k = digit d n p (k mod d ^ n).
  Proof.
    intros H. unfold digit. replace (S n - 1 - S p) with (n - 1 - p) by lia.
    symmetry. apply div_mod_pow. lia.
  Qed.

  Lemma of_digits_lt n : forall f, (forall p, p < n -> f p < d) -> of_digits n f < d ^ n.
  Proof.
    induction n as [|n IH]; intros f H.
    - cbn. change (d ^ 0) with 1. lia.
    - cbn [of_digits]. rewrite Nat.pow_succ_r'. specialize (IH (fun p => f (S p))).
      assert (of_digits n (fun p => f (S p)) < d ^ n) by (apply IH; intros; apply H; lia).
      assert (f 0 < d) by (apply H; lia). nia.
  Qed.

  Lemma digit_of_digits n : forall f p, (forall p, p < n -> f p < d) -> p < n -> digit d n p (of_digits n f) = f p.
  Proof.
    induction n as [|n IH]; intros f p H Hp; [lia|].
    assert (L : of_digits n (fun p => f (S p)) < d ^ n) by (apply of_digits_lt; intros; apply H; lia).
    pose proof (pow_pos n). destruct p as [|p].
    - rewrite digit_0 by (apply of_digits_lt; assumption). cbn [of_digits].
      rewrite (Nat.add_comm (f 0 * d ^ n)), Nat.div_add by assumption. rewrite Nat.div_small by assumption. reflexivity.
    - rewrite digit_S by lia. cbn [of_digits].
      rewrite (Nat.add_comm (f 0 * d ^ n)), Nat.mod_add by assumption. rewrite Nat.mod_small by assumption.
      apply (IH (fun p => f (S p))); [intros; apply H; lia|lia].
  Qed.

  Lemma of_digits_ext n : forall f g, (forall p, p < n -> f p = g p) -> of_digits n f = of_digits n g.
  Proof.
    induction n as [|n IH]; intros f g H; [reflexivity|]. cbn [of_digits].
    rewrite (H 0) by lia. f_equal. apply IH. intros. apply H. lia.
  Qed.

  Lemma of_digits_digit n : forall k, k < d ^ n -> of_digits n (fun p => digit d n p k) = k.
  Proof.
    induction n as [|n IH]; intros k H.
    - change (d ^ 0) with 1 in H. cbn. lia.
    - cbn [of_digits]. rewrite digit_0 by assumption.
      rewrite (of_digits_ext n _ (fun p => digit d n p (k mod d ^ n))) by (intros; apply digit_S; assumption).
      rewrite IH by (apply Nat.mod_upper_bound, pow_pos).
      rewrite (Nat.div_mod k (d ^ n)) at 3 by apply pow_pos. lia.
  Qed.

  Lemma digits_ext n a b : a < d ^ n -> b < d ^ n -> (forall p, p < n -> digit d n p a = digit d n p b) -> a = b.
  Proof.
    intros Ha Hb H. rewrite <- (of_digits_digit n a Ha), <- (of_digits_digit n b Hb). apply of_digits_ext. assumption.
  Qed.

  (** [k] with the digit of site [i] replaced by [x]. *)
  Definition set_digit (n i x k : nat) : nat := of_digits n (fun p => if p =? i then x else digit d n p k).

  Lemma set_digit_lt n i x k : x < d -> set_digit n i x k < d ^ n.
  Proof. intros H. apply of_digits_lt. intros p Hp. destruct (p =? i); [assumption|apply digit_lt]. Qed.

  Lemma digit_set n i x k p : x < d -> p < n -> digit d n p (set_digit n i x k) = if p =? i then x else digit d n p k.
  Proof.
    intros H Hp. unfold set_digit. rewrite digit_of_digits; [reflexivity| |assumption].
    intros q Hq. destruct (q =? i); [assumption|apply digit_lt].
  Qed.
End Dig.

Lemma mem_true p L : existsb (Nat.eqb p) L = true <-> In p L.
Proof.
  rewrite existsb_exists. split.
  - intros (x & H1 & H2). apply Nat.eqb_eq in H2. congruence.
  - intros H. exists p. split; [assumption|apply Nat.eqb_refl].
Qed.

Lemma agree_off_spec d n L a b :
  agree_off d n L a b = true <-> forall p, p < n -> ~ In p L -> digit d n p a = digit d n p b.
Proof.
  unfold agree_off. rewrite forallb_forall. split.
  - intros H p Hp Hn. assert (I : In p (seq 0 n)) by (apply in_seq; lia). apply H in I.
    apply orb_true_iff in I as [I|I]; [apply mem_true in I; contradiction|]. apply Nat.eqb_eq, I.
  - intros H p Hp. apply in_seq in Hp. apply orb_true_iff.
    destruct (existsb (Nat.eqb p) L) eqn:E; [auto|]. right. apply Nat.eqb_eq, H; [lia|].
    intros I. apply mem_true in I. congruence.
Qed.

Lemma agree_off_nil d n a b : d <> 0 -> a < d ^ n -> b < d ^ n -> agree_off d n [] a b = (a =? b).
Proof.
  intros Hd Ha Hb. destruct (agree_off d n [] a b) eqn:E.
  - symmetry. apply Nat.eqb_eq. apply (digits_ext d Hd n); auto. intros p Hp.
    apply (proj1 (agree_off_spec d n [] a b) E); auto.
  - symmetry. apply Nat.eqb_neq. intros ->. assert (T : agree_off d n [] b b = true) by (apply agree_off_spec; auto). congruence.
Qed.

Lemma carried_spec d n pi a b :
  carried d n pi a b = true <-> forall p, p < n -> digit d n (pi p) a = digit d n p b.
Proof.
  unfold carried. rewrite forallb_forall. split.
  - intros H p Hp. apply Nat.eqb_eq, H, in_seq. lia.
  - intros H p Hp. apply in_seq in Hp. apply Nat.eqb_eq, H. lia.
Qed.

Lemma bool_eq_iff (x y : bool) : (x = true <-> y = true) -> x = y.
Proof. destruct x, y; intuition congruence. Qed.

Lemma forallb_map' {A B} (f : A -> B) c l : forallb c (map f l) = forallb (fun x => c (f x)) l.
Proof. induction l as [|x l IH]; [reflexivity|]. cbn. rewrite IH. reflexivity. Qed.

Section Entries.
  Context {K : Type} {SR : StarRing K}.
  Add Ring KringD : (@k_ring K SR).

  Fixpoint kprod (n : nat) (f : nat -> K) : K :=
    match n with O => k1 | S m => kmul (f 0) (kprod m (fun p => f (S p))) end.

  Lemma kprod_ext n : forall f g, (forall p, p < n -> f p = g p) -> kprod n f = kprod n g.
  Proof.
    induction n as [|n IH]; intros f g H; [reflexivity|]. cbn. rewrite (H 0) by lia. f_equal. apply IH. intros. apply H. lia.
  Qed.

  Lemma kprod_kb n : forall c, kprod n (fun p => kb (c p)) = kb (forallb c (seq 0 n)) :> K.
  Proof.
    induction n as [|n IH]; intros c; [reflexivity|]. cbn [kprod seq forallb].
    rewrite (IH (fun p => c (S p))), <- seq_shift, forallb_map'.
    destruct (c 0), (forallb (fun x => c (S x)) (seq 0 n)); cbn; ring.
  Qed.

  Lemma kprod_mul n : forall f g, kprod n (fun p => kmul (f p) (g p)) = kmul (kprod n f) (kprod n g).
  Proof. induction n as [|n IH]; intros f g; cbn; [ring|]. rewrite IH. ring. Qed.

  Lemma kprod_one n : forall f, (forall p, p < n -> f p = k1) -> kprod n f = k1.
  Proof. induction n as [|n IH]; intros f H; cbn; [reflexivity|]. rewrite H, IH by (intros; try apply H; lia). ring. Qed.

  Lemma kprod_at n : forall i x, i < n -> kprod n (fun p => if p =? i then x else k1) = x.
  Proof.
    induction n as [|n IH]; intros i x Hi; [lia|]. cbn [kprod]. destruct i as [|i].
    - cbn [Nat.eqb]. rewrite kprod_one by reflexivity. ring.
    - cbn [Nat.eqb]. rewrite (IH i x) by lia. ring.
  Qed.

  (** Entries of a chain of square factors. *)
  Lemma kchain_entry d (Hd : d <> 0) l : forall a b, Forall (square d) l -> a < d ^ length l -> b < d ^ length l ->
    ent (kchain l) a b =
    kprod (length l) (fun p => ent (nth p l (meye 0)) (digit d (length l) p a) (digit d (length l) p b)).
  Proof.
    induction l as [|A l IH]; intros a b HF Ha Hb.
    - cbn in *. change (d ^ 0) with 1 in *. assert (a = 0) by lia. assert (b = 0) by lia. subst. reflexivity.
    - inversion_clear HF as [|? ? HA HF']. cbn [length] in *. set (n := length l) in *.
      destruct (kchain_dims d l HF') as [D1 D2]. fold n in D1, D2.
      cbn [kchain mkron ent kprod nth]. rewrite D1, D2. rewrite !(digit_0 d Hd) by assumption. f_equal.
      rewrite IH by (auto; apply Nat.mod_upper_bound, pow_pos; assumption).
      apply kprod_ext. intros p Hp. rewrite !(digit_S d Hd) by assumption. reflexivity.
  Qed.
End Entries.
