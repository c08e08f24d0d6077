(** Scalars used by the operator model.

    The python code works with numpy/scipy arrays of floats and complex
    floats.  Operators are modelled over an arbitrary commutative ring [K] with
    an involution (complex conjugation), a square root of -1 and an embedding
    of the rationals.  Floating point rounding is not modelled. *)
From Coq Require Import List Arith Lia QArith Qcanon Ring Setoid.
From Coq Require Import Reals Qreals.

Class StarRing (K : Type) := {
  k0 : K; k1 : K;
  kadd : K -> K -> K;
  kmul : K -> K -> K;
  ksub : K -> K -> K;
  kopp : K -> K;
  kconj : K -> K;
  ki : K;
  kQ : Q -> K;
  keq_dec : forall a b : K, {a = b} + {a <> b};
  k_ring : ring_theory k0 k1 kadd kmul ksub kopp eq;
  kconj_add : forall a b, kconj (kadd a b) = kadd (kconj a) (kconj b);
  kconj_mul : forall a b, kconj (kmul a b) = kmul (kconj a) (kconj b);
  kconj_inv : forall a, kconj (kconj a) = a;
  ki_sq : kmul ki ki = kopp k1;
  ki_conj : kconj ki = kopp ki;
  kQ_proper : forall p q, (p == q)%Q -> kQ p = kQ q;
  kQ_1 : kQ 1%Q = k1;
  kQ_add : forall p q, kQ (p + q)%Q = kadd (kQ p) (kQ q);
  kQ_mul : forall p q, kQ (p * q)%Q = kmul (kQ p) (kQ q);
  kQ_conj : forall q, kconj (kQ q) = kQ q;
  kQ_inj : forall p q, kQ p = kQ q -> (p == q)%Q
}.

Declare Scope K_scope.
Delimit Scope K_scope with K.
Infix "+" := kadd : K_scope.
Infix "*" := kmul : K_scope.
Infix "-" := ksub : K_scope.
Notation "- x" := (kopp x) : K_scope.
Notation "0" := k0 : K_scope.
Notation "1" := k1 : K_scope.

Section Derived.
  Context {K : Type} {SR : StarRing K}.
  Local Open Scope K_scope.
  Add Ring Kring0 : (@k_ring K SR).

  (** Real part: what numpy keeps when a complex value is stored in a real
      array. *)
  Definition kre (x : K) : K := kQ (1 # 2) * (x + kconj x).

  Lemma kconj_0 : kconj 0 = 0.
  Proof.
    assert (H : kconj 0 + kconj 0 = kconj 0 + 0).
    { rewrite <- kconj_add. replace (0 + 0) with 0 by ring. ring. }
    assert (H2 : (kconj 0 + kconj 0) - kconj 0 = (kconj 0 + 0) - kconj 0) by (rewrite H; reflexivity).
    replace (kconj 0 + kconj 0 - kconj 0) with (kconj 0) in H2 by ring.
    rewrite H2. ring.
  Qed.

  Lemma kconj_1 : kconj 1 = 1.
  Proof.
    transitivity (kconj 1 * 1); [ring|].
    transitivity (kconj (1 * kconj 1)).
    - rewrite kconj_mul, kconj_inv. reflexivity.
    - replace (1 * kconj 1) with (kconj 1) by ring. apply kconj_inv.
  Qed.

  Lemma kconj_opp a : kconj (- a) = - kconj a.
  Proof.
    assert (H : kconj (- a) + kconj a = 0).
    { rewrite <- kconj_add. replace (- a + a) with 0 by ring. apply kconj_0. }
    replace (kconj (- a)) with (kconj (- a) + kconj a - kconj a) by ring.
    rewrite H. ring.
  Qed.

  Lemma kconj_sub a b : kconj (a - b) = kconj a - kconj b.
  Proof.
    replace (a - b) with (a + - b) by ring.
    rewrite kconj_add, kconj_opp. ring.
  Qed.

  Lemma kQ_0 : kQ 0%Q = 0.
  Proof.
    assert (H : kQ 0 + kQ 0 = kQ 0).
    { rewrite <- kQ_add. apply kQ_proper. reflexivity. }
    replace (kQ 0) with (kQ 0 + kQ 0 - kQ 0) at 1 by ring.
    rewrite H. ring.
  Qed.

  Lemma kQ_opp q : kQ (- q)%Q = - kQ q.
  Proof.
    assert (H : kQ (- q)%Q + kQ q = 0).
    { rewrite <- kQ_add, <- kQ_0. apply kQ_proper. ring. }
    replace (kQ (- q)%Q) with (kQ (- q)%Q + kQ q - kQ q) by ring.
    rewrite H. ring.
  Qed.

  Lemma khalf2 : kQ (1 # 2) + kQ (1 # 2) = 1.
  Proof. rewrite <- kQ_add, <- kQ_1. apply kQ_proper. reflexivity. Qed.

  Lemma kre_of_real x : kconj x = x -> kre x = x.
  Proof.
    intros H. unfold kre. rewrite H.
    replace (kQ (1#2) * (x + x)) with ((kQ (1#2) + kQ (1#2)) * x) by ring.
    rewrite khalf2. ring.
  Qed.

  Lemma kre_real x : kconj (kre x) = kre x.
  Proof. unfold kre. rewrite kconj_mul, kconj_add, kconj_inv, kQ_conj. ring. Qed.

  Definition kneb (a b : K) : bool := if keq_dec a b then false else true.

  (** Finite sums. *)
  Fixpoint ksum (n : nat) (f : nat -> K) : K :=
    match n with O => 0 | S m => ksum m f + f m end.

  Lemma ksum_ext n f g : (forall i, (i < n)%nat -> f i = g i) -> ksum n f = ksum n g.
  Proof.
    induction n as [|n IH]; intros H; simpl; [reflexivity|].
    rewrite IH by (intros; apply H; lia). rewrite H by lia. reflexivity.
  Qed.

  Lemma ksum_0 n : ksum n (fun _ => 0) = 0.
  Proof. induction n; simpl; [reflexivity|]. rewrite IHn. ring. Qed.

  Lemma ksum_zero n f : (forall i, (i < n)%nat -> f i = 0) -> ksum n f = 0.
  Proof. intros H. rewrite (ksum_ext n f (fun _ => 0)) by assumption. apply ksum_0. Qed.

  Lemma ksum_add n f g : ksum n (fun i => f i + g i) = ksum n f + ksum n g.
  Proof. induction n; simpl; [ring|]. rewrite IHn. ring. Qed.

  Lemma ksum_opp n f : ksum n (fun i => - f i) = - ksum n f.
  Proof. induction n; simpl; [ring|]. rewrite IHn. ring. Qed.

  Lemma ksum_mul_l n f c : ksum n (fun i => c * f i) = c * ksum n f.
  Proof. induction n; simpl; [ring|]. rewrite IHn. ring. Qed.

  Lemma ksum_mul_r n f c : ksum n (fun i => f i * c) = ksum n f * c.
  Proof. induction n; simpl; [ring|]. rewrite IHn. ring. Qed.

  Lemma ksum_conj n f : kconj (ksum n f) = ksum n (fun i => kconj (f i)).
  Proof. induction n; simpl; [apply kconj_0|]. rewrite kconj_add, IHn. reflexivity. Qed.

  Lemma ksum_swap n m (f : nat -> nat -> K) :
    ksum n (fun i => ksum m (fun j => f i j)) = ksum m (fun j => ksum n (fun i => f i j)).
  Proof.
    induction n; simpl.
    - symmetry. apply ksum_0.
    - rewrite IHn, <- ksum_add. reflexivity.
  Qed.

  Lemma ksum_single n j f :
    (j < n)%nat -> (forall i, (i < n)%nat -> i <> j -> f i = 0) -> ksum n f = f j.
  Proof.
    induction n as [|n IH]; intros Hj H; [lia|]. simpl.
    destruct (Nat.eq_dec j n) as [->|Hne].
    - rewrite ksum_zero by (intros; apply H; lia). ring.
    - rewrite IH; [|lia|intros; apply H; lia]. rewrite (H n) by lia. ring.
  Qed.

  Lemma ksum_plus n m f : ksum (n + m) f = ksum n f + ksum m (fun i => f (n + i)%nat).
  Proof.
    induction m as [|m IH]; simpl.
    - rewrite Nat.add_0_r. ring.
    - rewrite Nat.add_succ_r. simpl. rewrite IH. ring.
  Qed.

  Lemma ksum_prod n m f :
    ksum (n * m) f = ksum n (fun i => ksum m (fun j => f (i * m + j)%nat)).
  Proof.
    induction n as [|n IH]; simpl; [reflexivity|].
    rewrite Nat.add_comm, ksum_plus, IH. reflexivity.
  Qed.

  (** Indicator of a boolean. *)
  Definition kb (b : bool) : K := if b then 1 else 0.

  Lemma kb_and a b : kb (a && b) = kb a * kb b.
  Proof. destruct a, b; simpl; ring. Qed.

  Lemma kb_conj b : kconj (kb b) = kb b.
  Proof. destruct b; [apply kconj_1|apply kconj_0]. Qed.

  (** Signs. *)
  Fixpoint ksign (n : nat) : K := match n with O => 1 | S m => - ksign m end.

  Lemma ksign_add a b : ksign (a + b) = ksign a * ksign b.
  Proof. induction a; simpl; [ring|]. rewrite IHa. ring. Qed.

  Lemma ksign_sq a : ksign a * ksign a = 1.
  Proof. induction a; simpl; [ring|]. replace (- ksign a * - ksign a) with (ksign a * ksign a) by ring. assumption. Qed.

  Lemma ksign_conj a : kconj (ksign a) = ksign a.
  Proof. induction a; simpl; [apply kconj_1|]. rewrite kconj_opp, IHa. reflexivity. Qed.

  Definition kofnat (n : nat) : K := kQ (inject_Z (Z.of_nat n)).

  Lemma kofnat_0 : kofnat 0 = 0.
  Proof. apply kQ_0. Qed.

  Lemma kofnat_S n : kofnat (S n) = kofnat n + 1.
  Proof.
    unfold kofnat. rewrite <- kQ_1, <- kQ_add. apply kQ_proper.
    rewrite Nat2Z.inj_succ. unfold Z.succ. rewrite inject_Z_plus. reflexivity.
  Qed.

  Lemma kofnat_add a b : kofnat (a + b) = kofnat a + kofnat b.
  Proof.
    unfold kofnat. rewrite <- kQ_add. apply kQ_proper.
    rewrite Nat2Z.inj_add, inject_Z_plus. reflexivity.
  Qed.

  Lemma kofnat_mul a b : kofnat (a * b) = kofnat a * kofnat b.
  Proof.
    unfold kofnat. rewrite <- kQ_mul. apply kQ_proper.
    rewrite Nat2Z.inj_mul, inject_Z_mult. reflexivity.
  Qed.

  Lemma kofnat_inj a b : kofnat a = kofnat b -> a = b.
  Proof.
    unfold kofnat. intros H. apply kQ_inj in H. unfold Qeq in H. simpl in H. lia.
  Qed.

  Lemma k1_neq_0 : k1 <> k0.
  Proof. rewrite <- kQ_1, <- kQ_0. intros H. apply kQ_inj in H. discriminate H. Qed.
End Derived.

(** ** Gaussian rationals: an executable instance. *)
Definition GQ := (Qc * Qc)%type.

Section GaussianRationals.
  Local Open Scope Qc_scope.
  Definition gq_add (a b : GQ) : GQ := (fst a + fst b, snd a + snd b).
  Definition gq_mul (a b : GQ) : GQ :=
    (fst a * fst b - snd a * snd b, fst a * snd b + snd a * fst b).
  Definition gq_opp (a : GQ) : GQ := (- fst a, - snd a).
  Definition gq_sub (a b : GQ) : GQ := (fst a - fst b, snd a - snd b).
  Definition gq_conj (a : GQ) : GQ := (fst a, - snd a).
  Definition gq_Q (q : Q) : GQ := (Q2Qc q, 0).

  Definition gq_eq_dec (a b : GQ) : {a = b} + {a <> b}.
  Proof.
    destruct a as [a a'], b as [b b'].
    destruct (Qc_eq_dec a b); [|right; congruence].
    destruct (Qc_eq_dec a' b'); [left|right]; congruence.
  Defined.

  Lemma gq_ring : ring_theory (0, 0) (1, 0) gq_add gq_mul gq_sub gq_opp eq.
  Proof.
    constructor; intros; repeat match goal with x : (_ * _)%type |- _ => destruct x end;
      unfold gq_add, gq_mul, gq_sub, gq_opp; simpl; f_equal; ring.
  Qed.
End GaussianRationals.

Lemma Q2Qc_proper p q : (p == q)%Q -> Q2Qc p = Q2Qc q.
Proof.
  intros H. apply Qc_is_canon. simpl. rewrite !Qred_correct. assumption.
Qed.

#[export] Instance GQ_StarRing : StarRing GQ.
Proof.
  refine {| k0 := (0%Qc, 0%Qc); k1 := (1%Qc, 0%Qc); kadd := gq_add; kmul := gq_mul;
            ksub := gq_sub; kopp := gq_opp; kconj := gq_conj; ki := (0%Qc, 1%Qc);
            kQ := gq_Q; keq_dec := gq_eq_dec; k_ring := gq_ring |}.
  - intros [a a'] [b b']. unfold gq_conj, gq_add; simpl; f_equal; ring.
  - intros [a a'] [b b']. unfold gq_conj, gq_mul; simpl; f_equal; ring.
  - intros [a a']. unfold gq_conj; simpl; f_equal; ring.
  - unfold gq_mul, gq_opp; simpl; f_equal; ring.
  - unfold gq_conj, gq_opp; simpl; f_equal; ring.
  - intros p q H. unfold gq_Q. f_equal. apply Q2Qc_proper, H.
  - reflexivity.
  - intros p q. unfold gq_Q, gq_add; simpl. apply pair_equal_spec; split; [|ring].
    unfold Qcplus. apply Q2Qc_proper. cbn [this Q2Qc]. rewrite !Qred_correct. reflexivity.
  - intros p q. unfold gq_Q, gq_mul; simpl. apply pair_equal_spec; split; [|ring].
    rewrite <- (Qcplus_0_r (Q2Qc (p * q))).
    replace (Q2Qc p * Q2Qc q - 0 * 0)%Qc with (Q2Qc p * Q2Qc q + 0)%Qc by ring.
    f_equal. unfold Qcmult. apply Q2Qc_proper. cbn [this Q2Qc]. rewrite !Qred_correct. reflexivity.
  - intros q. unfold gq_conj, gq_Q; simpl. f_equal.
  - intros p q H. apply (f_equal fst) in H. apply (f_equal this) in H. cbn in H.
    rewrite <- (Qred_correct p), <- (Qred_correct q), H. reflexivity.
Defined.

(** ** Complex numbers over the standard library reals. *)
Definition CR := (R * R)%type.

Section ComplexReals.
  Local Open Scope R_scope.
  Definition cr_add (a b : CR) : CR := (fst a + fst b, snd a + snd b).
  Definition cr_mul (a b : CR) : CR :=
    (fst a * fst b - snd a * snd b, fst a * snd b + snd a * fst b).
  Definition cr_opp (a : CR) : CR := (- fst a, - snd a).
  Definition cr_sub (a b : CR) : CR := (fst a - fst b, snd a - snd b).
  Definition cr_conj (a : CR) : CR := (fst a, - snd a).
  Definition cr_Q (q : Q) : CR := (Q2R q, 0).

  Definition cr_eq_dec (a b : CR) : {a = b} + {a <> b}.
  Proof.
    destruct a as [a a'], b as [b b'].
    destruct (Req_EM_T a b); [|right; congruence].
    destruct (Req_EM_T a' b'); [left|right]; congruence.
  Defined.

  Lemma cr_ring : ring_theory (0, 0) (1, 0) cr_add cr_mul cr_sub cr_opp eq.
  Proof.
    constructor; intros; repeat match goal with x : (_ * _)%type |- _ => destruct x end;
      unfold cr_add, cr_mul, cr_sub, cr_opp; simpl; f_equal; ring.
  Qed.

  #[export] Instance CR_StarRing : StarRing CR.
  Proof.
    refine {| k0 := (0, 0); k1 := (1, 0); kadd := cr_add; kmul := cr_mul;
              ksub := cr_sub; kopp := cr_opp; kconj := cr_conj; ki := (0, 1);
              kQ := cr_Q; keq_dec := cr_eq_dec; k_ring := cr_ring |}.
    - intros [a a'] [b b']. unfold cr_conj, cr_add; simpl; f_equal; ring.
    - intros [a a'] [b b']. unfold cr_conj, cr_mul; simpl; f_equal; ring.
    - intros [a a']. unfold cr_conj; simpl; f_equal; ring.
    - unfold cr_mul, cr_opp; simpl; f_equal; ring.
    - unfold cr_conj, cr_opp; simpl; f_equal; ring.
    - intros p q H. unfold cr_Q. f_equal. apply Qeq_eqR, H.
    - unfold cr_Q. f_equal. unfold Q2R; simpl. field.
    - intros p q. unfold cr_Q, cr_add; simpl. apply pair_equal_spec; split; [apply Q2R_plus|ring].
    - intros p q. unfold cr_Q, cr_mul; simpl. apply pair_equal_spec; split; [rewrite Q2R_mult; ring|ring].
    - intros q. unfold cr_conj, cr_Q; simpl. f_equal. ring.
    - intros p q H. apply (f_equal fst) in H. apply eqR_Qeq, H.
  Defined.
End ComplexReals.
