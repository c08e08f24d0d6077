(** Two kinds of particles with the same real energies and an attraction
    between them: proofs about the matrix of amplitudes. *)
From Coq Require Import List Arith Lia Reals Lra Bool Classical.
From Verif Require Import Scalars Res Matrix ModelGeometry ModelPhase ModelSymmetry SymBase ModelBase ModelThermal SpecThermal ThermalBase ThermalBasis Spectral Signs.
Import ListNotations.
Local Open Scope R_scope.

Lemma real_mul a b : real (a * b) = real a *c real b.
Proof. apply injective_projections; cbn; ring. Qed.
Lemma real_add a b : real (a + b) = real a +c real b.
Proof. apply injective_projections; cbn; ring. Qed.
Lemma real_conj a : conj (real a) = real a.
Proof. apply injective_projections; cbn; ring. Qed.
Lemma fst_real a z : fst (real a *c z) = a * fst z.
Proof. cbn. ring. Qed.
Lemma conj_real z : conj z *c z = real (fst z * fst z + snd z * snd z).
Proof. apply injective_projections; cbn; ring. Qed.
Lemma sq_zero (z : CR) : fst z * fst z + snd z * snd z = 0 -> z = c0.
Proof. intros Q. apply injective_projections; cbn; nra. Qed.
Lemma rsum_zero n f : (forall i, (i < n)%nat -> 0 <= f i) -> rsum n f = 0 -> forall i, (i < n)%nat -> f i = 0.
Proof.
  induction n as [|n IH]; intros P Z i Hi; [lia|]. cbn [rsum] in Z.
  assert (Q : 0 <= rsum n f) by (rewrite rsum_total; apply total_ge0; intros a Ia; apply in_seq in Ia; apply P; lia).
  assert (Q' := P n (Nat.lt_succ_diag_r n)).
  destruct (Nat.eq_dec i n) as [->|N]; [lra|]. apply IH; [intros; apply P; lia|lra|lia].
Qed.
Lemma rsum_mono n f g : (forall i, (i < n)%nat -> f i <= g i) -> rsum n f <= rsum n g.
Proof. induction n as [|n IH]; intros P; [cbn; lra|]. cbn [rsum]. specialize (IH (fun i Hi => P i (Nat.lt_lt_succ_r _ _ Hi))). specialize (P n (Nat.lt_succ_diag_r n)). lra. Qed.
Lemma rsum_ext2 n f g : (forall i, (i < n)%nat -> f i = g i) -> rsum n f = rsum n g.
Proof. induction n as [|n IH]; intros P; [reflexivity|]. cbn [rsum]. rewrite (P n), IH by (intros; auto with arith). reflexivity. Qed.
Lemma rsum_scale n a f : rsum n (fun i => a * f i) = a * rsum n f.
Proof. induction n as [|n IH]; [cbn; ring|]. cbn [rsum]. rewrite IH. ring. Qed.
Lemma rsum_swap n m (f : nat -> nat -> R) : rsum n (fun i => rsum m (f i)) = rsum m (fun j => rsum n (fun i => f i j)).
Proof.
  induction n as [|n IH]; cbn [rsum].
  - induction m as [|m IM]; [reflexivity|]. cbn [rsum]. rewrite <- IM. ring.
  - rewrite IH. clear IH. induction m as [|m IM]; cbn [rsum]; [ring|]. rewrite <- IM. ring.
Qed.

Section Calculus.
  Variables (N k : nat) (V : nat -> nat -> CR) (E : nat -> R).
  Hypothesis orth : forall a b, (a < k)%nat -> (b < k)%nat -> ksum N (fun x => conj (V x a) *c V x b) = kb (a =? b)%nat.

  Definition fc (g : R -> R) (x y : nat) : CR := ksum k (fun a => real (g (E a)) *c (V x a *c conj (V y a))).

  Lemma fc_ext g h x y : (forall t, g t = h t) -> fc g x y = fc h x y.
  Proof using Type. intros Q. apply ksum_ext. intros a _. rewrite Q. reflexivity. Qed.
  Lemma fc_add g h x y : fc (fun t => g t + h t) x y = fc g x y +c fc h x y.
  Proof using Type. unfold fc. rewrite <- ksum_add. apply ksum_ext. intros a _. rewrite real_add. ring. Qed.
  Lemma fc_scale r g x y : fc (fun t => r * g t) x y = real r *c fc g x y.
  Proof using Type. unfold fc. rewrite <- ksum_mul_l. apply ksum_ext. intros a _. rewrite real_mul. ring. Qed.
  Lemma fc_zero g x y : (forall t, g t = 0) -> fc g x y = c0.
  Proof using Type. intros Q. apply ksum_zero. intros a _. rewrite Q. change (real 0) with c0. ring. Qed.
  Lemma fc_herm g x y : conj (fc g y x) = fc g x y.
  Proof using Type. unfold fc. rewrite ksum_conj. apply ksum_ext. intros a _. rewrite !kconj_mul, kconj_inv, real_conj. ring. Qed.

  Lemma fc_mul g h x y : ksum N (fun z => fc g x z *c fc h z y) = fc (fun t => g t * h t) x y.
  Proof using orth.
    unfold fc.
    rewrite (ksum_ext N _ (fun z => ksum k (fun a => ksum k (fun b =>
       (real (g (E a)) *c V x a *c real (h (E b)) *c conj (V y b)) *c (conj (V z a) *c V z b))))).
    - rewrite ksum_swap. apply ksum_ext. intros a Ha. rewrite ksum_swap.
      rewrite (ksum_single k a _ Ha).
      + rewrite ksum_mul_l, orth, Nat.eqb_refl by assumption. cbn [kb]. rewrite real_mul. ring.
      + intros b Hb Nb. rewrite ksum_mul_l, orth by assumption.
        rewrite (proj2 (Nat.eqb_neq a b)) by lia. cbn [kb]. ring.
    - intros z _. rewrite <- ksum_mul_r. apply ksum_ext. intros a _. rewrite <- ksum_mul_l. apply ksum_ext. intros b _. ring.
  Qed.

  Definition comp (a : nat) (v : nat -> CR) : CR := ksum N (fun y => conj (V y a) *c v y).
  Lemma fc_apply g v x : ksum N (fun y => fc g x y *c v y) = ksum k (fun a => real (g (E a)) *c V x a *c comp a v).
  Proof using Type.
    unfold fc, comp. rewrite (ksum_ext N _ (fun y => ksum k (fun a => (real (g (E a)) *c V x a) *c (conj (V y a) *c v y)))).
    - rewrite ksum_swap. apply ksum_ext. intros a _. rewrite ksum_mul_l. ring.
    - intros y _. rewrite <- ksum_mul_r. apply ksum_ext. intros a _. ring.
  Qed.
  Definition form (W : nat -> nat -> CR) (v : nat -> CR) : CR := ksum N (fun x => conj (v x) *c ksum N (fun y => W x y *c v y)).
  Lemma fc_form g v : form (fc g) v = ksum k (fun a => real (g (E a) * (fst (comp a v) * fst (comp a v) + snd (comp a v) * snd (comp a v)))).
  Proof using Type.
    unfold form. rewrite (ksum_ext N _ (fun x => ksum k (fun a => (real (g (E a)) *c comp a v) *c (conj (v x) *c V x a)))).
    - rewrite ksum_swap. apply ksum_ext. intros a _. rewrite ksum_mul_l, real_mul, <- conj_real.
      replace (ksum N (fun x => conj (v x) *c V x a)) with (conj (comp a v)); [ring|].
      unfold comp. rewrite ksum_conj. apply ksum_ext. intros x _. rewrite kconj_mul, kconj_inv. ring.
    - intros x _. rewrite fc_apply, <- ksum_mul_l. apply ksum_ext. intros a _. ring.
  Qed.
  Lemma form_nonneg g v : (forall t, 0 <= g t) -> 0 <= fst (form (fc g) v).
  Proof using Type.
    intros P. rewrite fc_form, fst_ksum, rsum_total. apply total_ge0. intros a _. cbn. specialize (P (E a)).
    apply Rmult_le_pos; [exact P|nra].
  Qed.
  Lemma form_zero g v : (forall t, 0 <= g t) -> fst (form (fc g) v) = 0 -> forall x, ksum N (fun y => fc g x y *c v y) = c0.
  Proof using Type.
    intros P Z x. rewrite fc_apply. apply ksum_zero. intros a Ha. rewrite fc_form, fst_ksum in Z.
    set (f := fun a => g (E a) * (fst (comp a v) * fst (comp a v) + snd (comp a v) * snd (comp a v))).
    assert (Pf : forall b, (b < k)%nat -> 0 <= f b) by (intros b _; apply Rmult_le_pos; [apply P|nra]).
    assert (Q := rsum_zero k f Pf Z a Ha). unfold f in Q. destruct (Rmult_integral _ _ Q) as [G|G].
    - rewrite G. change (real 0) with c0. ring.
    - rewrite (sq_zero _ G). ring.
  Qed.

  (** Between two sets of indices kept by a projection. *)
  Definition cross (o : nat -> bool) (a b : nat) : CR := ksum N (fun x => kb (o x) *c (conj (V x a) *c V x b)).
  Lemma fc_pair g o :
    ksum N (fun x => ksum N (fun y => kb (o x) *c kb (o y) *c (conj (fc g x y) *c fc g x y))) =
    ksum k (fun a => ksum k (fun b => real (g (E a) * g (E b) * (fst (cross o a b) * fst (cross o a b) + snd (cross o a b) * snd (cross o a b))))).
  Proof using Type.
    rewrite (ksum_ext N _ (fun x => ksum k (fun a => ksum k (fun b => ksum N (fun y =>
       real (g (E a)) *c real (g (E b)) *c ((kb (o x) *c (conj (V x a) *c V x b)) *c (kb (o y) *c (V y a *c conj (V y b))))))))).
    - rewrite ksum_swap. apply ksum_ext. intros a _. rewrite ksum_swap. apply ksum_ext. intros b _.
      rewrite (ksum_ext N _ (fun x => (real (g (E a)) *c real (g (E b)) *c conj (cross o a b)) *c (kb (o x) *c (conj (V x a) *c V x b)))).
      + rewrite ksum_mul_l. fold (cross o a b). rewrite !real_mul, <- conj_real. ring.
      + intros x _. rewrite ksum_mul_l. rewrite ksum_mul_l.
        replace (ksum N (fun y => kb (o y) *c (V y a *c conj (V y b)))) with (conj (cross o a b)); [ring|].
        unfold cross. rewrite ksum_conj. apply ksum_ext. intros y _. rewrite !kconj_mul, kconj_inv.
        destruct (o y); cbn [kb]; [rewrite kconj_1|rewrite kconj_0]; ring.
    - intros x _. rewrite (ksum_ext N _ (fun y => ksum k (fun a => ksum k (fun b =>
         real (g (E a)) *c real (g (E b)) *c ((kb (o x) *c (conj (V x a) *c V x b)) *c (kb (o y) *c (V y a *c conj (V y b)))))))).
      + rewrite ksum_swap. apply ksum_ext. intros a _. rewrite ksum_swap. reflexivity.
      + intros y _. unfold fc. rewrite ksum_conj, <- ksum_mul_r, <- ksum_mul_l. apply ksum_ext. intros a _.
        rewrite <- !ksum_mul_l. apply ksum_ext. intros b _. rewrite !kconj_mul, kconj_inv, real_conj. ring.
  Qed.
End Calculus.

Section Attract.
  Variables (N L : nat) (K : nat -> nat -> R) (U : nat -> R) (o : nat -> nat -> bool) (e : R).
  Hypothesis sym : forall x y, (x < N)%nat -> (y < N)%nat -> K x y = K y x.
  Hypothesis neg : forall i, (i < L)%nat -> U i < 0.
  Hypothesis apart : forall x y, (x < N)%nat -> (y < N)%nat -> (forall i, (i < L)%nat -> o i x = o i y) -> x = y.
  Inductive step : nat -> nat -> Prop :=
  | st_here x : step x x
  | st_go x y z : step x y -> (y < N)%nat -> (z < N)%nat -> K z y <> 0 -> step x z.
  Hypothesis join : forall x y, (x < N)%nat -> (y < N)%nat -> step x y.

  Definition wgt (x y : nat) : R := rsum L (fun i => U i * (if o i x && o i y then 1 else 0)).
  Definition hm (W : nat -> nat -> CR) (x y : nat) : CR :=
    ksum N (fun z => real (K x z) *c W z y) +c ksum N (fun z => real (K y z) *c W x z) +c real (wgt x y) *c W x y.
  Definition ener (W : nat -> nat -> CR) : R := fst (ksum N (fun x => ksum N (fun y => conj (W x y) *c hm W x y))).
  Definition nrm (W : nat -> nat -> CR) : R := fst (ksum N (fun x => ksum N (fun y => conj (W x y) *c W x y))).
  Definition eig (W : nat -> nat -> CR) : Prop := forall x y, (x < N)%nat -> (y < N)%nat -> hm W x y = real e *c W x y.
  Hypothesis tight : forall W, ener W <= e * nrm W -> eig W.

  Lemma hm_ext W W' x y : (x < N)%nat -> (y < N)%nat ->
    (forall x y, (x < N)%nat -> (y < N)%nat -> W x y = W' x y) -> hm W x y = hm W' x y.
  Proof using Type.
    intros Hx Hy Q. unfold hm. rewrite (Q x y) by assumption. f_equal. f_equal; apply ksum_ext; intros z Hz; rewrite Q by assumption; reflexivity.
  Qed.
  Lemma eig_ext W W' : (forall x y, (x < N)%nat -> (y < N)%nat -> W x y = W' x y) -> eig W -> eig W'.
  Proof using Type. intros Q G x y Hx Hy. rewrite <- (Q x y), <- (G x y) by assumption. symmetry. apply hm_ext; assumption. Qed.
  Lemma eig_lin a b W W' : eig W -> eig W' -> eig (fun x y => a *c W x y +c b *c W' x y).
  Proof using Type.
    intros G G' x y Hx Hy. specialize (G x y Hx Hy). specialize (G' x y Hx Hy). unfold hm in *.
    replace (real e *c (a *c W x y +c b *c W' x y)) with (a *c (real e *c W x y) +c b *c (real e *c W' x y)) by ring.
    rewrite <- G, <- G'.
    rewrite (ksum_ext N (fun z => real (K x z) *c _) (fun z => a *c (real (K x z) *c W z y) +c b *c (real (K x z) *c W' z y))) by (intros; ring).
    rewrite (ksum_ext N (fun z => real (K y z) *c _) (fun z => a *c (real (K y z) *c W x z) +c b *c (real (K y z) *c W' x z))) by (intros; ring).
    rewrite !ksum_add, !ksum_mul_l. ring.
  Qed.
  Lemma wgt_sym x y : wgt x y = wgt y x.
  Proof using Type. unfold wgt. apply rsum_ext2. intros i _. rewrite andb_comm. reflexivity. Qed.
  Lemma eig_adj W : eig W -> eig (fun x y => conj (W y x)).
  Proof using Type.
    intros G x y Hx Hy. specialize (G y x Hy Hx). unfold hm in *.
    replace (real e *c conj (W y x)) with (conj (real e *c W y x)) by (rewrite kconj_mul, real_conj; reflexivity).
    rewrite <- G, !kconj_add, !kconj_mul, !ksum_conj, real_conj, (wgt_sym y x).
    rewrite (ksum_ext N (fun z => conj (real (K y z) *c W z x)) (fun z => real (K y z) *c conj (W z x))) by (intros; rewrite kconj_mul, real_conj; reflexivity).
    rewrite (ksum_ext N (fun z => conj (real (K x z) *c W y z)) (fun z => real (K x z) *c conj (W y z))) by (intros; rewrite kconj_mul, real_conj; reflexivity).
    ring.
  Qed.
  Lemma eig_conj W : eig W -> eig (fun x y => conj (W x y)).
  Proof using Type.
    intros G x y Hx Hy. specialize (G x y Hx Hy). unfold hm in *.
    replace (real e *c conj (W x y)) with (conj (real e *c W x y)) by (rewrite kconj_mul, real_conj; reflexivity).
    rewrite <- G, !kconj_add, !kconj_mul, !ksum_conj, real_conj.
    rewrite (ksum_ext N (fun z => conj (real (K x z) *c W z y)) (fun z => real (K x z) *c conj (W z y))) by (intros; rewrite kconj_mul, real_conj; reflexivity).
    rewrite (ksum_ext N (fun z => conj (real (K y z) *c W x z)) (fun z => real (K y z) *c conj (W x z))) by (intros; rewrite kconj_mul, real_conj; reflexivity).
    ring.
  Qed.
  Lemma eig_ener W : eig W -> ener W = e * nrm W.
  Proof using Type.
    intros G. unfold ener, nrm. rewrite <- fst_real. f_equal. rewrite <- ksum_mul_l. apply ksum_ext. intros x Hx.
    rewrite <- ksum_mul_l. apply ksum_ext. intros y Hy. rewrite G by assumption. ring.
  Qed.

  Section Decomposed.
    Variables (k : nat) (V : nat -> nat -> CR) (E : nat -> R).
    Hypothesis orth : forall a b, (a < k)%nat -> (b < k)%nat -> ksum N (fun x => conj (V x a) *c V x b) = kb (a =? b)%nat.
    Notation F := (fc k V E).

    Lemma kin_one g : ksum N (fun x => ksum N (fun y => conj (F g x y) *c ksum N (fun z => real (K x z) *c F g z y))) =
      ksum N (fun x => ksum N (fun z => real (K x z) *c F (fun t => g t * g t) z x)).
    Proof using orth.
      apply ksum_ext. intros x _.
      rewrite (ksum_ext N _ (fun y => ksum N (fun z => real (K x z) *c (F g z y *c F g y x)))).
      - rewrite ksum_swap. apply ksum_ext. intros z _. rewrite ksum_mul_l, (fc_mul N k V E orth). reflexivity.
      - intros y _. rewrite fc_herm, <- ksum_mul_l. apply ksum_ext. intros z _. ring.
    Qed.
    Lemma kin_two g : ksum N (fun x => ksum N (fun y => conj (F g x y) *c ksum N (fun z => real (K y z) *c F g x z))) =
      ksum N (fun y => ksum N (fun z => real (K y z) *c F (fun t => g t * g t) y z)).
    Proof using orth.
      rewrite ksum_swap. apply ksum_ext. intros y _.
      rewrite (ksum_ext N _ (fun x => ksum N (fun z => real (K y z) *c (F g y x *c F g x z)))).
      - rewrite ksum_swap. apply ksum_ext. intros z _. rewrite ksum_mul_l, (fc_mul N k V E orth). reflexivity.
      - intros x _. rewrite fc_herm, <- ksum_mul_l. apply ksum_ext. intros z _. ring.
    Qed.
    Definition att (g : R -> R) (i : nat) : R :=
      rsum k (fun a => rsum k (fun b => g (E a) * g (E b) * (fst (cross N V (o i) a b) * fst (cross N V (o i) a b) + snd (cross N V (o i) a b) * snd (cross N V (o i) a b)))).
    Lemma pot_sum g : fst (ksum N (fun x => ksum N (fun y => conj (F g x y) *c (real (wgt x y) *c F g x y)))) =
      rsum L (fun i => U i * att g i).
    Proof using Type.
      rewrite fst_ksum.
      rewrite (rsum_ext2 N _ (fun x => rsum L (fun i => rsum N (fun y => U i * fst (kb (o i x) *c kb (o i y) *c (conj (F g x y) *c F g x y)))))).
      - rewrite rsum_swap. apply rsum_ext2. intros i _. unfold att.
        rewrite (rsum_ext2 N _ (fun x => U i * rsum N (fun y => fst (kb (o i x) *c kb (o i y) *c (conj (F g x y) *c F g x y))))) by (intros; apply rsum_scale).
        rewrite rsum_scale. f_equal.
        assert (Q := fc_pair N k V E g (o i)). apply (f_equal fst) in Q. rewrite !fst_ksum in Q.
        rewrite (rsum_ext2 N _ (fun x => rsum N (fun y => fst (kb (o i x) *c kb (o i y) *c (conj (F g x y) *c F g x y))))) in Q by (intros; apply fst_ksum).
        rewrite Q. apply rsum_ext2. intros a _. rewrite fst_ksum. reflexivity.
      - intros x _. rewrite fst_ksum, rsum_swap. apply rsum_ext2. intros y _.
        replace (conj (F g x y) *c (real (wgt x y) *c F g x y)) with (real (wgt x y) *c (conj (F g x y) *c F g x y)) by ring.
        rewrite fst_real. unfold wgt. rewrite Rmult_comm, <- rsum_scale. apply rsum_ext2. intros i _.
        destruct (o i x), (o i y); cbn [kb andb]; cbn; ring.
    Qed.
    Lemma ener_fc g : ener (F g) =
      fst (ksum N (fun x => ksum N (fun z => real (K x z) *c F (fun t => g t * g t) z x))) +
      fst (ksum N (fun y => ksum N (fun z => real (K y z) *c F (fun t => g t * g t) y z))) +
      rsum L (fun i => U i * att g i).
    Proof using orth.
      rewrite <- pot_sum, <- kin_one, <- kin_two. unfold ener.
      rewrite (ksum_ext N _ (fun x => ksum N (fun y => conj (F g x y) *c ksum N (fun z => real (K x z) *c F g z y)) +c
         ksum N (fun y => conj (F g x y) *c ksum N (fun z => real (K y z) *c F g x z)) +c
         ksum N (fun y => conj (F g x y) *c (real (wgt x y) *c F g x y)))).
      - rewrite !ksum_add. reflexivity.
      - intros x _. rewrite <- !ksum_add. apply ksum_ext. intros y _. unfold hm. ring.
    Qed.
    Lemma nrm_fc g : nrm (F g) = fst (ksum N (fun y => F (fun t => g t * g t) y y)).
    Proof using orth.
      unfold nrm. rewrite ksum_swap. f_equal. apply ksum_ext. intros y _. rewrite <- (fc_mul N k V E orth).
      apply ksum_ext. intros x _. rewrite fc_herm. reflexivity.
    Qed.

    (** The absolute value of a ground state is one. *)
    Lemma abs_eig : eig (F (fun t => t)) -> eig (F Rabs).
    Proof using orth neg tight.
      intros G. apply tight. apply eig_ener in G. rewrite ener_fc, nrm_fc in *.
      assert (S2 : forall x y, F (fun t => Rabs t * Rabs t) x y = F (fun t => t * t) x y).
      { intros x y. apply fc_ext. intros t. rewrite <- Rabs_mult. apply Rabs_pos_eq. nra. }
      rewrite (ksum_ext N (fun y => F (fun t => Rabs t * Rabs t) y y) (fun y => F (fun t => t * t) y y)) by (intros; apply S2).
      rewrite <- G.
      rewrite (ksum_ext N (fun x => ksum N (fun z => real (K x z) *c F (fun t => Rabs t * Rabs t) z x)) (fun x => ksum N (fun z => real (K x z) *c F (fun t => t * t) z x)))
        by (intros; apply ksum_ext; intros; rewrite S2; reflexivity).
      rewrite (ksum_ext N (fun x => ksum N (fun z => real (K x z) *c F (fun t => Rabs t * Rabs t) x z)) (fun x => ksum N (fun z => real (K x z) *c F (fun t => t * t) x z)))
        by (intros; apply ksum_ext; intros; rewrite S2; reflexivity).
      apply Rplus_le_compat_l. apply rsum_mono. intros i Hi. specialize (neg i Hi).
      assert (att (fun t => t) i <= att Rabs i); [|nra].
      unfold att. apply rsum_mono. intros a _. apply rsum_mono. intros b _.
      apply Rmult_le_compat_r; [nra|]. rewrite <- Rabs_mult. apply Rle_abs.
    Qed.

    (** The kernel of a non-negative ground state. *)
    Definition kills (g : R -> R) (v : nat -> CR) : Prop := forall x, (x < N)%nat -> ksum N (fun y => F g x y *c v y) = c0.
    Lemma kills_ext g v w : (forall y, (y < N)%nat -> v y = w y) -> kills g v -> kills g w.
    Proof using Type. intros Q Z x Hx. rewrite <- (Z x Hx). apply ksum_ext. intros y Hy. rewrite Q by exact Hy. reflexivity. Qed.
    Lemma kills_left g v : kills g v -> forall y, (y < N)%nat -> ksum N (fun x => conj (v x) *c F g x y) = c0.
    Proof using Type.
      intros Z y Hy. rewrite <- (kconj_inv (ksum N _)), ksum_conj.
      rewrite (ksum_ext N _ (fun x => F g y x *c v x)), Z by (try assumption; intros; rewrite kconj_mul, kconj_inv, fc_herm; ring).
      apply kconj_0.
    Qed.
    Definition hopped (v : nat -> CR) (y : nat) : CR := ksum N (fun z => real (K y z) *c v z).
    Lemma kernel_eq g v : eig (F g) -> kills g v -> forall x, (x < N)%nat ->
      ksum N (fun y => F g x y *c hopped v y) +c
      ksum L (fun i => real (U i) *c kb (o i x) *c ksum N (fun y => F g x y *c (kb (o i y) *c v y))) = c0.
    Proof using sym.
      intros G Z x Hx.
      assert (A : ksum N (fun y => hm (F g) x y *c v y) = c0).
      { rewrite (ksum_ext N _ (fun y => real e *c (F g x y *c v y))) by (intros; rewrite G by assumption; ring).
        rewrite ksum_mul_l, Z by exact Hx. ring. }
      unfold hm in A.
      rewrite (ksum_ext N _ (fun y => ksum N (fun z => real (K x z) *c (F g z y *c v y)) +c ksum N (fun z => F g x z *c (real (K z y) *c v y)) +c
         ksum L (fun i => real (U i) *c kb (o i x) *c (F g x y *c (kb (o i y) *c v y))))) in A.
      - rewrite !ksum_add in A.
        replace (ksum N (fun y => ksum N (fun z => real (K x z) *c (F g z y *c v y)))) with c0 in A
          by (symmetry; rewrite ksum_swap; apply ksum_zero; intros z Hz; rewrite ksum_mul_l, Z by exact Hz; ring).
        replace (ksum N (fun y => ksum N (fun z => F g x z *c (real (K z y) *c v y)))) with (ksum N (fun y => F g x y *c hopped v y)) in A
          by (symmetry; rewrite ksum_swap; apply ksum_ext; intros; apply ksum_mul_l).
        replace (ksum N (fun y => ksum L (fun i => real (U i) *c kb (o i x) *c (F g x y *c (kb (o i y) *c v y))))) with
          (ksum L (fun i => real (U i) *c kb (o i x) *c ksum N (fun y => F g x y *c (kb (o i y) *c v y)))) in A
          by (symmetry; rewrite ksum_swap; apply ksum_ext; intros; apply ksum_mul_l).
        rewrite <- A. ring.
      - intros y Hy.
        replace (real (wgt x y)) with (ksum L (fun i => real (U i) *c (kb (o i x) *c kb (o i y)))).
        + transitivity (ksum N (fun z => real (K x z) *c F g z y) *c v y +c ksum N (fun z => real (K y z) *c F g x z) *c v y +c
            ksum L (fun i => real (U i) *c (kb (o i x) *c kb (o i y))) *c (F g x y *c v y)); [ring|].
          rewrite <- !ksum_mul_r. f_equal; [f_equal|]; apply ksum_ext; intros z Hz; try ring.
          rewrite (sym y z) by assumption. ring.
        + unfold wgt. clear. induction L as [|l IH]; [reflexivity|]. cbn [ksum rsum]. rewrite IH, real_add.
          f_equal. rewrite real_mul. destruct (o l x), (o l y); cbn [andb kb]; change (real 1) with c1; change (real 0) with c0; ring.
    Qed.
    Lemma kernel_sites g v : (forall t, 0 <= g t) -> eig (F g) -> kills g v ->
      forall i, (i < L)%nat -> kills g (fun y => kb (o i y) *c v y).
    Proof using sym neg.
      intros P G Z i Hi x _. revert x. apply (form_zero N k V E g); [exact P|].
      set (f := fun i => fst (form N (F g) (fun y => kb (o i y) *c v y))). change (f i = 0).
      assert (T : ksum N (fun x => conj (v x) *c (ksum N (fun y => F g x y *c hopped v y) +c
         ksum L (fun i => real (U i) *c kb (o i x) *c ksum N (fun y => F g x y *c (kb (o i y) *c v y))))) = c0).
      { apply ksum_zero. intros x Hx. rewrite kernel_eq by assumption. ring. }
      rewrite (ksum_ext N _ (fun x => ksum N (fun y => (conj (v x) *c F g x y) *c hopped v y) +c
         ksum L (fun i => real (U i) *c (conj (kb (o i x) *c v x) *c ksum N (fun y => F g x y *c (kb (o i y) *c v y)))))) in T.
      - rewrite ksum_add, ksum_swap, (ksum_swap N L) in T.
        rewrite (ksum_zero N) in T by (intros y Hy; rewrite ksum_mul_r, kills_left by assumption; ring).
        rewrite (ksum_ext L _ (fun i => real (U i) *c form N (F g) (fun y => kb (o i y) *c v y))) in T by (intros; apply ksum_mul_l).
        apply (f_equal fst) in T. replace (fst (c0 +c ksum L (fun i => real (U i) *c form N (F g) (fun y => kb (o i y) *c v y)))) with
          (fst (ksum L (fun i => real (U i) *c form N (F g) (fun y => kb (o i y) *c v y)))) in T by (cbn; ring).
        rewrite fst_ksum in T. change (fst c0) with 0 in T.
        assert (T' : rsum L (fun i => (- U i) * f i) = 0).
        { transitivity (- 1 * rsum L (fun i => U i * f i)).
          - rewrite <- rsum_scale. apply rsum_ext2. intros; ring.
          - rewrite (rsum_ext2 L _ (fun i => fst (real (U i) *c form N (F g) (fun y => kb (o i y) *c v y)))) by (intros; rewrite fst_real; reflexivity).
            rewrite T. cbn. ring. }
        assert (Pf : forall j, (j < L)%nat -> 0 <= - U j * f j).
        { intros j Hj. specialize (neg j Hj). apply Rmult_le_pos; [lra|]. apply form_nonneg. exact P. }
        assert (Q := rsum_zero L _ Pf T' i Hi).
        cbn beta in Q. specialize (neg i Hi). apply Rmult_integral in Q. destruct Q; [lra|assumption].
      - intros x _. transitivity (conj (v x) *c ksum N (fun y => F g x y *c hopped v y) +c
          conj (v x) *c ksum L (fun i => real (U i) *c kb (o i x) *c ksum N (fun y => F g x y *c (kb (o i y) *c v y)))); [ring|].
        rewrite <- (ksum_mul_l N), <- (ksum_mul_l L). f_equal; apply ksum_ext; intros y _; [ring|].
        rewrite kconj_mul. destruct (o y x); cbn [kb]; [rewrite kconj_1|rewrite kconj_0]; ring.
    Qed.
    Lemma kernel_hop g v : (forall t, 0 <= g t) -> eig (F g) -> kills g v -> kills g (hopped v).
    Proof using sym neg.
      intros P G Z x Hx. assert (A := kernel_eq g v G Z x Hx).
      rewrite (ksum_zero L) in A by (intros i Hi; rewrite (kernel_sites g v P G Z i Hi x Hx); ring).
      rewrite <- A. ring.
    Qed.

    Fixpoint alike (c x l : nat) : bool := match l with O => true | S l' => Bool.eqb (o l' c) (o l' x) && alike c x l' end.
    Lemma alike_spec c x l : alike c x l = true <-> forall i, (i < l)%nat -> o i c = o i x.
    Proof using Type.
      induction l as [|l IH]; cbn [alike]; [split; [intros _ i Hi; lia|reflexivity]|].
      rewrite andb_true_iff, IH, Bool.eqb_true_iff. split.
      - intros [A B] i Hi. destruct (Nat.eq_dec i l) as [->|N']; [exact A|apply B; lia].
      - intros A. split; [apply A; lia|intros i Hi; apply A; lia].
    Qed.
    Lemma kernel_alike g v c : (forall t, 0 <= g t) -> eig (F g) -> kills g v -> forall l, (l <= L)%nat -> kills g (fun y => kb (alike c y l) *c v y).
    Proof using sym neg.
      intros P G Z. induction l as [|l IH]; intros Hl.
      - apply (kills_ext g v); [|exact Z]. intros y _. cbn [alike kb]. ring.
      - specialize (IH (Nat.lt_le_incl _ _ Hl)). assert (A := kernel_sites g _ P G IH l Hl).
        destruct (o l c) eqn:Oc.
        + apply (kills_ext g (fun y => kb (o l y) *c (kb (alike c y l) *c v y))); [|exact A].
          intros y _. cbn [alike]. rewrite Oc. destruct (o l y); cbn [Bool.eqb andb kb]; ring.
        + intros x Hx. specialize (A x Hx). specialize (IH x Hx).
          rewrite (ksum_ext N _ (fun y => F g x y *c (kb (alike c y l) *c v y) +c (real (-1) *c (F g x y *c (kb (o l y) *c (kb (alike c y l) *c v y)))))).
          * rewrite ksum_add, IH, ksum_mul_l, A. ring.
          * intros y _. cbn [alike]. rewrite Oc. destruct (o l y), (alike c y l); cbn [Bool.eqb andb kb]; apply injective_projections; cbn; ring.
    Qed.
    (** A configuration of the kernel's vectors is in the kernel. *)
    Lemma kernel_column g v c : (forall t, 0 <= g t) -> eig (F g) -> kills g v -> (c < N)%nat -> v c <> c0 ->
      forall x, (x < N)%nat -> F g x c = c0.
    Proof using sym neg apart.
      intros P G Z Hc Vc x Hx. assert (A := kernel_alike g v c P G Z L (le_n L) x Hx).
      rewrite (ksum_single N c _ Hc) in A.
      - rewrite (proj2 (alike_spec c c L)) in A by reflexivity. cbn [kb] in A.
        replace (F g x c *c (c1 *c v c)) with (F g x c *c v c) in A by ring.
        destruct (F g x c) as [p q], (v c) as [r s].
        assert (A1 := f_equal fst A). assert (A2 := f_equal snd A). cbn in A1, A2.
        assert (D : r * r + s * s <> 0).
        { intros D. apply Vc. apply (sq_zero (r, s)). exact D. }
        apply injective_projections; cbn; apply (Rmult_eq_reg_r (r * r + s * s)); try exact D.
        + replace (p * (r * r + s * s)) with ((p * r - q * s) * r + (p * s + q * r) * s) by ring. rewrite A1, A2. ring.
        + replace (q * (r * r + s * s)) with ((p * s + q * r) * r - (p * r - q * s) * s) by ring. rewrite A1, A2. ring.
      - intros y Hy Ny. destruct (alike c y L) eqn:Al; cbn [kb]; [|ring].
        exfalso. apply Ny. symmetry. apply apart; try assumption. apply alike_spec. exact Al.
    Qed.
    Lemma column_all g c : (forall t, 0 <= g t) -> eig (F g) -> (c < N)%nat -> (forall x, (x < N)%nat -> F g x c = c0) ->
      forall x y, (x < N)%nat -> (y < N)%nat -> F g x y = c0.
    Proof using sym neg apart join.
      intros P G Hc Zc x y Hx Hy. assert (J := join c y Hc Hy).
      assert (A : forall b, step c b -> (b < N)%nat -> forall x, (x < N)%nat -> F g x b = c0); [|apply (A y J Hy x Hx)].
      intros b Jb. induction Jb as [c|c b d Jb IH Hb Hd Kn]; intros Hb' z Hz; [apply Zc; exact Hz|].
      specialize (IH Hc Zc (join c y Hc Hy) Hb).
      assert (Q : kills g (fun w => kb (w =? b)%nat)).
      { intros w Hw. rewrite (ksum_single N b _ Hb).
        - rewrite IH by exact Hw. ring.
        - intros u _ Nu. rewrite (proj2 (Nat.eqb_neq u b) Nu). cbn [kb]. ring. }
      apply (kernel_column g (hopped (fun w => kb (w =? b)%nat)) d P G (kernel_hop g _ P G Q) Hd); [|exact Hz].
      unfold hopped. rewrite (ksum_single N b _ Hb).
      - rewrite Nat.eqb_refl. cbn [kb]. intros W. apply Kn. apply (f_equal fst) in W. cbn in W. lra.
      - intros u _ Nu. rewrite (proj2 (Nat.eqb_neq u b) Nu). cbn [kb]. ring.
    Qed.
    Lemma kernel_all g v c : (forall t, 0 <= g t) -> eig (F g) -> kills g v -> (c < N)%nat -> v c <> c0 ->
      forall x y, (x < N)%nat -> (y < N)%nat -> F g x y = c0.
    Proof using sym neg apart join. intros P G Z Hc Vc. apply (column_all g c P G Hc). apply (kernel_column g v c P G Z Hc Vc). Qed.
  End Decomposed.

  Definition hermi (W : nat -> nat -> CR) : Prop := forall x y, (x < N)%nat -> (y < N)%nat -> W x y = conj (W y x).
  Definition null (W : nat -> nat -> CR) : Prop := forall x y, (x < N)%nat -> (y < N)%nat -> W x y = c0.
  Definition definite (s : R) (W : nat -> nat -> CR) : Prop :=
    forall v c, (c < N)%nat -> v c <> c0 -> 0 < s * fst (form N W v).

  Lemma decompose W : hermi W -> exists k V E,
    (forall a b, (a < k)%nat -> (b < k)%nat -> ksum N (fun x => conj (V x a) *c V x b) = kb (a =? b)%nat) /\
    (forall x y, (x < N)%nat -> (y < N)%nat -> fc k V E (fun t => t) x y = W x y).
  Proof using Type.
    intros Hm. destruct (spectral N (Mat N N W)) as (V & E & (EN & E1 & E2 & E3) & OR & CO); try reflexivity.
    { intros x y Hx Hy. apply Hm; assumption. }
    cbn [nrow] in E1. exists (ncol V), (fun x a => ent V x a), (fun a => nth a E 0). split.
    - intros a b Ha Hb. specialize (OR a b Ha Hb). rewrite <- E1 in OR. exact OR.
    - intros x y Hx Hy. unfold fc.
      rewrite (ksum_ext (ncol V) _ (fun a => ksum N (fun z => (W x z *c ent V z a) *c conj (ent V y a)))).
      + rewrite ksum_swap. rewrite (ksum_single N y _ Hy).
        * rewrite (ksum_ext (ncol V) _ (fun a => W x y *c (ent V y a *c conj (ent V y a)))) by (intros; ring).
          rewrite ksum_mul_l. replace (ksum (ncol V) (fun a => ent V y a *c conj (ent V y a))) with c1; [ring|].
          assert (Q := CO (fun z => kb (z =? y)%nat) y ltac:(rewrite <- E1; exact Hy)). cbn beta in Q.
          rewrite Nat.eqb_refl in Q. cbn [kb] in Q. rewrite Q. apply ksum_ext. intros a _. f_equal.
          unfold inner. rewrite <- E1, (ksum_single N y _ Hy); [rewrite Nat.eqb_refl; cbn [kb]; unfold col; ring|].
          intros z _ Nz. rewrite (proj2 (Nat.eqb_neq z y) Nz). cbn [kb]. ring.
        * intros z Hz Nz.
          rewrite (ksum_ext (ncol V) _ (fun a => W x z *c (ent V z a *c conj (ent V y a)))) by (intros; ring).
          rewrite ksum_mul_l. replace (ksum (ncol V) (fun a => ent V z a *c conj (ent V y a))) with c0; [ring|].
          assert (Q := CO (fun u => kb (u =? y)%nat) z ltac:(rewrite <- E1; exact Hz)). cbn beta in Q.
          rewrite (proj2 (Nat.eqb_neq z y) Nz) in Q. cbn [kb] in Q. rewrite Q. apply ksum_ext. intros a _. f_equal.
          unfold inner. rewrite <- E1, (ksum_single N y _ Hy); [rewrite Nat.eqb_refl; cbn [kb]; unfold col; ring|].
          intros u _ Nu. rewrite (proj2 (Nat.eqb_neq u y) Nu). cbn [kb]. ring.
      + intros a Ha. specialize (E3 x a ltac:(rewrite <- E1; exact Hx) Ha). unfold apply in E3. rewrite <- E1 in E3.
        rewrite ksum_mul_r. change (ksum N (fun z => W x z *c ent V z a)) with (ksum N (fun j => ent (Mat N N W) x j *c col V a j)).
        rewrite E3. unfold real. ring.
  Qed.

  Lemma form_ext W W' v : (forall x y, (x < N)%nat -> (y < N)%nat -> W x y = W' x y) -> form N W v = form N W' v.
  Proof using Type.
    intros Q. unfold form. apply ksum_ext. intros x Hx. f_equal. apply ksum_ext. intros y Hy. rewrite Q by assumption. reflexivity.
  Qed.
  Lemma form_scale r W v : form N (fun x y => real r *c W x y) v = real r *c form N W v.
  Proof using Type.
    unfold form. rewrite <- ksum_mul_l. apply ksum_ext. intros x _.
    rewrite (ksum_ext N _ (fun y => real r *c (W x y *c v y))) by (intros; ring). rewrite ksum_mul_l. ring.
  Qed.

  (** A Hermitian ground state is zero, positive or negative. *)
  Lemma herm_sign W : eig W -> hermi W -> null W \/ exists s, (s = 1 \/ s = -1) /\ definite s W.
  Proof using sym neg apart join tight.
    intros G Hm. destruct (decompose W Hm) as (k & V & E & OR & FW).
    set (F := fc k V E).
    assert (G1 : eig (F (fun t => t))) by (apply (eig_ext W); [intros; symmetry; apply FW; assumption|exact G]).
    assert (G2 := abs_eig k V E OR G1). fold F in G2.
    assert (Gp : eig (F (fun t => Rabs t + t))).
    { apply (eig_ext (fun x y => c1 *c F Rabs x y +c c1 *c F (fun t => t) x y)); [|apply eig_lin; assumption].
      intros x y _ _. unfold F. rewrite fc_add. ring. }
    assert (Gm : eig (F (fun t => Rabs t + -1 * t))).
    { apply (eig_ext (fun x y => c1 *c F Rabs x y +c real (-1) *c F (fun t => t) x y)); [|apply eig_lin; assumption].
      intros x y _ _. unfold F. rewrite fc_add, fc_scale. ring. }
    assert (Pp : forall t, 0 <= Rabs t + t) by (intros t; assert (Q := Rle_abs (- t)); rewrite Rabs_Ropp in Q; lra).
    assert (Pm : forall t, 0 <= Rabs t + -1 * t) by (intros t; assert (Q := Rle_abs t); lra).
    assert (PD : null W \/ definite 1 (F Rabs)).
    { destruct (classic (null W)) as [Z|NZ]; [left; exact Z|right]. intros v c Hc Vc. rewrite Rmult_1_l.
      assert (Q := form_nonneg N k V E Rabs v Rabs_pos). fold F in Q.
      destruct (Rle_lt_or_eq_dec _ _ Q) as [Q'|Q']; [exact Q'|exfalso].
      assert (Z := form_zero N k V E Rabs v Rabs_pos (eq_sym Q')).
      assert (ZA := kernel_all k V E Rabs v c Rabs_pos G2 (fun x _ => Z x) Hc Vc). apply NZ. intros x y Hx Hy.
      rewrite <- FW by assumption.
      (* the square of the absolute value vanishes, so the trace of the square of [W] does *)
      assert (T : nrm (F (fun t => t)) = 0).
      { unfold F. rewrite (nrm_fc k V E OR). transitivity (nrm (F Rabs)).
        - unfold F. rewrite (nrm_fc k V E OR). f_equal. apply ksum_ext. intros z _. apply fc_ext. intros t.
          rewrite <- Rabs_mult. symmetry. apply Rabs_pos_eq. nra.
        - unfold nrm. rewrite (ksum_zero N); [reflexivity|]. intros a Ha. apply ksum_zero. intros b Hb.
          unfold F. rewrite (ZA a b Ha Hb). ring. }
      unfold nrm in T. rewrite fst_ksum in T.
      assert (T1 : forall a, (a < N)%nat -> 0 <= fst (ksum N (fun b => conj (F (fun t => t) a b) *c F (fun t => t) a b))).
      { intros a _. rewrite fst_ksum, rsum_total. apply total_ge0. intros b _. rewrite conj_real. cbn [real fst]. nra. }
      assert (T2 := rsum_zero N _ T1 T x Hx). cbn beta in T2. rewrite fst_ksum in T2.
      assert (T3 : forall b, (b < N)%nat -> 0 <= fst (conj (F (fun t => t) x b) *c F (fun t => t) x b)).
      { intros b _. rewrite conj_real. cbn [real fst]. nra. }
      assert (T4 := rsum_zero N _ T3 T2 y Hy). cbn beta in T4. rewrite conj_real in T4. apply sq_zero. exact T4. }
    destruct PD as [Z|PD]; [left; exact Z|right].
    destruct (classic (null (F (fun t => Rabs t + -1 * t)))) as [Zm|Nm].
    - exists 1. split; [left; reflexivity|]. intros v c Hc Vc. rewrite (form_ext W (F Rabs)); [apply (PD v c Hc Vc)|].
      intros x y Hx Hy. specialize (Zm x y Hx Hy). unfold F in *. rewrite fc_add, fc_scale, FW in Zm by assumption.
      replace (W x y) with (fc k V E Rabs x y -c (fc k V E Rabs x y +c real (-1) *c W x y)) by (apply injective_projections; cbn; ring).
      rewrite Zm. apply injective_projections; cbn; ring.
    - exists (-1). split; [right; reflexivity|].
      assert (Zp : null (F (fun t => Rabs t + t))).
      { apply NNPP. intros Np. apply Nm. intros c y Hc Hy. apply NNPP. intros Nz. apply Np.
        refine (kernel_all k V E _ (fun z => F (fun t => Rabs t + -1 * t) z y) c Pp Gp _ Hc Nz).
        intros x Hx. unfold F. rewrite (fc_mul N k V E OR). apply fc_zero. intros t.
        assert (Q : Rabs t * Rabs t = t * t) by (rewrite <- Rabs_mult; apply Rabs_pos_eq; nra). nra. }
      intros v c Hc Vc. rewrite <- fst_real, <- form_scale. rewrite (form_ext _ (F Rabs)); [specialize (PD v c Hc Vc); lra|].
      intros x y Hx Hy. specialize (Zp x y Hx Hy). unfold F in *. rewrite fc_add, FW in Zp by assumption.
      replace (fc k V E Rabs x y) with (real (-1) *c W x y +c (fc k V E Rabs x y +c W x y)) by (apply injective_projections; cbn; ring).
      rewrite Zp. apply injective_projections; cbn; ring.
  Qed.

  Lemma form_unit W c : (c < N)%nat -> form N W (fun z => kb (z =? c)%nat) = W c c.
  Proof using Type.
    intros Hc. unfold form. rewrite (ksum_single N c _ Hc).
    - rewrite Nat.eqb_refl. cbn [kb]. rewrite kconj_1, (ksum_single N c _ Hc); [rewrite Nat.eqb_refl; cbn [kb]; ring|].
      intros z _ Nz. rewrite (proj2 (Nat.eqb_neq z c) Nz). cbn [kb]. ring.
    - intros z _ Nz. rewrite (proj2 (Nat.eqb_neq z c) Nz). cbn [kb]. rewrite kconj_0. ring.
  Qed.
  Lemma unit_nonzero c : (fun z => @kb CR CR_StarRing (z =? c)%nat) c <> c0.
  Proof using Type. cbn beta. rewrite Nat.eqb_refl. cbn [kb]. intros Q. apply (f_equal fst) in Q. cbn in Q. lra. Qed.
  Lemma herm_diag W c : hermi W -> (c < N)%nat -> W c c = real (fst (W c c)).
  Proof using Type.
    intros Hm Hc. specialize (Hm c c Hc Hc). apply injective_projections; cbn; [reflexivity|].
    apply (f_equal snd) in Hm. cbn in Hm. lra.
  Qed.
  Lemma herm_prop W W' : eig W -> hermi W -> eig W' -> hermi W' -> ~ null W' ->
    exists r, forall x y, (x < N)%nat -> (y < N)%nat -> W x y = real r *c W' x y.
  Proof using sym neg apart join tight.
    intros G Hm G' Hm' NZ.
    destruct (herm_sign W' G' Hm') as [Z|(s & Sd & D)]; [contradiction|].
    assert (HN : (0 < N)%nat). { destruct (Nat.eq_dec N 0) as [Q|Q]; [|lia]. exfalso. apply NZ. intros x y Hx. lia. }
    assert (P := D _ 0%nat HN (unit_nonzero 0)). rewrite form_unit in P by exact HN.
    assert (Nz : fst (W' 0%nat 0%nat) <> 0) by (intros Q; rewrite Q in P; lra).
    exists (fst (W 0%nat 0%nat) / fst (W' 0%nat 0%nat)). set (r := fst (W 0%nat 0%nat) / fst (W' 0%nat 0%nat)).
    assert (Z : null (fun x y => c1 *c W x y +c real (- r) *c W' x y)).
    { destruct (herm_sign (fun x y => c1 *c W x y +c real (- r) *c W' x y)) as [Z|(s' & Sd' & D')]; [apply eig_lin; assumption| |exact Z|].
      - intros x y Hx Hy. rewrite kconj_add, !kconj_mul, kconj_1, real_conj, <- Hm, <- Hm' by assumption. reflexivity.
      - exfalso. specialize (D' _ 0%nat HN (unit_nonzero 0)). rewrite form_unit in D' by exact HN.
        rewrite (herm_diag W 0 Hm HN), (herm_diag W' 0 Hm' HN) in D'. cbn [fst snd real] in D'. revert D'.
        replace (fst (c1 *c real (fst (W 0%nat 0%nat)) +c real (- r) *c real (fst (W' 0%nat 0%nat)))) with 0; [lra|].
        cbn. unfold r. field. exact Nz. }
    intros x y Hx Hy. specialize (Z x y Hx Hy). cbn beta in Z.
    replace (W x y) with ((c1 *c W x y +c real (- r) *c W' x y) +c real r *c W' x y) by (apply injective_projections; cbn; ring).
    rewrite Z. ring.
  Qed.

  Definition half_sum (W : nat -> nat -> CR) x y : CR := c1 *c W x y +c c1 *c conj (W y x).
  Definition half_dif (W : nat -> nat -> CR) x y : CR := (0, 1) *c W x y +c (0, -1) *c conj (W y x).
  Lemma parts W : eig W -> eig (half_sum W) /\ hermi (half_sum W) /\ eig (half_dif W) /\ hermi (half_dif W).
  Proof using Type.
    intros G. repeat split.
    - apply eig_lin; [exact G|apply eig_adj; exact G].
    - intros x y _ _. unfold half_sum. apply injective_projections; cbn; ring.
    - apply eig_lin; [exact G|apply eig_adj; exact G].
    - intros x y _ _. unfold half_dif. apply injective_projections; cbn; ring.
  Qed.
  Lemma parts_back W x y : W x y = (1 / 2, 0) *c half_sum W x y +c (0, - (1 / 2)) *c half_dif W x y.
  Proof using Type. unfold half_sum, half_dif. apply injective_projections; cbn; field. Qed.

  (** The ground states are the multiples of one real positive matrix. *)
  Theorem attract : (exists W, eig W /\ ~ null W) ->
    exists G : nat -> nat -> R,
      eig (fun x y => real (G x y)) /\
      (forall x y, (x < N)%nat -> (y < N)%nat -> G x y = G y x) /\
      definite 1 (fun x y => real (G x y)) /\
      (forall W, eig W -> exists z, forall x y, (x < N)%nat -> (y < N)%nat -> W x y = z *c real (G x y)).
  Proof using sym neg apart join tight.
    intros (W & GW & NW).
    assert (X : exists R0, eig R0 /\ hermi R0 /\ ~ null R0).
    { destruct (parts W GW) as (A1 & A2 & A3 & A4).
      destruct (classic (null (half_sum W))) as [Z|Z]; [|exists (half_sum W); auto].
      destruct (classic (null (half_dif W))) as [Z'|Z']; [|exists (half_dif W); auto].
      exfalso. apply NW. intros x y Hx Hy. rewrite parts_back, Z, Z' by assumption. ring. }
    destruct X as (R0 & G0 & H0 & N0).
    destruct (herm_sign R0 G0 H0) as [Z|(s & Sd & D)]; [contradiction|].
    assert (HN : (0 < N)%nat). { destruct (Nat.eq_dec N 0) as [Q|Q]; [|lia]. exfalso. apply N0. intros x y Hx. lia. }
    assert (Re : forall x y, (x < N)%nat -> (y < N)%nat -> R0 x y = real (fst (R0 x y))).
    { assert (Hc : hermi (fun x y => conj (R0 x y))) by (intros x y Hx Hy; cbn beta; rewrite <- (H0 x y) by assumption; reflexivity).
      destruct (herm_prop (fun x y => conj (R0 x y)) R0 (eig_conj R0 G0) Hc G0 H0 N0) as (r & Qr).
      assert (P := D _ 0%nat HN (unit_nonzero 0)). rewrite form_unit in P by exact HN.
      assert (r = 1) as ->.
      { assert (Q := Qr 0%nat 0%nat HN HN). apply (f_equal fst) in Q. rewrite fst_real in Q. cbn [kconj CR_StarRing fst] in Q.
        assert (fst (R0 0%nat 0%nat) <> 0) by (intros Q'; rewrite Q' in P; lra).
        apply (Rmult_eq_reg_r (fst (R0 0%nat 0%nat))); [|assumption]. rewrite <- Q. cbn. ring. }
      intros x y Hx Hy. specialize (Qr x y Hx Hy). apply (f_equal snd) in Qr. cbn in Qr.
      apply injective_projections; cbn; lra. }
    assert (S2 : s * s = 1) by (destruct Sd as [->| ->]; ring).
    exists (fun x y => s * fst (R0 x y)).
    assert (Q0 : forall x y, (x < N)%nat -> (y < N)%nat -> real (s * fst (R0 x y)) = real s *c R0 x y)
      by (intros x y Hx Hy; rewrite (Re x y Hx Hy) at 2; apply real_mul).
    repeat split.
    - apply (eig_ext (fun x y => real s *c R0 x y +c c0 *c R0 x y)); [|apply eig_lin; assumption].
      intros x y Hx Hy. rewrite Q0 by assumption. ring.
    - intros x y Hx Hy. rewrite (H0 x y) by assumption. reflexivity.
    - intros v c Hc Vc. rewrite (form_ext _ (fun x y => real s *c R0 x y)), form_scale, fst_real, Rmult_1_l by exact Q0. apply (D v c Hc Vc).
    - intros W' G'. destruct (parts W' G') as (A1 & A2 & A3 & A4).
      destruct (herm_prop _ R0 A1 A2 G0 H0 N0) as (r1 & Q1). destruct (herm_prop _ R0 A3 A4 G0 H0 N0) as (r2 & Q2).
      exists (((1 / 2, 0) *c real r1 +c (0, - (1 / 2)) *c real r2) *c real s). intros x y Hx Hy.
      rewrite Q0 by assumption. rewrite parts_back, Q1, Q2 by assumption.
      transitivity (((1 / 2, 0) *c real r1 +c (0, - (1 / 2)) *c real r2) *c (real s *c real s) *c R0 x y); [|ring].
      rewrite <- real_mul, S2. change (real 1) with c1. ring.
  Qed.
End Attract.

(** Averages of one operator for both species in a positive state. *)
Theorem trace_sign N (G : nat -> nat -> CR) (A : nat -> nat -> R) : hermi N G -> definite N 1 G ->
  0 <= fst (ksum N (fun x => ksum N (fun y => conj (G x y) *c ksum N (fun x' => ksum N (fun y' => real (A x x') *c real (A y y') *c G x' y'))))).
Proof.
  intros Hm D. destruct (decompose N G Hm) as (k & V & E & OR & FG).
  assert (EP : forall a, (a < k)%nat -> 0 <= E a).
  { intros a Ha. assert (NZ : exists c, (c < N)%nat /\ V c a <> c0).
    { apply NNPP. intros NX. specialize (OR a a Ha Ha). rewrite Nat.eqb_refl in OR. cbn [kb] in OR. rewrite ksum_zero in OR; [apply (f_equal fst) in OR; cbn in OR; lra|].
      intros x Hx. assert (V x a = c0) as ->; [|ring]. apply NNPP. intros Q. apply NX. exists x. split; assumption. }
    destruct NZ as (c & Hc & Vc). specialize (D (fun x => V x a) c Hc Vc).
    rewrite (form_ext N G (fc k V E (fun t => t))) in D by (intros; symmetry; apply FG; assumption).
    rewrite fc_form, (ksum_single k a _ Ha) in D.
    - unfold comp in D. rewrite OR, Nat.eqb_refl in D by assumption. cbn in D. lra.
    - intros b Hb Nb. unfold comp. rewrite OR by assumption. rewrite (proj2 (Nat.eqb_neq b a) Nb). cbn [kb]. cbn. apply injective_projections; cbn; ring. }
  set (mm := fun a b => ksum N (fun x => ksum N (fun x' => conj (V x a) *c real (A x x') *c V x' b))).
  assert (Q : ksum N (fun x => ksum N (fun y => conj (G x y) *c ksum N (fun x' => ksum N (fun y' => real (A x x') *c real (A y y') *c G x' y')))) =
    ksum k (fun a => ksum k (fun b => real (E a * E b * (fst (mm a b) * fst (mm a b) + snd (mm a b) * snd (mm a b)))))).
  { transitivity (ksum N (fun x => ksum N (fun y => ksum k (fun a => ksum k (fun b =>
      real (E a) *c real (E b) *c (conj (V x a) *c V y a) *c (ksum N (fun x' => real (A x x') *c V x' b) *c conj (ksum N (fun y' => real (A y y') *c V y' b)))))))).
    - apply ksum_ext. intros x Hx. apply ksum_ext. intros y Hy. rewrite <- FG by assumption. unfold fc at 1. rewrite ksum_conj, <- ksum_mul_r. apply ksum_ext. intros a Ha.
      transitivity (real (E a) *c (conj (V x a) *c V y a) *c ksum N (fun x' => ksum N (fun y' => real (A x x') *c real (A y y') *c G x' y'))).
      { f_equal. rewrite !kconj_mul, kconj_inv, real_conj. ring. }
      transitivity (real (E a) *c (conj (V x a) *c V y a) *c ksum k (fun b => real (E b) *c (ksum N (fun x' => real (A x x') *c V x' b) *c conj (ksum N (fun y' => real (A y y') *c V y' b))))).
      + f_equal. transitivity (ksum N (fun x' => ksum k (fun b => real (E b) *c (real (A x x') *c V x' b *c conj (ksum N (fun y' => real (A y y') *c V y' b)))))).
        * apply ksum_ext. intros x' Hx'. transitivity (ksum N (fun y' => ksum k (fun b => real (E b) *c (real (A x x') *c V x' b *c conj (real (A y y') *c V y' b))))).
          { apply ksum_ext. intros y' Hy'. rewrite <- FG by assumption. unfold fc. rewrite <- ksum_mul_l. apply ksum_ext. intros b _. rewrite kconj_mul, real_conj. ring. }
          rewrite ksum_swap. apply ksum_ext. intros b _. rewrite ksum_mul_l, ksum_mul_l, ksum_conj. reflexivity.
        * rewrite ksum_swap. apply ksum_ext. intros b _. rewrite ksum_mul_l, ksum_mul_r. reflexivity.
      + rewrite <- ksum_mul_l. apply ksum_ext. intros b _. ring.
    - transitivity (ksum k (fun a => ksum k (fun b => ksum N (fun x => ksum N (fun y =>
        real (E a) *c real (E b) *c (conj (V x a) *c V y a) *c (ksum N (fun x' => real (A x x') *c V x' b) *c conj (ksum N (fun y' => real (A y y') *c V y' b)))))))).
      + transitivity (ksum N (fun x => ksum k (fun a => ksum k (fun b => ksum N (fun y =>
          real (E a) *c real (E b) *c (conj (V x a) *c V y a) *c (ksum N (fun x' => real (A x x') *c V x' b) *c conj (ksum N (fun y' => real (A y y') *c V y' b)))))))).
        * apply ksum_ext. intros x _. rewrite ksum_swap. apply ksum_ext. intros a _. rewrite ksum_swap. reflexivity.
        * rewrite ksum_swap. apply ksum_ext. intros a _. rewrite ksum_swap. reflexivity.
      + apply ksum_ext. intros a _. apply ksum_ext. intros b _.
        assert (M1 : mm a b = ksum N (fun x => conj (V x a) *c ksum N (fun x' => real (A x x') *c V x' b))).
        { apply ksum_ext. intros x _. rewrite <- ksum_mul_l. apply ksum_ext. intros x' _. ring. }
        rewrite !real_mul, <- conj_real, M1.
        transitivity (real (E a) *c real (E b) *c (ksum N (fun y => V y a *c conj (ksum N (fun y' => real (A y y') *c V y' b))) *c ksum N (fun x => conj (V x a) *c ksum N (fun x' => real (A x x') *c V x' b)))).
        * set (S1 := ksum N (fun y => V y a *c conj (ksum N (fun y' => real (A y y') *c V y' b)))).
          transitivity (ksum N (fun x => real (E a) *c real (E b) *c S1 *c (conj (V x a) *c ksum N (fun x' => real (A x x') *c V x' b)))).
          -- apply ksum_ext. intros x _. transitivity (real (E a) *c real (E b) *c (conj (V x a) *c ksum N (fun x' => real (A x x') *c V x' b)) *c S1); [|ring]. unfold S1. rewrite <- ksum_mul_l. apply ksum_ext. intros y _. ring.
          -- rewrite ksum_mul_l. ring.
        * f_equal. f_equal. rewrite ksum_conj. apply ksum_ext. intros y _. rewrite kconj_mul, kconj_inv. reflexivity. }
  rewrite Q, fst_ksum, rsum_total. apply total_ge0. intros a Ha. apply in_seq in Ha. rewrite fst_ksum, rsum_total. apply total_ge0. intros b Hb. apply in_seq in Hb. cbn [real fst].
  apply Rmult_le_pos; [apply Rmult_le_pos; apply EP; lia | nra].
Qed.
