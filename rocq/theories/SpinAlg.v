(** The spin matrices of a spin [two/2]. *)
From Coq Require Import List Arith Lia Bool QArith Ring Setoid.
From Verif Require Import Scalars Res Matrix ModelBase ModelSpins OpsProofs SqMat FockProofs FermiOps.
Import ListNotations.
Local Open Scope nat_scope.
Local Infix "+k" := kadd (at level 50, left associativity).
Local Infix "*k" := kmul (at level 40, left associativity).

Section Alg.
  Context {K : Type} {SR : StarRing K}.
  Add Ring KringSA : (@k_ring K SR).
  Variable rt : nat -> K.
  Variable two : nat.
  (** The square roots the code takes are right and real. *)
  Definition roots_ok := forall i, i < two ->
    kmul (rt ((i + 1) * (two - i))) (rt ((i + 1) * (two - i))) = kofnat ((i + 1) * (two - i)) /\
    kconj (rt ((i + 1) * (two - i))) = rt ((i + 1) * (two - i)).
  Hypothesis HR : roots_ok.
  Notation N := (two + 1).
  Notation P := (ent (splus_op rt two)).
  Notation M := (ent (sminus_op rt two)).
  Notation Z := (ent (sz_op (K:=K) two)).

  Lemma P_ent r c : P r c = if r =? c + 1 then rt ((c + 1) * (two - c)) else k0.
  Proof. reflexivity. Qed.
  Lemma M_ent r c : M r c = if c =? r + 1 then rt ((r + 1) * (two - r)) else k0.
  Proof. unfold sminus_op. cbn [ent]. rewrite (Nat.mul_comm (two - r)). reflexivity. Qed.

  Lemma PM a b : a < N -> b < N -> smul (N:=N) P M a b = kb (a =? b) *k kofnat (a * (two + 1 - a)).
  Proof.
    intros Ha Hb. unfold smul. destruct a as [|a].
    - rewrite ksum_zero; [cbn [Nat.mul]; rewrite kofnat_0; ring|].
      intros k Hk. rewrite P_ent. rewrite (proj2 (Nat.eqb_neq 0 (k + 1))) by lia. ring.
    - rewrite (ksum_single _ a); [|lia|].
      + rewrite P_ent, M_ent. replace (S a) with (a + 1) by lia. rewrite Nat.eqb_refl, (Nat.eqb_sym b).
        destruct (Nat.eqb_spec (a + 1) b); cbn [kb]; [|ring].
        rewrite (proj1 (HR a ltac:(lia))). replace (two + 1 - (a + 1)) with (two - a) by lia. ring.
      + intros k Hk Hne. rewrite P_ent. rewrite (proj2 (Nat.eqb_neq (S a) (k + 1))) by lia. ring.
  Qed.

  Lemma MP a b : a < N -> b < N -> smul (N:=N) M P a b = kb (a =? b) *k kofnat ((a + 1) * (two - a)).
  Proof.
    intros Ha Hb. unfold smul. destruct (Nat.eq_dec a two) as [->|Hne].
    - rewrite ksum_zero; [rewrite Nat.sub_diag, Nat.mul_0_r, kofnat_0; ring|].
      intros k Hk. rewrite M_ent. rewrite (proj2 (Nat.eqb_neq k (two + 1))) by lia. ring.
    - rewrite (ksum_single _ (a + 1)); [|lia|].
      + rewrite P_ent, M_ent, Nat.eqb_refl. destruct (Nat.eqb_spec a b) as [->|Hab]; cbn [kb].
        * rewrite Nat.eqb_refl. rewrite (proj1 (HR b ltac:(lia))). ring.
        * rewrite (proj2 (Nat.eqb_neq (a + 1) (b + 1))) by lia. ring.
      + intros k Hk Hk'. rewrite M_ent. rewrite (proj2 (Nat.eqb_neq k (a + 1))) by lia. ring.
  Qed.

  Definition zval (i : nat) : K := ksub (kmul (kQ (1 # 2)) (kofnat two)) (kofnat i).
  Lemma Z_ent r c : Z r c = kb (r =? c) *k zval r.
  Proof. unfold sz_op, mdiag. cbn [ent]. unfold zval. destruct (r =? c); cbn [kb]; ring. Qed.
  Lemma Z_l (X : sq K N) a b : a < N -> smul (N:=N) Z X a b = zval a *k X a b.
  Proof.
    intros Ha. unfold smul. rewrite (ksum_single _ a); [|assumption|].
    - rewrite Z_ent, Nat.eqb_refl. cbn [kb]. ring.
    - intros k Hk Hne. rewrite Z_ent. rewrite (proj2 (Nat.eqb_neq a k)) by congruence. cbn [kb]. ring.
  Qed.
  Lemma Z_r (X : sq K N) a b : b < N -> smul (N:=N) X Z a b = X a b *k zval b.
  Proof.
    intros Ha. unfold smul. rewrite (ksum_single _ b); [|assumption|].
    - rewrite Z_ent, Nat.eqb_refl. cbn [kb]. ring.
    - intros k Hk Hne. rewrite Z_ent. rewrite (proj2 (Nat.eqb_neq k b)) by congruence. cbn [kb]. ring.
  Qed.

  Definition comm (A B : mat K) : mat K := msub (mmul A B) (mmul B A).
  Lemma sx_sq : square N (sx_op rt two). Proof. split; reflexivity. Qed.
  Lemma sy_sq : square N (sy_op rt two). Proof. split; reflexivity. Qed.
  Lemma sz_sq : square N (sz_op (K:=K) two). Proof. split; reflexivity. Qed.

  Notation h := (kQ (1 # 2)).
  Lemma sx_ent a b : ent (sx_op rt two) a b = h *k (P a b +k M a b).
  Proof. reflexivity. Qed.
  Lemma sy_ent a b : ent (sy_op rt two) a b = kopp ki *k (h *k ksub (P a b) (M a b)).
  Proof. reflexivity. Qed.

  (** Sums of products split over the four products of P and M. *)
  Lemma prod_split (u v u' v' : K) a b :
    ksum N (fun k => (u *k P a k +k v *k M a k) *k (u' *k P k b +k v' *k M k b)) =
    u *k u' *k smul (N:=N) P P a b +k u *k v' *k smul (N:=N) P M a b +k
    v *k u' *k smul (N:=N) M P a b +k v *k v' *k smul (N:=N) M M a b.
  Proof.
    unfold smul. rewrite <- !ksum_mul_l, <- !ksum_add. apply ksum_ext. intros. ring.
  Qed.

  Lemma h4 : h *k h *k (k1 +k k1) = h.
  Proof. transitivity (h *k (h +k h)); [ring|]. rewrite khalf2. ring. Qed.

  (** The number [a(two+1-a)] minus [(a+1)(two-a)] is [2a - two]. *)
  Lemma diag_diff a : a <= two ->
    ksub (kofnat (K:=K) (a * (two + 1 - a))) (kofnat ((a + 1) * (two - a))) = kopp (zval a +k zval a).
  Proof.
    intros H. transitivity (ksub (kofnat (K:=K) a +k kofnat a) (kofnat two)).
    - assert (E : a * (two + 1 - a) + two = (a + 1) * (two - a) + (a + a)) by nia.
      assert (E' : kofnat (K:=K) (a * (two + 1 - a)) +k kofnat two = kofnat ((a + 1) * (two - a)) +k (kofnat a +k kofnat a)).
      { rewrite <- !kofnat_add, E. reflexivity. }
      transitivity (ksub (ksub (kofnat (K:=K) (a * (two + 1 - a)) +k kofnat two) (kofnat two)) (kofnat ((a + 1) * (two - a)))).
      + ring.
      + rewrite E'. ring.
    - unfold zval. transitivity (ksub (kofnat (K:=K) a +k kofnat a) ((h +k h) *k kofnat two)).
      + rewrite khalf2. ring.
      + ring.
  Qed.

  Lemma comm_xy : meq (comm (sx_op rt two) (sy_op rt two)) (mscale (kopp ki) (sz_op two)).
  Proof.
    apply (meq_of_seqv N); [split; reflexivity|split; reflexivity|]. intros a b Ha Hb.
    unfold comm. cbn [ent msub mmul mscale]. change (ncol (sx_op rt two)) with N. change (ncol (sy_op rt two)) with N.
    rewrite (ksum_ext N _ (fun k => (h *k P a k +k h *k M a k) *k ((kopp ki *k h) *k P k b +k (ki *k h) *k M k b)))
      by (intros; rewrite sx_ent, sy_ent; ring).
    rewrite (ksum_ext N (fun k => ent (sy_op rt two) a k *k _)
       (fun k => ((kopp ki *k h) *k P a k +k (ki *k h) *k M a k) *k (h *k P k b +k h *k M k b)))
      by (intros; rewrite sx_ent, sy_ent; ring).
    rewrite !prod_split, PM, MP, Z_ent by assumption.
    transitivity (kb (a =? b) *k (ki *k (h *k h *k (k1 +k k1)) *k
       ksub (kofnat (a * (two + 1 - a))) (kofnat ((a + 1) * (two - a))))); [ring|].
    rewrite diag_diff by lia. rewrite h4.
    transitivity (kb (a =? b) *k (kopp ki *k ((h +k h) *k zval a))); [ring|]. rewrite khalf2. ring.
  Qed.

  Lemma z_P a b : (ksub (zval a) (zval b)) *k P a b = kopp (P a b).
  Proof.
    rewrite P_ent. destruct (Nat.eqb_spec a (b + 1)) as [->|]; [|ring]. unfold zval. rewrite Nat.add_1_r, kofnat_S. ring.
  Qed.
  Lemma z_M a b : (ksub (zval a) (zval b)) *k M a b = M a b.
  Proof.
    rewrite M_ent. destruct (Nat.eqb_spec b (a + 1)) as [->|]; [|ring]. unfold zval.
    rewrite (Nat.add_1_r a), (kofnat_S a). rewrite <- (Nat.add_1_r a). ring.
  Qed.

  Lemma comm_zx : meq (comm (sz_op two) (sx_op rt two)) (mscale (kopp ki) (sy_op rt two)).
  Proof.
    apply (meq_of_seqv N); [split; reflexivity|split; reflexivity|]. intros a b Ha Hb.
    unfold comm. cbn [ent msub mscale].
    change (ent (mmul (sz_op two) (sx_op rt two)) a b) with (smul (N:=N) Z (ent (sx_op rt two)) a b).
    change (ent (mmul (sx_op rt two) (sz_op two)) a b) with (smul (N:=N) (ent (sx_op rt two)) Z a b).
    rewrite Z_l, Z_r by assumption. rewrite sx_ent, sy_ent.
    transitivity (h *k (ksub (zval a) (zval b) *k P a b +k ksub (zval a) (zval b) *k M a b)); [ring|].
    rewrite z_P, z_M. transitivity ((ki *k ki) *k (h *k ksub (P a b) (M a b))); [rewrite ki_sq; ring|ring].
  Qed.

  Lemma comm_yz : meq (comm (sy_op rt two) (sz_op two)) (mscale (kopp ki) (sx_op rt two)).
  Proof.
    apply (meq_of_seqv N); [split; reflexivity|split; reflexivity|]. intros a b Ha Hb.
    unfold comm. cbn [ent msub mscale].
    change (ent (mmul (sz_op two) (sy_op rt two)) a b) with (smul (N:=N) Z (ent (sy_op rt two)) a b).
    change (ent (mmul (sy_op rt two) (sz_op two)) a b) with (smul (N:=N) (ent (sy_op rt two)) Z a b).
    rewrite Z_l, Z_r by assumption. rewrite sx_ent, sy_ent.
    transitivity (kopp ki *k h *k (ksub (ksub (zval a) (zval b) *k M a b) (ksub (zval a) (zval b) *k P a b))); [ring|].
    rewrite z_P, z_M. ring.
  Qed.

  Lemma P_adj r c : r < N -> c < N -> kconj (P r c) = M c r.
  Proof.
    intros Hr Hc. rewrite P_ent, M_ent. destruct (Nat.eqb_spec r (c + 1)) as [->|]; [|apply kconj_0].
    apply HR. lia.
  Qed.
  Lemma M_adj r c : r < N -> c < N -> kconj (M r c) = P c r.
  Proof. intros Hr Hc. rewrite <- P_adj, kconj_inv by assumption. reflexivity. Qed.

  Lemma sx_herm : meq (madj (sx_op rt two)) (sx_op rt two).
  Proof.
    apply (meq_of_seqv N); [split; reflexivity|split; reflexivity|]. intros a b Ha Hb. cbn [madj ent].
    rewrite !sx_ent, kconj_mul, kconj_add, kQ_conj, P_adj, M_adj by assumption. ring.
  Qed.
  Lemma sy_herm : meq (madj (sy_op rt two)) (sy_op rt two).
  Proof.
    apply (meq_of_seqv N); [split; reflexivity|split; reflexivity|]. intros a b Ha Hb. cbn [madj ent].
    rewrite !sy_ent, !kconj_mul, kconj_opp, kconj_sub, ki_conj, kQ_conj, P_adj, M_adj by assumption. ring.
  Qed.
  Lemma zval_real a : kconj (zval a) = zval a.
  Proof. unfold zval, kofnat. rewrite kconj_sub, kconj_mul, !kQ_conj. reflexivity. Qed.
  Lemma sz_herm : meq (madj (sz_op (K:=K) two)) (sz_op two).
  Proof.
    apply (meq_of_seqv N); [split; reflexivity|split; reflexivity|]. intros a b Ha Hb. cbn [madj ent].
    rewrite !Z_ent, kconj_mul, kb_conj, zval_real, Nat.eqb_sym. destruct (Nat.eqb_spec a b) as [->|]; cbn; ring.
  Qed.

  (** Casimir operator. *)
  Lemma casimir :
    meq (madd (madd (mmul (sx_op rt two) (sx_op rt two)) (mmul (sy_op rt two) (sy_op rt two))) (mmul (sz_op two) (sz_op two)))
        (mscale (kQ ((inject_Z (Z.of_nat two) / 2) * (inject_Z (Z.of_nat two) / 2 + 1))) (meye N)).
  Proof.
    apply (meq_of_seqv N); [split; reflexivity|split; reflexivity|]. intros a b Ha Hb.
    cbn [ent madd mscale meye].
    change (ent (mmul (sz_op two) (sz_op two)) a b) with (smul (N:=N) Z Z a b).
    cbn [ent mmul]. change (ncol (sx_op rt two)) with N. change (ncol (sy_op rt two)) with N.
    rewrite (ksum_ext N _ (fun k => (h *k P a k +k h *k M a k) *k (h *k P k b +k h *k M k b)))
      by (intros; rewrite !sx_ent; ring).
    rewrite (ksum_ext N (fun k => ent (sy_op rt two) a k *k _)
       (fun k => ((kopp ki *k h) *k P a k +k (ki *k h) *k M a k) *k ((kopp ki *k h) *k P k b +k (ki *k h) *k M k b)))
      by (intros; rewrite !sy_ent; ring).
    rewrite !prod_split, PM, MP, Z_l, Z_ent by assumption.
    set (PP := smul P P a b). set (MM := smul M M a b).
    set (x := kofnat (a * (two + 1 - a))). set (y := kofnat ((a + 1) * (two - a))).
    transitivity ((k1 +k ki *k ki) *k h *k h *k (PP +k MM) +k
       kb (a =? b) *k ((ksub k1 (ki *k ki)) *k h *k h *k (x +k y) +k zval a *k zval a)); [ring|].
    rewrite ki_sq.
    transitivity (kb (a =? b) *k ((h *k h *k (k1 +k k1)) *k (x +k y) +k zval a *k zval a)); [ring|]. rewrite h4.
    unfold x, y, zval.
    assert (Q : forall q r : Q, (q == r)%Q -> kb (a =? b) *k kQ q = kQ r *k kb (a =? b) :> K).
    { intros q r E. rewrite (kQ_proper q r E). ring. }
    unfold kofnat.
    assert (S : ksub (h *k kQ (inject_Z (Z.of_nat two))) (kQ (inject_Z (Z.of_nat a))) =
                kQ ((1 # 2) * inject_Z (Z.of_nat two) - inject_Z (Z.of_nat a)) :> K).
    { unfold Qminus. rewrite kQ_add, kQ_mul, kQ_opp. ring. }
    rewrite S, <- !kQ_mul, <- !kQ_add, <- !kQ_mul, <- !kQ_add. apply Q.
    rewrite !Nat2Z.inj_mul, !Nat2Z.inj_sub, !Nat2Z.inj_add by lia.
    unfold Z.sub. repeat rewrite ?inject_Z_mult, ?inject_Z_plus, ?inject_Z_opp. cbn [Z.of_nat Pos.of_succ_nat].
    change (inject_Z 1) with 1%Q. field.
  Qed.
End Alg.
