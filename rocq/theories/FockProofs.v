(** Single-site fermion operators: anticommutation relations and matrix
    elements. *)
From Coq Require Import List Arith Lia Bool QArith Setoid Morphisms Ring Ncring Ncring_tac.
From Verif Require Import Scalars Res Matrix ModelBase ModelFermions SpecFock OpsProofs SqMat CarAlgebra.
Import ListNotations.
Local Open Scope nat_scope.
Arguments Nat.div : simpl never.
Arguments Nat.modulo : simpl never.
Arguments Nat.pow : simpl never.

Section Bridge.
  Context {K : Type} {SR : StarRing K}.
  Add Ring KringF0 : (@k_ring K SR).

  Lemma meq_seqv N (A B : mat K) : square N A -> square N B ->
    (meq A B <-> seqv (N:=N) (ent A) (ent B)).
  Proof.
    intros [H1 H2] [H3 H4]. unfold meq, seqv. rewrite H1, H2, H3, H4. intuition.
  Qed.

  Lemma ent_mul N (A B : mat K) : square N A -> ent (mmul A B) = smul (N:=N) (ent A) (ent B).
  Proof. intros [_ H]. unfold mmul, smul. simpl. rewrite H. reflexivity. Qed.

  Lemma square_meq N (A B : mat K) : meq A B -> square N A -> square N B.
  Proof. intros (H1 & H2 & _) [H3 H4]. split; congruence. Qed.

  Lemma square_add N (A B : mat K) : square N A -> square N (madd A B).
  Proof. intros []; split; assumption. Qed.
  Lemma square_sub N (A B : mat K) : square N A -> square N (msub A B).
  Proof. intros []; split; assumption. Qed.
  Lemma square_scale N c (A : mat K) : square N A -> square N (mscale c A).
  Proof. intros []; split; assumption. Qed.
  Lemma square_mul N (A B : mat K) : square N A -> square N B -> square N (mmul A B).
  Proof. intros [] []; split; assumption. Qed.
  Lemma square_adj N (A : mat K) : square N A -> square N (madj A).
  Proof. intros []; split; assumption. Qed.
  Lemma square_eye N : square N (meye (K:=K) N).
  Proof. split; reflexivity. Qed.
  Lemma square_zero N : square N (mzero (K:=K) N N).
  Proof. split; reflexivity. Qed.

  Lemma cadd_ok N (A B : mat K) : square N A -> square N B -> cadd A B = Ok (madd A B).
  Proof. intros [] []. unfold cadd. rewrite H, H0, H1, H2, Nat.eqb_refl. reflexivity. Qed.
  Lemma csub_ok N (A B : mat K) : square N A -> square N B -> csub A B = Ok (msub A B).
  Proof. intros [] []. unfold csub. rewrite H, H0, H1, H2, Nat.eqb_refl. reflexivity. Qed.

  (** A chain is linear in one of its factors. *)
  Lemma kchain_scale c l1 (X : mat K) l2 :
    meq (kchain (l1 ++ mscale c X :: l2)) (mscale c (kchain (l1 ++ X :: l2))).
  Proof.
    rewrite !kchain_app. simpl. rewrite mkron_scale_l, mkron_scale_r. reflexivity.
  Qed.

  Lemma mkron_add_r (A B B' : mat K) : nrow B' = nrow B -> ncol B' = ncol B ->
    meq (mkron A (madd B B')) (madd (mkron A B) (mkron A B')).
  Proof. intros H1 H2. repeat split; simpl. intros. rewrite H1, H2. ring. Qed.

  Lemma kchain_add l1 (X Y : mat K) l2 : nrow Y = nrow X -> ncol Y = ncol X ->
    meq (kchain (l1 ++ madd X Y :: l2)) (madd (kchain (l1 ++ X :: l2)) (kchain (l1 ++ Y :: l2))).
  Proof.
    intros Hr Hc. rewrite kchain_app. simpl. rewrite mkron_add_l.
    rewrite mkron_add_r by (simpl; congruence).
    apply madd_meq; simpl; try congruence.
    - rewrite !kchain_app. reflexivity.
    - rewrite !kchain_app. reflexivity.
  Qed.

  Lemma kchain_mid l1 (X Y : mat K) l2 : meq X Y -> meq (kchain (l1 ++ X :: l2)) (kchain (l1 ++ Y :: l2)).
  Proof.
    intros H. rewrite !kchain_app. simpl. rewrite H. reflexivity.
  Qed.
End Bridge.

Section Car2.
  Context {K : Type} {SR : StarRing K}.
  Add Ring KringF1 : (@k_ring K SR).
  Variable nl : nat.

  (** The single-site operator at logical site [q], as an operator on the
      [2^nl] dimensional space. *)
  Definition fop (q : nat) (op : mat K) : sq K (2 ^ nl) := ent (kchain (site_chain nl q op parity_op)).
  Definition bop (q : nat) (op : mat K) : sq K (2 ^ nl) := ent (kchain (site_chain nl q op (meye 2))).

  Definition odd2 (A : mat K) : Prop := meq (mmul parity_op A) (mscale (kopp k1) (mmul A parity_op)).

  Lemma pair_chain_square qa qb (A T B : mat K) : qa < qb -> qb < nl ->
    square 2 A -> square 2 T -> square 2 B -> square (2 ^ nl) (kchain (pair_chain nl qa qb A T B)).
  Proof.
    intros H1 H2 HA HT HB.
    assert (F : Forall (square 2) (pair_chain nl qa qb A T B)).
    { unfold pair_chain. apply Forall_app; split; [apply Forall_repeat, eye_square|].
      constructor; [assumption|]. apply Forall_app; split; [apply Forall_repeat; assumption|].
      constructor; [assumption|]. apply Forall_repeat, eye_square. }
    assert (L : length (pair_chain nl qa qb A T B) = nl).
    { unfold pair_chain. rewrite app_length. simpl. rewrite app_length. simpl.
      rewrite !repeat_length. lia. }
    pose proof (kchain_dims 2 _ F) as [D1 D2]. rewrite L in *. split; assumption.
  Qed.

  Lemma fop_mul_lt qa qb A B : qa < qb -> qb < nl -> square 2 A -> square 2 B ->
    seqv (smul (fop qa A) (fop qb B)) (ent (kchain (pair_chain nl qa qb A parity_op (mmul parity_op B)))).
  Proof.
    intros. unfold fop. rewrite <- ent_mul.
    2:{ apply site_chain_sq_kchain; auto using parity_square; lia. }
    apply meq_seqv.
    - apply square_mul; apply site_chain_sq_kchain; auto using parity_square; lia.
    - apply pair_chain_square; auto using parity_square. apply mul_square; auto using parity_square.
    - apply site_chain_mul_lt; auto using parity_square, parity_sq.
  Qed.

  Lemma fop_mul_gt qa qb A B : qa < qb -> qb < nl -> square 2 A -> square 2 B ->
    seqv (smul (fop qb B) (fop qa A)) (ent (kchain (pair_chain nl qa qb A parity_op (mmul B parity_op)))).
  Proof.
    intros. unfold fop. rewrite <- ent_mul.
    2:{ apply site_chain_sq_kchain; auto using parity_square; lia. }
    apply meq_seqv.
    - apply square_mul; apply site_chain_sq_kchain; auto using parity_square; lia.
    - apply pair_chain_square; auto using parity_square. apply mul_square; auto using parity_square.
    - apply site_chain_mul_gt; auto using parity_square, parity_sq.
  Qed.

  Lemma fop_mul_same q A B : q < nl -> square 2 A -> square 2 B ->
    seqv (smul (fop q A) (fop q B)) (bop q (mmul A B)).
  Proof.
    intros. unfold fop, bop. rewrite <- ent_mul.
    2:{ apply site_chain_sq_kchain; auto using parity_square; lia. }
    apply meq_seqv.
    - apply square_mul; apply site_chain_sq_kchain; auto using parity_square; lia.
    - apply site_chain_sq_kchain; auto using eye_square. apply mul_square; auto.
    - apply site_chain_mul_same; auto using parity_square, parity_sq.
  Qed.

  (** Odd operators on different sites anticommute. *)
  Lemma fop_acomm_lt qa qb A B : qa < qb -> qb < nl -> square 2 A -> square 2 B -> odd2 B ->
    seqv (sadd (smul (fop qa A) (fop qb B)) (smul (fop qb B) (fop qa A))) s0.
  Proof.
    intros H1 H2 HA HB HO i j Hi Hj. unfold sadd.
    rewrite (fop_mul_lt qa qb A B) by assumption. rewrite (fop_mul_gt qa qb A B) by assumption.
    assert (E : meq (kchain (pair_chain nl qa qb A parity_op (mmul parity_op B)))
       (mscale (kopp k1) (kchain (pair_chain nl qa qb A parity_op (mmul B parity_op))))).
    { unfold pair_chain.
      pose proof (kchain_mid (repeat (meye 2) qa ++ A :: repeat parity_op (qb - qa - 1))
         _ _ (repeat (meye 2) (nl - qb - 1)) HO) as E.
      rewrite kchain_scale in E. rewrite <- !app_assoc in E. simpl app in E. exact E. }
    pose proof (pair_chain_square qa qb A parity_op (mmul parity_op B) H1 H2 HA parity_square
       (mul_square 2 _ _ parity_square HB)) as [S1 S2].
    destruct E as (_ & _ & E). rewrite E by congruence. simpl. unfold s0. ring.
  Qed.

  Lemma fop_acomm qa qb A B : qa <> qb -> qa < nl -> qb < nl -> square 2 A -> square 2 B ->
    odd2 A -> odd2 B ->
    seqv (sadd (smul (fop qa A) (fop qb B)) (smul (fop qb B) (fop qa A))) s0.
  Proof.
    intros Hne Ha Hb SA SB OA OB. destruct (Nat.lt_ge_cases qa qb).
    - apply fop_acomm_lt; auto.
    - assert (G := fop_acomm_lt qb qa B A ltac:(lia) Ha SB SA OA).
      intros i j Hi Hj. specialize (G i j Hi Hj). unfold sadd in *. rewrite <- G. ring.
  Qed.

  Lemma bop_ext q A B : meq A B -> square 2 A -> q < nl -> seqv (bop q A) (bop q B).
  Proof.
    intros E SA Hq. apply meq_seqv.
    - apply site_chain_sq_kchain; auto using eye_square.
    - apply site_chain_sq_kchain; auto using eye_square. eapply square_meq; eauto.
    - apply kchain_mid, E.
  Qed.

  Lemma bop_eye q : q < nl -> seqv (bop q (meye 2)) s1.
  Proof.
    intros Hq. change (@s1 K SR (2 ^ nl)) with (ent (meye (K:=K) (2 ^ nl))). apply meq_seqv.
    - apply site_chain_sq_kchain; auto using eye_square.
    - apply eye_square.
    - unfold site_chain. change (meye 2 :: repeat (meye 2) (nl - q - 1)) with (repeat (meye (K:=K) 2) (S (nl - q - 1))).
      rewrite <- repeat_app, kchain_eye. replace (q + S (nl - q - 1)) with nl by lia. reflexivity.
  Qed.

  Lemma bop_add q A B : q < nl -> square 2 A -> square 2 B -> seqv (bop q (madd A B)) (sadd (bop q A) (bop q B)).
  Proof.
    intros Hq SA SB.
    change (sadd (bop q A) (bop q B)) with
      (ent (madd (kchain (site_chain nl q A (meye 2))) (kchain (site_chain nl q B (meye 2))))).
    apply meq_seqv.
    - apply site_chain_sq_kchain; auto using eye_square, square_add.
    - apply square_add. apply site_chain_sq_kchain; auto using eye_square.
    - apply kchain_add; destruct SA, SB; congruence.
  Qed.

  Lemma bop_zero q : q < nl -> seqv (bop q (mzero 2 2)) s0.
  Proof.
    intros Hq.
    assert (E : meq (mzero 2 2) (mscale (K:=K) k0 (meye 2))).
    { repeat split. intros. cbn. ring. }
    pose proof (kchain_mid (repeat (meye 2) q) _ _ (repeat (meye 2) (nl - q - 1)) E) as F.
    rewrite kchain_scale in F.
    pose proof (site_chain_sq_kchain nl q (mzero 2 2) (meye (K:=K) 2) Hq (square_zero 2) (eye_square 2)) as [S1 S2].
    intros i j Hi Hj. unfold bop, site_chain in *. destruct F as (_ & _ & F). rewrite F by congruence.
    cbn. unfold s0. ring.
  Qed.

  Ltac two22 := repeat split; intros i j Hi Hj; cbn in Hi, Hj;
    (destruct i as [|[|i]]; [| |lia]); (destruct j as [|[|j]]; [| |lia]); cbn; ring.

  Lemma odd_cdag : odd2 cdag_op. Proof. two22. Qed.
  Lemma odd_c : odd2 c_op. Proof. two22. Qed.
  Lemma sq_cdag : square 2 (cdag_op (K:=K)). Proof. split; reflexivity. Qed.
  Lemma sq_c : square 2 (c_op (K:=K)). Proof. split; reflexivity. Qed.
  Lemma sq_n : square 2 (n_op (K:=K)). Proof. split; reflexivity. Qed.
  Lemma cdag_cdag : meq (mmul cdag_op cdag_op) (mzero (K:=K) 2 2). Proof. two22. Qed.
  Lemma c_c : meq (mmul c_op c_op) (mzero (K:=K) 2 2). Proof. two22. Qed.
  Lemma cdag_c : meq (mmul cdag_op c_op) (n_op (K:=K)). Proof. two22. Qed.
  Lemma c_cdag_sum : meq (madd (mmul c_op cdag_op) (mmul cdag_op c_op)) (meye (K:=K) 2). Proof. two22. Qed.

  Definition Cd q := fop q cdag_op.
  Definition Ca q := fop q c_op.
  Definition Nn q := bop q n_op.

  Lemma Cd_Ca q : q < nl -> seqv (smul (Cd q) (Ca q)) (Nn q).
  Proof.
    intros. unfold Cd, Ca, Nn. transitivity (bop q (mmul cdag_op c_op)).
    - apply fop_mul_same; auto using sq_cdag, sq_c.
    - apply bop_ext; auto. apply cdag_c. apply mul_square; auto using sq_cdag, sq_c.
  Qed.
  Lemma Cd_sq q : q < nl -> seqv (smul (Cd q) (Cd q)) s0.
  Proof.
    intros. unfold Cd, Ca, Nn. transitivity (bop q (mmul cdag_op cdag_op)).
    - apply fop_mul_same; auto using sq_cdag, sq_c.
    - transitivity (bop q (mzero 2 2)); [|apply bop_zero; auto]. apply bop_ext; auto. apply cdag_cdag. apply mul_square; auto using sq_cdag, sq_c.
  Qed.
  Lemma Ca_sq q : q < nl -> seqv (smul (Ca q) (Ca q)) s0.
  Proof.
    intros. unfold Cd, Ca, Nn. transitivity (bop q (mmul c_op c_op)).
    - apply fop_mul_same; auto using sq_cdag, sq_c.
    - transitivity (bop q (mzero 2 2)); [|apply bop_zero; auto]. apply bop_ext; auto. apply c_c. apply mul_square; auto using sq_cdag, sq_c.
  Qed.
  Lemma Ca_Cd_same q : q < nl -> seqv (sadd (smul (Ca q) (Cd q)) (smul (Cd q) (Ca q))) s1.
  Proof.
    intros. unfold Cd, Ca.
    assert (S1 : square 2 (mmul (cdag_op (K:=K)) c_op)) by (apply mul_square; auto using sq_cdag, sq_c).
    assert (S2 : square 2 (mmul (c_op (K:=K)) cdag_op)) by (apply mul_square; auto using sq_cdag, sq_c).
    transitivity (sadd (bop q (mmul c_op cdag_op)) (bop q (mmul cdag_op c_op))).
    - intros i j Hi Hj. unfold sadd. rewrite !fop_mul_same by auto using sq_cdag, sq_c. reflexivity.
    - rewrite <- bop_add by auto. transitivity (bop q (meye 2)); [|apply bop_eye; auto].
      apply bop_ext; auto. apply c_cdag_sum.
  Qed.
  Lemma Cd_Cd_ne p q : p <> q -> p < nl -> q < nl -> seqv (sadd (smul (Cd p) (Cd q)) (smul (Cd q) (Cd p))) s0.
  Proof. intros. apply fop_acomm; auto using sq_cdag, odd_cdag. Qed.
  Lemma Ca_Ca_ne p q : p <> q -> p < nl -> q < nl -> seqv (sadd (smul (Ca p) (Ca q)) (smul (Ca q) (Ca p))) s0.
  Proof. intros. apply fop_acomm; auto using sq_c, odd_c. Qed.
  Lemma Ca_Cd_ne p q : p <> q -> p < nl -> q < nl -> seqv (sadd (smul (Ca p) (Cd q)) (smul (Cd q) (Ca p))) s0.
  Proof. intros. apply fop_acomm; auto using sq_c, odd_c, sq_cdag, odd_cdag. Qed.
  Lemma Cd_Ca_ne p q : p <> q -> p < nl -> q < nl -> seqv (sadd (smul (Cd p) (Ca q)) (smul (Ca q) (Cd p))) s0.
  Proof. intros. apply fop_acomm; auto using sq_c, odd_c, sq_cdag, odd_cdag. Qed.

  (** ** Matrix elements *)
  Lemma block_entry q op (E : mat K) m a b : nrow E = m -> ncol E = m -> square 2 op ->
    ent (mkron (mkron (meye (2 ^ q)) op) E) a b =
    kmul (kmul (kb (a / m / 2 =? b / m / 2)) (ent op ((a / m) mod 2) ((b / m) mod 2)))
         (ent E (a mod m) (b mod m)).
  Proof. intros H1 H2 [H3 H4]. simpl. rewrite H1, H2, H3, H4. reflexivity. Qed.

  (** Number of set bits below position [n]. *)
  Definition bits_below (n k : nat) : nat := length (filter (Nat.testbit k) (seq 0 n)).

  Lemma parity_entry n a b : a < 2 ^ n -> b < 2 ^ n ->
    ent (kchain (repeat (parity_op (K:=K)) n)) a b = kmul (kb (a =? b)) (ksign (bits_below n a)).
  Proof.
    revert a b. induction n as [|n IH]; intros a b Ha Hb.
    - change (2 ^ 0) with 1 in *. assert (a = 0) by lia. assert (b = 0) by lia. subst. cbn. ring.
    - change (repeat (parity_op (K:=K)) (S n)) with ((parity_op (K:=K)) :: repeat parity_op n).
      pose proof (kchain_dims 2 (repeat (parity_op (K:=K)) n) (Forall_repeat _ _ _ parity_square)) as [D1 D2].
      rewrite repeat_length in D1, D2. cbn [kchain mkron ent]. rewrite D1, D2.
      assert (P : 2 ^ n <> 0) by (apply Nat.pow_nonzero; lia).
      assert (E2 : 2 ^ S n = 2 ^ n * 2) by (rewrite Nat.pow_succ_r'; lia).
      rewrite IH by (apply Nat.mod_upper_bound; assumption).
      assert (Ha2 : a / 2 ^ n < 2) by (apply Nat.div_lt_upper_bound; lia).
      assert (Hb2 : b / 2 ^ n < 2) by (apply Nat.div_lt_upper_bound; lia).
      assert (Hbits : bits_below (S n) a = bits_below n (a mod 2 ^ n) + a / 2 ^ n).
      { unfold bits_below. rewrite seq_S, filter_app, app_length. f_equal.
        - f_equal. apply filter_ext_in. intros k Hk. apply in_seq in Hk.
          symmetry. apply Nat.mod_pow2_bits_low. lia.
        - simpl. pose proof (Nat.testbit_spec' a n) as Hs. rewrite (Nat.mod_small (a / 2 ^ n)) in Hs by lia.
          destruct (Nat.testbit a n); simpl in *; lia. }
      rewrite Hbits, ksign_add.
      pose proof (Nat.div_mod a (2 ^ n) P) as Da. pose proof (Nat.div_mod b (2 ^ n) P) as Db.
      destruct (Nat.eqb_spec a b) as [->|Hne].
      + rewrite Nat.eqb_refl. destruct (b / 2 ^ n) as [|[|]]; [| |lia]; cbn; ring.
      + destruct (Nat.eqb_spec (a mod 2 ^ n) (b mod 2 ^ n)) as [Hm|Hm].
        * assert (a / 2 ^ n <> b / 2 ^ n) by (intros X; apply Hne; rewrite Da, Db, X, Hm; reflexivity).
          destruct (a / 2 ^ n) as [|[|]]; [| |lia]; (destruct (b / 2 ^ n) as [|[|]]; [| |lia]); try lia; cbn; ring.
        * cbn. ring.
  Qed.

  Lemma eye_entry n a b : a < 2 ^ n -> b < 2 ^ n ->
    ent (kchain (repeat (meye (K:=K) 2) n)) a b = kb (a =? b).
  Proof.
    intros. destruct (kchain_eye (K:=K) 2 n) as (D1 & D2 & E).
    pose proof (kchain_dims 2 (repeat (meye (K:=K) 2) n) (Forall_repeat _ _ _ (eye_square 2))) as [D3 D4].
    rewrite repeat_length in D3, D4. rewrite E by congruence. reflexivity.
  Qed.

  Lemma site_chain_block q op T : q < nl -> square 2 op ->
    meq (kchain (site_chain nl q op T)) (mkron (mkron (meye (2 ^ q)) op) (kchain (repeat T (nl - q - 1)))).
  Proof.
    intros. unfold site_chain. rewrite kchain_app. simpl. rewrite kchain_eye, mkron_assoc. reflexivity.
  Qed.

  Lemma fop_entry q op a b : q < nl -> square 2 op -> a < 2 ^ nl -> b < 2 ^ nl ->
    let m := 2 ^ (nl - q - 1) in
    fop q op a b =
    kmul (kmul (kb (a / m / 2 =? b / m / 2)) (ent op ((a / m) mod 2) ((b / m) mod 2)))
         (kmul (kb (a mod m =? b mod m)) (ksign (bits_below (nl - q - 1) a))).
  Proof.
    intros Hq Sop Ha Hb m. unfold fop.
    destruct (site_chain_block q op parity_op Hq Sop) as (_ & _ & E).
    pose proof (site_chain_sq_kchain nl q op parity_op Hq Sop parity_square) as [D1 D2].
    rewrite E by congruence.
    pose proof (kchain_dims 2 (repeat (parity_op (K:=K)) (nl - q - 1)) (Forall_repeat _ _ _ parity_square)) as [D3 D4].
    rewrite repeat_length in D3, D4.
    rewrite (block_entry q op _ m) by assumption.
    assert (m <> 0) by (apply Nat.pow_nonzero; lia).
    rewrite parity_entry by (apply Nat.mod_upper_bound; assumption). do 2 f_equal.
    f_equal. unfold bits_below. f_equal. apply filter_ext_in. intros k Hk. apply in_seq in Hk.
    apply Nat.mod_pow2_bits_low. lia.
  Qed.

  Lemma bop_entry q op a b : q < nl -> square 2 op -> a < 2 ^ nl -> b < 2 ^ nl ->
    let m := 2 ^ (nl - q - 1) in
    bop q op a b =
    kmul (kmul (kb (a / m / 2 =? b / m / 2)) (ent op ((a / m) mod 2) ((b / m) mod 2)))
         (kb (a mod m =? b mod m)).
  Proof.
    intros Hq Sop Ha Hb m. unfold bop.
    destruct (site_chain_block q op (meye 2) Hq Sop) as (_ & _ & E).
    pose proof (site_chain_sq_kchain nl q op (meye 2) Hq Sop (eye_square 2)) as [D1 D2].
    rewrite E by congruence.
    pose proof (kchain_dims 2 (repeat (meye (K:=K) 2) (nl - q - 1)) (Forall_repeat _ _ _ (eye_square 2))) as [D3 D4].
    rewrite repeat_length in D3, D4.
    rewrite (block_entry q op _ m) by assumption.
    assert (m <> 0) by (apply Nat.pow_nonzero; lia).
    rewrite eye_entry by (apply Nat.mod_upper_bound; assumption). reflexivity.
  Qed.
End Car2.

(** ** Bits *)
Lemma occ_bit nl k q : q < nl -> Nat.b2n (occ nl k q) = (k / 2 ^ (nl - q - 1)) mod 2.
Proof. intros. unfold occ. replace (nl - 1 - q) with (nl - q - 1) by lia. apply Nat.testbit_spec'. Qed.

Lemma filter_map_length {A B} (f : A -> B) (p : B -> bool) l :
  length (filter p (map f l)) = length (filter (fun x => p (f x)) l).
Proof. induction l as [|a l IH]; simpl; [reflexivity|]. destruct (p (f a)); simpl; rewrite IH; reflexivity. Qed.

Lemma seq_rev_map n : rev (seq 0 n) = map (fun i => n - 1 - i) (seq 0 n).
Proof.
  induction n as [|n IH]; [reflexivity|].
  rewrite seq_S at 1. rewrite rev_app_distr. simpl. rewrite IH.
  rewrite <- seq_shift, map_map. f_equal; [lia|]. apply map_ext. intros. lia.
Qed.

Lemma filter_rev_length {A} (p : A -> bool) l : length (filter p (rev l)) = length (filter p l).
Proof.
  induction l as [|a l IH]; simpl; [reflexivity|].
  rewrite filter_app, app_length, IH. simpl. destruct (p a); simpl; lia.
Qed.

Lemma occ_above_bits nl k q : q < nl -> occ_above nl k q = bits_below (nl - q - 1) k.
Proof.
  intros H. unfold occ_above, bits_below.
  rewrite <- (filter_rev_length _ (seq 0 (nl - q - 1))), seq_rev_map, filter_map_length.
  replace (nl - 1 - q) with (nl - q - 1) by lia.
  replace (seq (q + 1) (nl - q - 1)) with (map (fun i => q + 1 + i) (seq 0 (nl - q - 1))).
  2:{ clear. generalize (nl - q - 1) as n. intros n. revert q. induction n as [|n IH]; intros q; [reflexivity|].
      simpl. f_equal; [lia|]. rewrite <- seq_shift, map_map. rewrite <- (Nat.add_1_r (q + 1)).
      rewrite <- IH. apply map_ext. intros. lia. }
  rewrite filter_map_length. f_equal. apply filter_ext_in. intros i Hi. apply in_seq in Hi.
  unfold occ. f_equal. lia.
Qed.

Section Elements.
  Context {K : Type} {SR : StarRing K}.
  Add Ring KringF2 : (@k_ring K SR).
  Variable nl : nat.

  Lemma split3 (a m : nat) : m <> 0 -> a = (a / m / 2 * 2 + (a / m) mod 2) * m + a mod m.
  Proof.
    intros H. pose proof (Nat.div_mod a m H). pose proof (Nat.div_mod (a / m) 2 ltac:(lia)). nia.
  Qed.
  Lemma join3 x y r m : m <> 0 -> y < 2 -> r < m -> let a := (x * 2 + y) * m + r in
    a / m / 2 = x /\ (a / m) mod 2 = y /\ a mod m = r.
  Proof.
    intros Hm Hy Hr a.
    assert (a / m = x * 2 + y). { unfold a. rewrite Nat.div_add_l by lia. rewrite Nat.div_small by lia. lia. }
    rewrite H. split; [|split].
    - rewrite Nat.div_add_l by lia. rewrite (Nat.div_small y 2) by lia. lia.
    - rewrite Nat.add_comm, Nat.mod_add by lia. apply Nat.mod_small; lia.
    - unfold a. rewrite Nat.add_comm, Nat.mod_add by lia. apply Nat.mod_small; lia.
  Qed.

  Lemma n_entry q : q < nl -> seqv (Nn (K:=K) nl q) (ent (n_spec nl q)).
  Proof.
    intros Hq a b Ha Hb. unfold Nn. rewrite bop_entry by (auto using sq_n).
    set (m := 2 ^ (nl - q - 1)). assert (Hm : m <> 0) by (apply Nat.pow_nonzero; lia).
    unfold n_spec. simpl.
    assert (Hob := occ_bit nl b q Hq). fold m in Hob.
    pose proof (split3 a m Hm) as Sa. pose proof (split3 b m Hm) as Sb.
    pose proof (Nat.mod_upper_bound (a / m) 2 ltac:(lia)). pose proof (Nat.mod_upper_bound (b / m) 2 ltac:(lia)).
    destruct (Nat.eqb_spec a b) as [->|Hne].
    - rewrite !Nat.eqb_refl. destruct (occ nl b q); simpl in Hob; rewrite <- Hob; cbn; ring.
    - destruct (Nat.eqb_spec (a / m / 2) (b / m / 2)) as [E1|E1]; [|cbn; ring].
      destruct (Nat.eqb_spec (a mod m) (b mod m)) as [E2|E2]; [|cbn; ring].
      rewrite E1, E2 in Sa.
      destruct ((a / m) mod 2) as [|[|]]; [| |lia]; (destruct ((b / m) mod 2) as [|[|]]; [| |lia]);
        try lia; cbn; ring.
  Qed.

  Lemma cdag_entry q : q < nl -> seqv (Cd (K:=K) nl q) (ent (cdag_spec nl q)).
  Proof.
    intros Hq a b Ha Hb. unfold Cd. rewrite fop_entry by (auto using sq_cdag).
    set (m := 2 ^ (nl - q - 1)). assert (Hm : m <> 0) by (apply Nat.pow_nonzero; lia).
    unfold cdag_spec. cbn [ent].
    assert (Hob := occ_bit nl b q Hq). fold m in Hob.
    replace (nl - 1 - q) with (nl - q - 1) by lia. fold m.
    pose proof (split3 a m Hm) as Sa. pose proof (split3 b m Hm) as Sb.
    pose proof (Nat.mod_upper_bound (a / m) 2 ltac:(lia)). pose proof (Nat.mod_upper_bound (b / m) 2 ltac:(lia)).
    pose proof (Nat.mod_upper_bound b m Hm). pose proof (Nat.mod_upper_bound a m Hm).
    rewrite occ_above_bits by assumption.
    destruct (occ nl b q); cbn [negb andb Nat.b2n] in *.
    - rewrite <- Hob. assert (Z : ent (cdag_op (K:=K)) ((a / m) mod 2) 1 = k0).
      { destruct ((a / m) mod 2) as [|[|]]; [| |lia]; reflexivity. }
      rewrite Z. ring.
    - rewrite <- Hob in *. destruct (Nat.eqb_spec a (b + m)) as [E|E].
      + assert (EE : a = (b / m / 2 * 2 + 1) * m + b mod m) by lia.
        destruct (join3 (b / m / 2) 1 (b mod m) m Hm ltac:(lia) H1) as (J1 & J2 & J3).
        rewrite <- EE in *. rewrite J1, J2, J3, !Nat.eqb_refl. cbn.
        assert (bits_below (nl - q - 1) a = bits_below (nl - q - 1) b) as ->.
        { unfold bits_below. f_equal. apply filter_ext_in. intros k Hk. apply in_seq in Hk.
          rewrite <- (Nat.mod_pow2_bits_low a (nl - q - 1)), <- (Nat.mod_pow2_bits_low b (nl - q - 1)) by lia.
          fold m. rewrite J3. reflexivity. }
        ring.
      + destruct (Nat.eqb_spec (a / m / 2) (b / m / 2)) as [E1|E1]; [|cbn; ring].
        destruct (Nat.eqb_spec (a mod m) (b mod m)) as [E2|E2]; [|cbn; ring].
        rewrite E1, E2 in Sa. destruct ((a / m) mod 2) as [|[|]]; [| |lia]; [cbn; ring|lia].
  Qed.

  Lemma c_entry q : q < nl -> seqv (Ca (K:=K) nl q) (ent (c_spec nl q)).
  Proof.
    intros Hq a b Ha Hb.
    (* adjoint of the previous lemma *)
    assert (E : Ca (K:=K) nl q a b = kconj (Cd nl q b a)).
    { unfold Ca, Cd. rewrite !fop_entry by auto using sq_c, sq_cdag.
      set (m := 2 ^ (nl - q - 1)). assert (Hm : m <> 0) by (apply Nat.pow_nonzero; lia).
      rewrite !kconj_mul, !kb_conj, ksign_conj, (Nat.eqb_sym (b / m / 2)), (Nat.eqb_sym (b mod m)).
      pose proof (Nat.mod_upper_bound (a / m) 2 ltac:(lia)). pose proof (Nat.mod_upper_bound (b / m) 2 ltac:(lia)).
      assert (X : ent (c_op (K:=K)) ((a / m) mod 2) ((b / m) mod 2) =
                  kconj (ent (cdag_op (K:=K)) ((b / m) mod 2) ((a / m) mod 2))).
      { destruct ((a / m) mod 2) as [|[|]]; [| |lia]; (destruct ((b / m) mod 2) as [|[|]]; [| |lia]);
          cbn; rewrite ?kconj_0, ?kconj_1; reflexivity. }
      rewrite X. destruct (Nat.eqb_spec (a mod m) (b mod m)) as [E2|E2]; [|cbn; ring].
      assert (bits_below (nl - q - 1) a = bits_below (nl - q - 1) b) as ->; [|reflexivity].
      unfold bits_below. f_equal. apply filter_ext_in. intros k Hk. apply in_seq in Hk.
      rewrite <- (Nat.mod_pow2_bits_low a (nl - q - 1)), <- (Nat.mod_pow2_bits_low b (nl - q - 1)) by lia.
      fold m. rewrite E2. reflexivity. }
    rewrite E, cdag_entry by auto. unfold c_spec, cdag_spec. simpl.
    destruct (_ && _); [apply ksign_conj|apply kconj_0].
  Qed.
End Elements.
