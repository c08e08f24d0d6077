(** The sectors of a cyclic symmetry are its eigenspaces. *)
From Coq Require Import List Arith Lia ZArith Reals Lra Bool Ring Setoid.
From Verif Require Import Scalars Sums Res Matrix SpecMat ModelPhase ModelSymmetry SpecSymmetry
  SymBase SymReduce SymMany SymGroup SymTable SymZn.
Import ListNotations.
Local Open Scope R_scope.

Add Ring CRring : (@k_ring CR CR_StarRing).

Lemma ks_nth n k : (k < n)%nat -> nth k (zn_ks n) 0 = 2 * PI * INR k / INR n.
Proof.
  intros Hk. unfold zn_ks. rewrite (nth_indep _ 0 (2 * PI * INR 0 / INR n)) by (rewrite map_length, seq_length; assumption).
  rewrite (map_nth (fun k => 2 * PI * INR k / INR n)), seq_nth by assumption. reflexivity.
Qed.

Lemma phase_root n k : (0 < n)%nat -> (k < n)%nat -> cexp (- nth k (zn_ks n) 0) = conj (root n k).
Proof.
  intros Hn Hk. rewrite ks_nth by assumption. unfold root. 
  assert (X : forall t, conj (cexp t) = cexp (- t)).
  { intros t. unfold cexp; cbn. unfold cr_conj; cbn. rewrite cos_neg, sin_neg. reflexivity. }
  rewrite X. f_equal. unfold Rdiv. ring.
Qed.

Lemma msum_apply N (l : list cmat) x i : (forall A, In A l -> square N A) -> ncol x = 1%nat -> nrow x = N -> (i < N)%nat ->
  ent (mmul (msum N l) x) i 0 = klsum l (fun A => ent (mmul A x) i 0).
Proof.
  intros Hl Hc Hr Hi. induction l as [|A l IH].
  - cbn [msum fold_right klsum mmul mzero ent ncol]. apply ksum_zero. intros k _. ring.
  - cbn [klsum]. rewrite <- IH by (intros; apply Hl; right; assumption).
    destruct (Hl A (or_introl eq_refl)) as (A1 & A2).
    assert (S : square N (msum N l)).
    { destruct l as [|B l]; [split; reflexivity|]. destruct (Hl B (or_intror (or_introl eq_refl))). split; assumption. }
    destruct S as (S1 & S2). cbn [msum fold_right]. fold (msum N l).
    cbn [mmul madd ent ncol]. rewrite A2, S2, <- ksum_add. apply ksum_ext. intros k _. ring.
Qed.

Lemma nth_seq_map {A} (d : A) (l : list A) : map (fun j => nth j l d) (seq 0 (length l)) = l.
Proof.
  induction l as [|x l IH] using rev_ind; [reflexivity|]. rewrite app_length, Nat.add_1_r, seq_S, map_app. cbn [map plus].
  rewrite app_nth2, Nat.sub_diag by lia. cbn [nth]. f_equal. rewrite <- IH at 2. apply map_ext_in. intros j Hj. apply in_seq in Hj.
  rewrite app_nth1 by lia. reflexivity.
Qed.

Section Span.
  Variables (N n : nat) (T : cmat) (svd : cmat -> cmat).
  Hypothesis Hn : (0 < n)%nat.
  Hypothesis HT : moves_states N T.
  Hypothesis Hper : meq (mpow N T n) (meye N).

  Theorem zn_span : exists Bs, zn_projectors svd T n = Ok Bs /\ length Bs = n /\
    forall k, (k < n)%nat -> let B := nth k Bs (mzero 0 0) in
      ncol B = N /\ meq (mmul B (madj B)) (meye (nrow B)) /\
      forall x, nrow x = N -> ncol x = 1%nat ->
        (meq (mmul T x) (mscale (cexp (- nth k (zn_ks n) 0)) x) <->
         exists y, nrow y = nrow B /\ ncol y = 1%nat /\ meq x (mmul (madj B) y)).
  Proof.
    destruct (zn_ok N n T svd Hn HT Hper) as (Bs & E1 & E2 & E3 & E4 & _).
    exists Bs. split; [exact E1|]. split; [exact E2|]. intros k Hk B.
    destruct E3 as (S1 & S2 & S3). destruct (S1 k ltac:(lia)) as (B1 & B2). fold B in B1, B2.
    split; [exact B1|]. split; [exact B2|].
    intros x X1 X2. destruct HT as (((T1 & T2) & U1 & U2) & _). split.
    - intros Hx. exists (mmul B x). split; [reflexivity|]. split; [exact X2|].
      assert (Hz : forall j, (j < n)%nat -> j <> k -> forall a, (a < nrow (nth j Bs (mzero 0 0)))%nat -> ent (mmul (nth j Bs (mzero 0 0)) x) a 0 = c0).
      { intros j Hj Hne a Ha. set (C := nth j Bs (mzero 0 0)) in *. destruct (S1 j ltac:(lia)) as (C1 & _). fold C in C1.
        pose proof (E4 j Hj) as Hact. fold C in Hact. unfold acts_as in Hact.
        set (zj := cexp (- nth j (zn_ks n) 0)) in *. set (zk := cexp (- nth k (zn_ks n) 0)) in *.
        (* C = conj zj C T *)
        assert (HCT : forall m, (m < N)%nat -> ksum N (fun l => ent C a l *c conj (ent T m l)) = conj zj *c ent C a m).
        { intros m Hm. destruct Hact as (_ & _ & Ha3). specialize (Ha3 m a). cbn [mmul madj mscale nrow ncol ent] in Ha3.
          rewrite T1, T2 in Ha3. specialize (Ha3 Hm Ha). apply (f_equal kconj) in Ha3. rewrite ksum_conj, kconj_mul, kconj_inv in Ha3.
          rewrite <- Ha3. apply ksum_ext. intros l _. rewrite kconj_mul, kconj_inv. ring. }
        set (w := ent (mmul C x) a 0).
        assert (Hw : w = conj zj *c zk *c w).
        { unfold w at 1. cbn [mmul ent]. rewrite C1.
          (* x_l = sum_m conj(T m l) (T x)_m *)
          transitivity (ksum N (fun l => ent C a l *c ksum N (fun m => conj (ent T m l) *c (zk *c ent x m 0)))).
          { apply ksum_ext. intros l Hl. f_equal. destruct U1 as (_ & _ & U1).
            transitivity (ksum N (fun q => ksum N (fun m => conj (ent T m l) *c ent T m q) *c ent x q 0)).
            - rewrite (ksum_single N l); [|assumption|].
              + specialize (U1 l l). cbn [mmul madj nrow ncol ent] in U1. rewrite T1, T2 in U1.
                rewrite (U1 Hl Hl). cbn [meye ent]. rewrite Nat.eqb_refl. unfold kb. ring.
              + intros q Hq Hql. specialize (U1 l q). cbn [mmul madj nrow ncol ent] in U1. rewrite T1, T2 in U1.
                rewrite (U1 Hl Hq). cbn [meye ent]. destruct (Nat.eqb_spec l q); [congruence|]. unfold kb. ring.
            - transitivity (ksum N (fun q => ksum N (fun m => conj (ent T m l) *c (ent T m q *c ent x q 0)))).
              { apply ksum_ext. intros q _. rewrite <- ksum_mul_r. apply ksum_ext. intros; ring. }
              rewrite ksum_swap. apply ksum_ext. intros m Hm. rewrite ksum_mul_l. f_equal.
              destruct Hx as (_ & _ & Hx). specialize (Hx m O). cbn [mmul mscale nrow ncol ent] in Hx. rewrite T1, T2, X2 in Hx.
              apply Hx; [assumption|lia]. }
          transitivity (ksum N (fun m => ksum N (fun l => ent C a l *c conj (ent T m l)) *c (zk *c ent x m 0))).
          { transitivity (ksum N (fun l => ksum N (fun m => ent C a l *c conj (ent T m l) *c (zk *c ent x m 0)))).
            - apply ksum_ext. intros l _. rewrite <- ksum_mul_l. apply ksum_ext. intros; ring.
            - rewrite ksum_swap. apply ksum_ext. intros m _. rewrite <- ksum_mul_r. reflexivity. }
          unfold w. cbn [mmul ent]. rewrite C1, <- ksum_mul_l. apply ksum_ext. intros m Hm. rewrite HCT by assumption. ring. }
        destruct (cr_eq_dec w c0) as [E|E]; [exact E|]. exfalso.
        assert (Hone : conj zj *c zk = c1).
        { apply (mul_cancel w); [exact E|]. transitivity (conj zj *c zk *c w); [ring|]. rewrite <- Hw. ring. }
        unfold zj, zk in Hone. rewrite !phase_root in Hone by assumption. rewrite kconj_inv in Hone.
        assert (Hjk : root n j = root n k).
        { transitivity (root n j *c (conj (root n k) *c root n k)); [rewrite root_conj_mul by assumption; ring|].
          transitivity (root n j *c conj (root n k) *c root n k); [ring|]. rewrite Hone. ring. }
        destruct (Nat.lt_ge_cases j k) as [L|L].
        - apply (root_not_1 n Hn (k - j)); [lia|]. apply (mul_cancel (root n j)).
          + intros Z. pose proof (root_unit n j) as Hu. rewrite Z in Hu. rewrite (proj2 (nsq_0 c0) eq_refl) in Hu. lra.
          + rewrite <- root_add by assumption. replace (j + (k - j))%nat with k by lia. rewrite <- Hjk. ring.
        - apply (root_not_1 n Hn (j - k)); [lia|]. apply (mul_cancel (root n k)).
          + intros Z. pose proof (root_unit n k) as Hu. rewrite Z in Hu. rewrite (proj2 (nsq_0 c0) eq_refl) in Hu. lra.
          + rewrite <- root_add by assumption. replace (k + (j - k))%nat with j by lia. rewrite <- Hjk. ring. }
      split; [cbn; congruence|]. split; [cbn; congruence|]. intros i z Hi Hz1. assert (z = O) by lia. subst z. rewrite X1 in Hi.
      assert (Hsum : ent x i 0 = ent (mmul (msum N (map (fun A => mmul (madj A) A) Bs)) x) i 0).
      { destruct S3 as (M1 & M2 & M3). cbn [mmul ent]. change (ncol (msum N (map (fun A => mmul (madj A) A) Bs))) with (ncol (msum N (map (fun A => mmul (madj A) A) Bs))).
        rewrite M2. change (ncol (meye N)) with N. rewrite (ksum_single N i); [|assumption|].
        - rewrite M3 by (rewrite ?M1, ?M2; assumption). cbn [meye ent]. rewrite Nat.eqb_refl. unfold kb. ring.
        - intros q Hq Hqi. rewrite M3 by (rewrite ?M1, ?M2; assumption). cbn [meye ent].
          destruct (Nat.eqb_spec i q); [congruence|]. unfold kb. ring. }
      rewrite Hsum. rewrite msum_apply; [|intros A HA|assumption|assumption|assumption].
      2:{ apply in_map_iff in HA as (C & <- & HC). apply (In_nth _ _ (mzero 0 0)) in HC as (j & Hj & <-).
          destruct (S1 j Hj) as (C1 & _). split; exact C1. }
      rewrite klsum_map.
      assert (Hpart : forall C, ncol C = N -> ent (mmul (mmul (madj C) C) x) i 0 = ksum (nrow C) (fun a => conj (ent C a i) *c ent (mmul C x) a 0)).
      { intros C HC. cbn [mmul madj ent ncol]. rewrite HC.
        transitivity (ksum N (fun l => ksum (nrow C) (fun a => conj (ent C a i) *c (ent C a l *c ent x l 0)))).
        - apply ksum_ext. intros l _. rewrite <- ksum_mul_r. apply ksum_ext. intros; ring.
        - rewrite ksum_swap. apply ksum_ext. intros a _. rewrite ksum_mul_l. reflexivity. }
      transitivity (klsum (map (fun j => nth j Bs (mzero 0 0)) (seq 0 n)) (fun C => ent (mmul (mmul (madj C) C) x) i 0)).
      { f_equal. rewrite <- E2. symmetry. apply nth_seq_map. }
      rewrite klsum_map, (klsum_seq n), (ksum_single n k); [|assumption|].
      + fold B. rewrite Hpart by assumption. reflexivity.
      + intros j Hj Hne. rewrite Hpart by (apply S1; lia). apply ksum_zero. intros a Ha. rewrite Hz by assumption. ring.
    - intros (y & Y1 & Y2 & Hxy).
      pose proof (E4 k Hk) as Hact. fold B in Hact. unfold acts_as in Hact.
      etransitivity; [apply mm; [reflexivity| |exact Hxy]|].
      + congruence.
      + etransitivity; [symmetry; apply mmul_assoc; cbn; congruence|].
        etransitivity; [apply mm; [exact Hact| |reflexivity]|].
        * cbn. congruence.
        * etransitivity; [apply mmul_scale_l|]. apply mscale_meq. symmetry. exact Hxy.
  Qed.
  Theorem zn_sectors : exists Bs, zn_projectors svd T n = Ok Bs /\ length Bs = n /\ splits N Bs /\
    (forall k, (k < n)%nat -> acts_as (nth k Bs (mzero 0 0)) T (cexp (- (2 * PI * INR k / INR n)))) /\
    (forall H, square N H -> meq (mmul T H) (mmul H T) -> block_diagonal Bs H).
  Proof.
    destruct (zn_ok N n T svd Hn HT Hper) as (Bs & E1 & E2 & E3 & E4 & E5 & _). exists Bs.
    split; [exact E1|]. split; [exact E2|]. split; [exact E3|]. split; [|exact E5].
    intros k Hk. rewrite <- ks_nth by assumption. apply E4. assumption.
  Qed.
End Span.
