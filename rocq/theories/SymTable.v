(** From a character table and conjugacy classes to the symmetry sectors. *)
From Coq Require Import List Arith Lia Reals Lra Bool Ring Setoid Morphisms Permutation.
From Verif Require Import Scalars Sums Res Matrix SpecMat ModelPhase ModelSymmetry SpecSymmetry
  SymBase SymReduce SymMany SymGroup SymRep.
Import ListNotations.
Local Open Scope R_scope.

(** Number of the class containing an element. *)
Fixpoint class_of (cls : list (list nat)) (e : nat) : nat :=
  match cls with [] => O | c :: t => if is_in e c then O else S (class_of t e) end.

Lemma op_sum_ent N l i j : ent (op_sum N l) i j = klsum l (fun A => ent A i j).
Proof. induction l as [|A l IH]; [reflexivity|]. cbn [op_sum fold_right madd ent klsum]. rewrite <- IH. reflexivity. Qed.
Lemma op_sum_sq N l : (forall A, In A l -> square N A) -> square N (op_sum N l).
Proof.
  destruct l as [|A l]; intros H; [split; reflexivity|]. destruct (H A (or_introl eq_refl)) as (H1 & H2).
  split; assumption.
Qed.

Lemma Forall2_len {A B} (R : A -> B -> Prop) l l' : Forall2 R l l' -> length l = length l'.
Proof. induction 1; simpl; congruence. Qed.

Lemma rsum_nz n f : rsum n f <> 0 -> exists e, (e < n)%nat /\ f e <> 0.
Proof.
  induction n as [|n IH]; cbn [rsum]; intros H; [lra|]. destruct (Req_dec (f n) 0) as [E|E].
  - destruct IH as (e & He & Hf); [lra|]. exists e. split; [lia|assumption].
  - exists n. split; [lia|assumption].
Qed.

Section Table.
  Variables (N m : nat) (mu : nat -> nat -> nat) (inv : nat -> nat) (rho : nat -> cmat).
  Hypothesis HR : rep N m mu inv rho.
  Variables (T : cmat) (classes : list (list cmat)) (cls : list (list nat)).
  Hypothesis Hcls : Forall2 (Forall2 (fun A e => meq A (rho e))) classes cls.
  Hypothesis Hperm : Permutation (concat cls) (seq 0 m).
  Hypothesis HncT : ncol T = length cls.

  Definition coef (a e : nat) : CR := conj (ent T a (class_of cls e)).

  Lemma class_sum_ent c c' i j : Forall2 (fun A e => meq A (rho e)) c c' -> (forall e, In e c' -> (e < m)%nat) ->
    (i < N)%nat -> (j < N)%nat -> klsum c (fun A => ent A i j) = klsum c' (fun e => ent (rho e) i j).
  Proof.
    intros H Hlt Hi Hj. induction H as [|A e c c' (H1 & H2 & H3) H IH]; [reflexivity|]. cbn [klsum].
    destruct (rep_sq _ _ _ _ _ HR e (Hlt e (or_introl eq_refl))) as (S1 & S2).
    rewrite H3 by congruence. rewrite IH; [reflexivity|]. intros; apply Hlt; right; assumption.
  Qed.

  Lemma labelled (F : nat -> CR) i j : (i < N)%nat -> (j < N)%nat -> forall cl cl', Forall2 (Forall2 (fun A e => meq A (rho e))) cl cl' ->
    NoDup (concat cl') -> (forall e, In e (concat cl') -> (e < m)%nat) -> forall k,
    klsum (combine (seq k (length cl')) (map (op_sum N) cl)) (fun ks => F (fst ks) *c ent (snd ks) i j) =
    klsum (concat cl') (fun e => F (k + class_of cl' e)%nat *c ent (rho e) i j).
  Proof.
    intros Hi Hj cl cl' H. induction H as [|c c' cl cl' Hc H IH]; intros Hn Hlt k; [reflexivity|].
    cbn [length seq map combine klsum concat fst snd] in *. rewrite klsum_app.
    assert (Hn1 : NoDup (concat cl')) by (clear - Hn; induction c' as [|x c' IH]; [exact Hn|inversion Hn; auto]).
    assert (Hdis : forall e, In e c' -> ~ In e (concat cl')).
    { clear - Hn. induction c' as [|x c' IH]; intros e He; [destruct He|]. destruct He as [<-|He].
      - inversion Hn as [|? ? H1 H2]; subst. intros X. apply H1. apply in_or_app. right. assumption.
      - inversion Hn; subst. apply IH; assumption. }
    f_equal.
    - rewrite op_sum_ent, (class_sum_ent c c') by (auto; intros; apply Hlt; apply in_or_app; left; assumption).
      rewrite <- klsum_mul_l. apply klsum_ext. intros e He. cbn [class_of].
      rewrite (proj2 (is_in_true e c') He). rewrite Nat.add_0_r. reflexivity.
    - rewrite IH by (auto; intros; apply Hlt; apply in_or_app; right; assumption).
      apply klsum_ext. intros e He. cbn [class_of].
      destruct (is_in e c') eqn:E; [apply is_in_true in E; exfalso; apply (Hdis e); assumption|].
      replace (S k + class_of cl' e)%nat with (k + S (class_of cl' e))%nat by lia. reflexivity.
  Qed.

  Lemma cls_NoDup : NoDup (concat cls).
  Proof. apply (Permutation_NoDup (Permutation_sym Hperm)), seq_NoDup. Qed.
  Lemma cls_lt e : In e (concat cls) -> (e < m)%nat.
  Proof. intros H. apply (Permutation_in _ Hperm) in H. apply in_seq in H. lia. Qed.

  Lemma sector_op_ent a i j : (i < N)%nat -> (j < N)%nat ->
    ent (sector_op N T classes a) i j = comb m rho (coef a) i j.
  Proof.
    intros Hi Hj. unfold sector_op. rewrite op_sum_ent, klsum_map. cbn [mscale ent]. rewrite HncT.
    etransitivity; [exact (labelled (fun k => conj (ent T a k)) i j Hi Hj classes cls Hcls cls_NoDup cls_lt 0)|].
    rewrite (klsum_perm _ _ _ Hperm), klsum_seq. reflexivity.
  Qed.

  Lemma class_sq c c' : Forall2 (fun A e => meq A (rho e)) c c' -> (forall e, In e c' -> (e < m)%nat) ->
    forall A, In A c -> square N A.
  Proof.
    intros H. induction H as [|A e c c' (H1 & H2 & H3) H IH]; intros Hlt B HB; [destruct HB|].
    destruct HB as [<-|HB]; [|apply IH; auto; intros; apply Hlt; right; assumption].
    destruct (rep_sq _ _ _ _ _ HR e (Hlt e (or_introl eq_refl))). split; congruence.
  Qed.

  Lemma classes_sq' cl cl' : Forall2 (Forall2 (fun A e => meq A (rho e))) cl cl' ->
    (forall e, In e (concat cl') -> (e < m)%nat) -> forall c, In c cl -> forall A, In A c -> square N A.
  Proof.
    intros H. induction H as [|c c' cl cl' Hc H IH]; intros Hlt d Hd; [destruct Hd|].
    destruct Hd as [<-|Hd].
    - apply (class_sq c c' Hc). intros; apply Hlt; cbn; apply in_or_app; left; assumption.
    - apply IH; [|assumption]. intros; apply Hlt; cbn; apply in_or_app; right; assumption.
  Qed.
  Lemma classes_sq c : In c classes -> forall A, In A c -> square N A.
  Proof. apply (classes_sq' classes cls Hcls cls_lt). Qed.

  Lemma sector_op_sq a : square N (sector_op N T classes a).
  Proof.
    unfold sector_op. apply op_sum_sq. intros A HA. apply in_map_iff in HA as ((k & S) & <- & HS).
    apply in_combine_r in HS. apply in_map_iff in HS as (c & <- & Hc). cbn [snd].
    destruct (op_sum_sq N c (classes_sq c Hc)). split; assumption.
  Qed.

  Lemma related_ent' i j cl cl' : Forall2 (Forall2 (fun A e => meq A (rho e))) cl cl' ->
    (forall e, In e (concat cl') -> (e < m)%nat) -> (i < N)%nat -> (j < N)%nat ->
    klsum cl (fun cc => ent (op_sum N (map op_abs cc)) i j) =
    klsum (concat cl') (fun e => real (modulus (ent (rho e) i j))).
  Proof.
    intros H Hlt Hi Hj. induction H as [|c c' cl cl' Hc H IH]; [reflexivity|].
    cbn [klsum concat] in *. rewrite klsum_app. f_equal.
    - rewrite op_sum_ent, klsum_map. clear IH H.
      assert (Hlt' : forall e, In e c' -> (e < m)%nat) by (intros; apply Hlt; apply in_or_app; left; assumption).
      clear Hlt. induction Hc as [|A e c c' (H1 & H2 & H3) Hc IH]; [reflexivity|]. cbn [klsum].
      destruct (rep_sq _ _ _ _ _ HR e (Hlt' e (or_introl eq_refl))) as (S1 & S2).
      rewrite IH by (intros; apply Hlt'; right; assumption). cbn [op_abs ent]. rewrite H3 by congruence. reflexivity.
    - apply IH. intros; apply Hlt; apply in_or_app; right; assumption.
  Qed.

  Lemma related_ent i j : (i < N)%nat -> (j < N)%nat ->
    ent (related N classes) i j = real (rsum m (fun e => modulus (ent (rho e) i j))).
  Proof.
    intros Hi Hj. rewrite <- ksum_real, <- klsum_seq, <- (klsum_perm _ _ _ Hperm).
    unfold related. rewrite op_sum_ent, klsum_map. apply related_ent'; [assumption|apply cls_lt|assumption|assumption].
  Qed.

  Lemma related_linked i j : (i < N)%nat -> (j < N)%nat -> (ent (related N classes) i j <> c0 <-> linked m rho i j).
  Proof.
    intros Hi Hj. rewrite related_ent by assumption. split.
    - intros H. destruct (rsum_nz m (fun e => modulus (ent (rho e) i j))) as (e & He & Hf).
      { intros E. apply H. rewrite E. reflexivity. }
      exists e. split; [assumption|]. intros E. apply Hf. apply modulus_0. exact E.
    - intros (e & He & Hne) E. apply Hne. apply modulus_0.
      apply (rsum_0 m (fun e => modulus (ent (rho e) i j))); [intros; apply modulus_ge| |assumption].
      apply real_inj. exact E.
  Qed.

  Lemma related_sq : square N (related N classes).
  Proof.
    unfold related. apply op_sum_sq. intros A HA. apply in_map_iff in HA as (c & <- & Hc). apply op_sum_sq.
    intros A HA. apply in_map_iff in HA as (B & <- & HB). apply (classes_sq c Hc B HB).
  Qed.

  Variable svd : cmat -> cmat.
  Variable g : nat -> R.
  Hypothesis Hvalid : validate_table T (map (@length cmat) classes) = Ok true.
  Hypothesis Hherm : forall a e, (a < nrow T)%nat -> (e < m)%nat -> coef a (inv e) = conj (coef a e).
  Hypothesis Hg : forall a, (a < nrow T)%nat -> 0 < g a.
  Hypothesis Hconv : forall a b t, (a < nrow T)%nat -> (b < nrow T)%nat -> (t < m)%nat ->
    conv m mu inv (coef a) (coef b) t = if (a =? b)%nat then real (g a) *c coef a t else c0.
  Hypothesis Hunit : forall e, (e < m)%nat -> ksum (nrow T) (fun a => real (/ g a) *c coef a e) = kb (e =? 0)%nat.
  Hypothesis Hrows : forall a, (a < nrow T)%nat ->
    (ent T a O = (1, 0) /\ one_dim m mu inv (coef a) /\ g a = INR m) \/
    (ent T a O <> (1, 0) /\ (forall M, row_basis M (svd M)) /\
     forall i j, (i < N)%nat -> (j < N)%nat -> comb m rho (coef a) i j <> c0 -> noise <= modulus (comb m rho (coef a) i j)).

  Notation p := (sector_op N T classes).
  Notation B := (fun a => reduce_projector svd (sector_op N T classes a) (ent T a O) (related N classes)).

  Lemma noise_le_1 : noise <= 1.
  Proof. unfold noise. rewrite <- Rinv_1. apply Rinv_le_contravar; [lra|]. apply pow_R1_Rle. lra. Qed.

  Lemma p_mul a b i j : (a < nrow T)%nat -> (b < nrow T)%nat -> (i < N)%nat -> (j < N)%nat ->
    ksum N (fun k => ent (p a) i k *c ent (p b) k j) = if (a =? b)%nat then real (g a) *c ent (p a) i j else c0.
  Proof.
    intros Ha Hb Hi Hj.
    transitivity (ksum N (fun k => comb m rho (coef a) i k *c comb m rho (coef b) k j)).
    { apply ksum_ext. intros k Hk. rewrite !sector_op_ent by assumption. reflexivity. }
    rewrite (comb_mul N m mu inv rho HR) by assumption.
    rewrite (comb_ext m rho _ (fun t => if (a =? b)%nat then real (g a) *c coef a t else c0)).
    2:{ intros t Ht. apply Hconv; assumption. }
    destruct (a =? b)%nat; [|apply comb_zero].
    rewrite comb_scale, sector_op_ent by assumption. reflexivity.
  Qed.

  Lemma p_sector a : (a < nrow T)%nat -> sector N (p a) (g a) (B a).
  Proof.
    intros Ha. destruct (sector_op_sq a) as (S1 & S2).
    assert (Hh : forall i j, (i < N)%nat -> (j < N)%nat -> ent (p a) i j = conj (ent (p a) j i)).
    { intros i j Hi Hj. rewrite !sector_op_ent by assumption. apply (comb_herm N m mu inv rho HR); auto. }
    assert (Hi : forall i j, (i < N)%nat -> (j < N)%nat ->
      ksum N (fun k => ent (p a) i k *c ent (p a) k j) = real (g a) *c ent (p a) i j).
    { intros i j Hi Hj. rewrite p_mul by assumption. rewrite Nat.eqb_refl. reflexivity. }
    destruct (Hrows a Ha) as [(E1 & E2 & E3)|(E1 & E2 & E3)].
    - cbv beta. rewrite E1. apply reduce_one_sector; auto.
      + intros i j H1 H2. rewrite sector_op_ent by assumption. intros H3.
        apply Rle_trans with 1; [apply noise_le_1|].
        apply (comb_large N m mu inv rho HR); auto. intros t Ht. rewrite Hconv by assumption. rewrite Nat.eqb_refl, E3. reflexivity.
      + intros i k H1 H2 H3. rewrite sector_op_ent in H3 by assumption.
        destruct (comb_prop N m mu inv rho HR (coef a) E2 i k H1 H2 (comb_linked m rho _ i k H3)) as (u & _ & Hu).
        exists u. intros j Hj. rewrite !sector_op_ent by assumption. apply Hu. assumption.
    - cbv beta. destruct related_sq as (R1 & R2). apply reduce_many_sector; auto.
      + intros i j H1 H2. rewrite sector_op_ent by assumption. apply E3; assumption.
      + intros i j H1 H2. rewrite sector_op_ent, related_linked by assumption. apply comb_linked.
      + intros i H1. rewrite related_linked by assumption. apply (linked_refl N m mu inv rho HR). assumption.
      + intros i j H1 H2. rewrite !related_linked by assumption. apply (linked_sym N m mu inv rho HR); assumption.
      + intros i j k H1 H2 H3. rewrite !related_linked by assumption. apply (linked_trans N m mu inv rho HR); assumption.
  Qed.

  Lemma p_sum i j : (i < N)%nat -> (j < N)%nat ->
    ksum (nrow T) (fun a => real (/ g a) *c ent (p a) i j) = kb (i =? j)%nat.
  Proof.
    intros Hi Hj. rewrite <- (comb_delta N m mu inv rho HR) by assumption.
    transitivity (ksum (nrow T) (fun a => ksum m (fun e => real (/ g a) *c coef a e *c ent (rho e) i j))).
    { apply ksum_ext. intros a _. rewrite sector_op_ent by assumption. unfold comb. rewrite <- ksum_mul_l.
      apply ksum_ext. intros; ring. }
    rewrite ksum_swap. unfold comb. apply ksum_ext. intros e He. rewrite ksum_mul_r, Hunit by assumption. reflexivity.
  Qed.

  Lemma commute_p a H : nrow H = N -> ncol H = N ->
    (forall e, (e < m)%nat -> meq (mmul (rho e) H) (mmul H (rho e))) -> meq (mmul (p a) H) (mmul H (p a)).
  Proof.
    intros Hr Hc Hcom. destruct (sector_op_sq a) as (S1 & S2).
    split; [cbn; congruence|]. split; [cbn; congruence|]. intros i j Hi Hj.
    change (i < nrow (p a))%nat in Hi. change (j < ncol H)%nat in Hj. rewrite S1 in Hi. rewrite Hc in Hj.
    cbn [mmul ent]. rewrite S2, Hc.
    transitivity (ksum m (fun e => coef a e *c ksum N (fun k => ent (rho e) i k *c ent H k j))).
    { transitivity (ksum N (fun k => ksum m (fun e => coef a e *c (ent (rho e) i k *c ent H k j)))).
      { apply ksum_ext. intros k Hk. rewrite sector_op_ent by assumption. unfold comb. rewrite <- ksum_mul_r.
        apply ksum_ext. intros; ring. }
      rewrite ksum_swap. apply ksum_ext. intros e _. rewrite ksum_mul_l. reflexivity. }
    transitivity (ksum m (fun e => coef a e *c ksum N (fun k => ent H i k *c ent (rho e) k j))).
    { apply ksum_ext. intros e He. destruct (Hcom e He) as (_ & _ & E).
      destruct (rep_sq _ _ _ _ _ HR e He) as (R1 & R2). specialize (E i j). cbn [mmul nrow ncol ent] in E.
      rewrite R1, R2, Hc in E. rewrite E by assumption. reflexivity. }
    transitivity (ksum N (fun k => ksum m (fun e => coef a e *c (ent H i k *c ent (rho e) k j)))).
    { rewrite ksum_swap. apply ksum_ext. intros e _. rewrite ksum_mul_l. reflexivity. }
    apply ksum_ext. intros k Hk. rewrite sector_op_ent by assumption. unfold comb. rewrite <- ksum_mul_l.
    apply ksum_ext. intros; ring.
  Qed.

  Theorem table_projectors : exists Bs,
    symmetry_projectors svd N T classes = Ok Bs /\ length Bs = nrow T /\
    (forall a, (a < nrow T)%nat -> nth a Bs (mzero 0 0) = B a) /\
    (forall a, (a < nrow T)%nat -> sector N (p a) (g a) (nth a Bs (mzero 0 0))) /\
    splits N Bs /\
    (forall H, nrow H = N -> ncol H = N ->
       (forall e, (e < m)%nat -> meq (mmul (rho e) H) (mmul H (rho e))) -> block_diagonal Bs H) /\
    (forall a U z, (a < nrow T)%nat -> nrow U = N -> ncol U = N -> meq (mmul U (p a)) (mscale z (p a)) ->
       acts_as (nth a Bs (mzero 0 0)) U z).
  Proof.
    exists (map B (seq 0 (nrow T))).
    assert (Horth : forall a b i j, (a < nrow T)%nat -> (b < nrow T)%nat -> a <> b -> (i < N)%nat -> (j < N)%nat ->
      ksum N (fun k => ent (p a) i k *c ent (p b) k j) = c0).
    { intros a b i j Ha Hb Hne Hi Hj. rewrite p_mul by assumption. apply Nat.eqb_neq in Hne. rewrite Hne. reflexivity. }
    split; [|split; [|split; [|split; [|split; [|split]]]]].
    - unfold symmetry_projectors. rewrite Hvalid. cbn [bind negb].
      rewrite (total_rows N (nrow T) p B g p_sector p_sum). rewrite Nat.eqb_refl. reflexivity.
    - rewrite map_length, seq_length. reflexivity.
    - intros a Ha. apply (Bs_nth (nrow T) B). assumption.
    - intros a Ha. rewrite (Bs_nth (nrow T) B a Ha). apply p_sector. assumption.
    - apply (assembled N (nrow T) p B g p_sector (fun a _ => sector_op_sq a) Horth p_sum).
    - intros H Hr Hc Hcom. apply (assembled_blocks N (nrow T) p B g p_sector (fun a _ => sector_op_sq a) Horth); auto.
      intros a Ha. apply commute_p; assumption.
    - intros a U z Ha Hr Hc HU. rewrite (Bs_nth (nrow T) B a Ha).
      apply (assembled_acts N (nrow T) p B g p_sector (fun a _ => sector_op_sq a) a U z Ha); assumption.
  Qed.
End Table.
