(** Reduction of a sector operator of a representation of dimension two or
    more: orbit by orbit, with an orthonormal basis of each row space. *)
From Coq Require Import List Arith Lia Reals Lra Bool Ring Setoid Morphisms Permutation.
From Verif Require Import Scalars Sums Matrix ModelPhase ModelSymmetry SpecSymmetry SymBase SymReduce.
Import ListNotations.
Local Open Scope R_scope.

Definition is_in (j : nat) (l : list nat) : bool := existsb (Nat.eqb j) l.
Lemma is_in_true j l : is_in j l = true <-> In j l.
Proof.
  unfold is_in. rewrite existsb_exists. split.
  - intros (x & H & E). apply Nat.eqb_eq in E as ->. assumption.
  - intros H. exists j. split; [assumption|]. apply Nat.eqb_refl.
Qed.
Lemma is_in_false j l : is_in j l = false <-> ~ In j l.
Proof. rewrite <- is_in_true. destruct (is_in j l); intuition congruence. Qed.

Lemma sum_over_list N (cols : list nat) (F : nat -> CR) :
  NoDup cols -> (forall j, In j cols -> (j < N)%nat) ->
  ksum N (fun j => if is_in j cols then F j else c0) = ksum (length cols) (fun q => F (nth q cols O)).
Proof.
  induction cols as [|c cols IH]; intros Hn Hb.
  - cbn [length ksum]. apply ksum_zero. reflexivity.
  - inversion Hn as [|? ? Hc Hn']; subst.
    transitivity (F c +c ksum N (fun j => if is_in j cols then F j else c0)).
    + transitivity (ksum N (fun j => (if Nat.eqb j c then F j else c0) +c (if is_in j cols then F j else c0))).
      2:{ rewrite ksum_add. f_equal. rewrite (ksum_single N c).
          - rewrite Nat.eqb_refl. reflexivity.
          - apply Hb; left; reflexivity.
          - intros i _ Hi. apply Nat.eqb_neq in Hi. rewrite Hi. reflexivity. }
      apply ksum_ext. intros j _. unfold is_in at 1. cbn [existsb]. fold (is_in j cols).
      destruct (Nat.eqb_spec j c) as [->|]; cbn [orb].
      * rewrite (proj2 (is_in_false c cols) Hc). ring.
      * destruct (is_in j cols); ring.
    + rewrite IH; [|assumption|intros; apply Hb; right; assumption].
      cbn [length]. rewrite (ksum_plus 1 (length cols)). cbn [ksum nth Nat.add]. ring.
Qed.

Lemma first_pos_nth cols q : NoDup cols -> (q < length cols)%nat -> first_pos (nth q cols O) cols = q.
Proof.
  intros Hn Hq. destruct (first_pos_In (nth q cols O) cols (nth_In _ _ Hq)) as (H1 & H2).
  apply (NoDup_nth cols O); auto.
Qed.

(** ** Rows below each other. *)
Lemma stack2_gram A B j k : ncol A = ncol B ->
  ksum (nrow (stack2 A B)) (fun a => conj (ent (stack2 A B) a j) *c ent (stack2 A B) a k) =
  ksum (nrow A) (fun a => conj (ent A a j) *c ent A a k) +c ksum (nrow B) (fun a => conj (ent B a j) *c ent B a k).
Proof.
  intros _. cbn [stack2 nrow ent]. rewrite ksum_plus. f_equal.
  - apply ksum_ext. intros a Ha. apply Nat.ltb_lt in Ha. rewrite Ha. reflexivity.
  - apply ksum_ext. intros a Ha. destruct (Nat.ltb_spec (nrow A + a) (nrow A)); [lia|].
    replace (nrow A + a - nrow A)%nat with a by lia. reflexivity.
Qed.

Definition orth_rows (N : nat) (A : cmat) : Prop :=
  forall a b, (a < nrow A)%nat -> (b < nrow A)%nat ->
    ksum N (fun j => ent A a j *c conj (ent A b j)) = kb (a =? b)%nat.
Definition orth_to (N : nat) (A B : cmat) : Prop :=
  forall a b, (a < nrow A)%nat -> (b < nrow B)%nat -> ksum N (fun j => ent A a j *c conj (ent B b j)) = c0.

Lemma orth_to_sym N A B : orth_to N A B -> orth_to N B A.
Proof.
  intros H a b Ha Hb. specialize (H b a Hb Ha). apply (f_equal kconj) in H. rewrite kconj_0, ksum_conj in H.
  rewrite <- H. apply ksum_ext. intros k _. rewrite kconj_mul, kconj_inv. ring.
Qed.

Lemma stack2_orth N A B : orth_rows N A -> orth_rows N B -> orth_to N A B -> orth_rows N (stack2 A B).
Proof.
  intros HA HB HAB a b Ha Hb. cbn [stack2 nrow ent] in *.
  destruct (Nat.ltb_spec a (nrow A)), (Nat.ltb_spec b (nrow A)).
  - apply HA; assumption.
  - rewrite HAB by lia. destruct (Nat.eqb_spec a b); [lia|reflexivity].
  - rewrite (orth_to_sym _ _ _ HAB) by lia. destruct (Nat.eqb_spec a b); [lia|reflexivity].
  - rewrite HB by lia. destruct (Nat.eqb_spec a b), (Nat.eqb_spec (a - nrow A) (b - nrow A)); try lia; reflexivity.
Qed.

Lemma stack2_orth_to N A B C : orth_to N C A -> orth_to N C B -> orth_to N C (stack2 A B).
Proof.
  intros HA HB a b Ha Hb. cbn [stack2 nrow ent] in *. destruct (Nat.ltb_spec b (nrow A)); [apply HA|apply HB]; lia.
Qed.

Lemma stack_ok N (l : list nat) (f : nat -> cmat) : NoDup l ->
  (forall v, In v l -> ncol (f v) = N /\ orth_rows N (f v)) ->
  (forall v w, In v l -> In w l -> v <> w -> orth_to N (f v) (f w)) ->
  ncol (stack N (map f l)) = N /\ orth_rows N (stack N (map f l)) /\
  (forall j k, ksum (nrow (stack N (map f l))) (fun a => conj (ent (stack N (map f l)) a j) *c ent (stack N (map f l)) a k) =
    klsum l (fun v => ksum (nrow (f v)) (fun a => conj (ent (f v) a j) *c ent (f v) a k))).
Proof.
  induction l as [|v l IH]; intros Hn H1 H2.
  - simpl. repeat split. intros a b Ha. cbn in Ha. lia.
  - inversion Hn as [|? ? Hv Hn']; subst.
    destruct IH as (I1 & I2 & I3); auto.
    { intros; apply H1; right; assumption. }
    { intros; apply H2; auto; right; assumption. }
    cbn [map stack fold_right]. fold (stack N (map f l)).
    split; [exact I1|]. split.
    + apply stack2_orth; [apply H1; left; reflexivity|exact I2|].
      assert (Hor : forall w, In w l -> orth_to N (f v) (f w)).
      { intros w Hw. apply H2; [left; reflexivity|right; assumption|]. intros ->. contradiction. }
      clear - Hor. induction l as [|w l IH]; cbn [map stack fold_right].
      * intros a b _ Hb. cbn in Hb. lia.
      * apply stack2_orth_to; [apply Hor; left; reflexivity|]. apply IH. intros; apply Hor; right; assumption.
    + intros j k. rewrite stack2_gram.
      * rewrite I3. reflexivity.
      * rewrite I1. apply H1. left. reflexivity.
Qed.

Lemma klsum_pick (f : nat -> CR) (l : list nat) v : NoDup l -> In v l -> (forall w, In w l -> w <> v -> f w = c0) ->
  klsum l f = f v.
Proof.
  induction l as [|w l IH]; intros Hn Hv Hz; [destruct Hv|]. inversion Hn as [|? ? Hw Hn']; subst. cbn [klsum].
  destruct Hv as [->|Hv].
  - assert (E : klsum l f = c0).
    { apply klsum_zero. intros x Hx. apply Hz; [right; assumption|]. intros ->. contradiction. }
    rewrite E. ring.
  - rewrite IH; [|assumption|assumption|intros; apply Hz; [right|]; assumption].
    rewrite (Hz w); [ring|left; reflexivity|]. intros ->. contradiction.
Qed.

Section Many.
  Variable svd : cmat -> cmat.
  Variables (N : nat) (p rel : cmat) (g : R).
  Hypothesis Hsvd : forall M, row_basis M (svd M).
  Hypothesis Hr : nrow p = N.
  Hypothesis Hc : ncol p = N.
  Hypothesis Hrr : nrow rel = N.
  Hypothesis Hrc : ncol rel = N.
  Hypothesis Hg : 0 < g.
  Hypothesis Hherm : forall i j, (i < N)%nat -> (j < N)%nat -> ent p i j = conj (ent p j i).
  Hypothesis Hidem : forall i j, (i < N)%nat -> (j < N)%nat ->
    ksum N (fun k => ent p i k *c ent p k j) = real g *c ent p i j.
  Hypothesis Hlarge : forall i j, (i < N)%nat -> (j < N)%nat -> ent p i j <> c0 -> noise <= modulus (ent p i j).
  Hypothesis Hsup : forall i j, (i < N)%nat -> (j < N)%nat -> ent p i j <> c0 -> ent rel i j <> c0.
  Hypothesis Hrefl : forall i, (i < N)%nat -> ent rel i i <> c0.
  Hypothesis Hsym : forall i j, (i < N)%nat -> (j < N)%nat -> ent rel i j <> c0 -> ent rel j i <> c0.
  Hypothesis Htrans : forall i j k, (i < N)%nat -> (j < N)%nat -> (k < N)%nat ->
    ent rel i j <> c0 -> ent rel j k <> c0 -> ent rel i k <> c0.

  Notation kp := (kept p).
  Notation pk := (kept_rows p).
  Notation relk := (take_rows rel (kept p)).

  Lemma rel_nz i : (i < N)%nat -> ~ zero_row rel i.
  Proof. intros Hi Z. apply (Hrefl i Hi). apply Z. congruence. Qed.

  Lemma rel_first i j : (i < N)%nat -> (j < N)%nat -> (first_col rel i = first_col rel j <-> ent rel i j <> c0).
  Proof.
    intros Hi Hj. split.
    - intros E. destruct (first_col_ok rel i (rel_nz i Hi)) as (A1 & A2).
      destruct (first_col_ok rel j (rel_nz j Hj)) as (B1 & B2). rewrite <- E in B2. rewrite Hrc in A1.
      apply (Htrans i (first_col rel i) j); auto.
    - intros H. unfold first_col. f_equal. apply row_cols_ext; [reflexivity|]. rewrite Hrc. intros k Hk.
      split; intros E.
      + destruct (cr_eq_dec (ent rel j k) c0) as [F|F]; [exact F|]. exfalso. apply (Htrans i j k); auto.
      + destruct (cr_eq_dec (ent rel i k) c0) as [F|F]; [exact F|]. exfalso. apply (Htrans j i k); auto.
  Qed.

  Lemma kp_nth a : (a < length kp)%nat -> (nth a kp O < N)%nat /\ ~ zero_row p (nth a kp O).
  Proof. apply (nth_kept N p Hr Hc Hlarge). Qed.

  Definition mkeys : list nat := map (first_col relk) (seq 0 (length kp)).
  Lemma mkeys_nth a : (a < length kp)%nat -> nth a mkeys O = first_col rel (nth a kp O).
  Proof.
    intros Ha. unfold mkeys. rewrite (nth_indep (map _ _) O (first_col relk O)) by (rewrite map_length, seq_length; assumption).
    rewrite map_nth, seq_nth by assumption. reflexivity.
  Qed.
  Lemma mkeys_length : length mkeys = length kp.
  Proof. unfold mkeys. rewrite map_length, seq_length. reflexivity. Qed.

  Definition vrows (v : nat) : list nat := filter (fun i => (nth i mkeys O =? v)%nat) (seq 0 (length kp)).
  Definition vcols (v : nat) : list nat := row_cols relk (hd O (vrows v)).
  Definition vblock (v : nat) : cmat := block pk (vrows v) (vcols v).
  Definition vpart (v : nat) : cmat := spread N (vcols v) (svd (vblock v)).

  Lemma vrows_In v a : In a (vrows v) <-> (a < length kp)%nat /\ first_col rel (nth a kp O) = v.
  Proof.
    unfold vrows. rewrite filter_In, in_seq, Nat.eqb_eq. split; intros (H1 & H2).
    - rewrite mkeys_nth in H2 by lia. split; [lia|assumption].
    - rewrite mkeys_nth by lia. split; [lia|assumption].
  Qed.

  Lemma vrows_hd v : In v mkeys -> In (hd O (vrows v)) (vrows v).
  Proof.
    intros Hv. destruct (In_nth _ _ O Hv) as (a & Ha & Ea). rewrite mkeys_length in Ha.
    assert (H : In a (vrows v)) by (apply vrows_In; split; [assumption|]; rewrite <- mkeys_nth by assumption; exact Ea).
    destruct (vrows v); [destruct H|left; reflexivity].
  Qed.

  (** The columns of a block are the whole orbit. *)
  Lemma vcols_In v j : In v mkeys -> (j < N)%nat -> (In j (vcols v) <-> first_col rel j = v).
  Proof.
    intros Hv Hj. pose proof (vrows_hd v Hv) as H. apply vrows_In in H as (H1 & H2).
    unfold vcols. rewrite row_cols_In. cbn [take_rows ent ncol]. rewrite Hrc.
    set (a := hd O (vrows v)) in *. destruct (kp_nth a H1) as (H3 & _). rewrite <- H2.
    rewrite <- rel_first by assumption. intuition congruence.
  Qed.
  Lemma vcols_lt v j : In j (vcols v) -> (j < N)%nat.
  Proof. unfold vcols. rewrite row_cols_In. cbn [take_rows ncol]. rewrite Hrc. tauto. Qed.
  Lemma vcols_NoDup v : NoDup (vcols v).
  Proof. apply NoDup_filter, seq_NoDup. Qed.

  Section Key.
    Variable v : nat.
    Hypothesis Hv : In v mkeys.
    Notation cs := (vcols v).
    Notation V := (svd (vblock v)).
    Notation P := (fun q t => ent p (nth q (vcols v) O) (nth t (vcols v) O)).
    Notation W := (fun q t => ksum (nrow (svd (vblock v))) (fun a => conj (ent (svd (vblock v)) a q) *c ent (svd (vblock v)) a t)).

    Lemma cs_lt q : (q < length cs)%nat -> (nth q cs O < N)%nat.
    Proof. intros Hq. apply (vcols_lt v), nth_In. assumption. Qed.

    Lemma block_ent b q : (b < length (vrows v))%nat -> (q < length cs)%nat ->
      ent (vblock v) b q = ent p (nth (nth b (vrows v) O) kp O) (nth q cs O).
    Proof.
      intros Hb Hq. unfold vblock, block. cbn [ent].
      assert (H : In (nth b (vrows v) O) (vrows v)) by (apply nth_In; assumption).
      apply vrows_In in H as (H & _).
      apply (kept_rows_ent N p Hr Hc Hlarge); [assumption|apply cs_lt; assumption].
    Qed.

    Lemma orbit_sum i t : (i < N)%nat -> first_col rel i = v -> (t < N)%nat ->
      ksum (length cs) (fun s => ent p i (nth s cs O) *c ent p (nth s cs O) t) = real g *c ent p i t.
    Proof.
      intros Hi Hfi Ht. rewrite <- Hidem by assumption.
      rewrite <- (sum_over_list N cs (fun k => ent p i k *c ent p k t) (vcols_NoDup v) (vcols_lt v)).
      apply ksum_ext. intros k Hk. destruct (is_in k cs) eqn:E; [reflexivity|].
      apply is_in_false in E. rewrite (vcols_In v k Hv Hk) in E.
      destruct (cr_eq_dec (ent p i k) c0) as [F|F]; [change (0,0) with c0 in F; rewrite F; ring|].
      exfalso. apply E. rewrite <- Hfi. symmetry. apply rel_first; auto.
    Qed.

    Lemma VV a b : (a < nrow V)%nat -> (b < nrow V)%nat ->
      ksum (length cs) (fun q => ent V a q *c conj (ent V b q)) = kb (a =? b)%nat.
    Proof.
      intros Ha Hb. destruct (Hsvd (vblock v)) as (E1 & (_ & _ & E2) & _).
      specialize (E2 a b Ha Hb). cbn [mmul madj ent ncol] in E2. rewrite E1 in E2. exact E2.
    Qed.

    (** [W P = g W]. *)
    Lemma WP q t : (q < length cs)%nat -> (t < length cs)%nat ->
      ksum (length cs) (fun s => W q s *c P s t) = real g *c W q t.
    Proof.
      intros Hq Ht. destruct (Hsvd (vblock v)) as (E1 & _ & (A & A1 & A2 & (A3 & A4 & A5)) & _).
      assert (HV : forall a s, (a < nrow V)%nat -> (s < length cs)%nat ->
        ent V a s = ksum (length (vrows v)) (fun b => ent A a b *c ent p (nth (nth b (vrows v) O) kp O) (nth s cs O))).
      { intros a s Ha Hs. rewrite A5 by (rewrite ?E1; assumption). cbn [mmul ent]. rewrite A2.
        change (nrow (vblock v)) with (length (vrows v)). apply ksum_ext. intros b Hb.
        rewrite block_ent by assumption. reflexivity. }
      assert (HVP : forall a, (a < nrow V)%nat -> ksum (length cs) (fun s => ent V a s *c P s t) = real g *c ent V a t).
      { intros a Ha. rewrite (HV a t) by assumption. rewrite <- ksum_mul_l.
        transitivity (ksum (length cs) (fun s => ksum (length (vrows v)) (fun b =>
          ent A a b *c (ent p (nth (nth b (vrows v) O) kp O) (nth s cs O) *c P s t)))).
        { apply ksum_ext. intros s Hs. rewrite HV by assumption. rewrite <- ksum_mul_r. apply ksum_ext. intros; ring. }
        rewrite ksum_swap. apply ksum_ext. intros b Hb. rewrite ksum_mul_l.
        assert (H : In (nth b (vrows v) O) (vrows v)) by (apply nth_In; assumption).
        apply vrows_In in H as (H1 & H2). destruct (kp_nth _ H1) as (H3 & _).
        rewrite (orbit_sum _ _ H3 H2) by (apply cs_lt; assumption). ring. }
      transitivity (ksum (nrow V) (fun a => conj (ent V a q) *c ksum (length cs) (fun s => ent V a s *c P s t))).
      { rewrite <- (ksum_ext (nrow V) (fun a => ksum (length cs) (fun s => conj (ent V a q) *c (ent V a s *c P s t)))).
        2:{ intros a Ha. apply ksum_mul_l. }
        rewrite ksum_swap. apply ksum_ext. intros s Hs. rewrite <- ksum_mul_r. apply ksum_ext. intros; ring. }
      rewrite <- ksum_mul_l. apply ksum_ext. intros a Ha. rewrite HVP by assumption. ring.
    Qed.

    (** [P W = P]. *)
    Lemma PW q t : (q < length cs)%nat -> (t < length cs)%nat ->
      ksum (length cs) (fun s => P q s *c W s t) = P q t.
    Proof.
      intros Hq Ht. pose proof (cs_lt q Hq) as Hqn. pose proof (cs_lt t Ht) as Htn.
      destruct (row_cols p (nth q cs O)) as [|z zs] eqn:Ez.
      - apply row_cols_nil in Ez. rewrite (Ez (nth t cs O)) by congruence.
        apply ksum_zero. intros s Hs. rewrite (Ez (nth s cs O)) by (pose proof (cs_lt s Hs); congruence). ring.
      - assert (Hz : ~ zero_row p (nth q cs O)) by (rewrite <- row_cols_nil, Ez; discriminate). clear z zs Ez.
        assert (Hk : In (nth q cs O) kp) by (apply (kept_In N p Hr Hc Hlarge); auto).
        destruct (In_nth _ _ O Hk) as (a & Ha & Ea).
        assert (Hav : In a (vrows v)).
        { apply vrows_In. split; [assumption|]. rewrite Ea. apply (vcols_In v); [assumption|assumption|].
          apply nth_In. assumption. }
        destruct (In_nth _ _ O Hav) as (b & Hb & Eb).
        assert (HP : forall s, (s < length cs)%nat -> P q s = ent (vblock v) b s).
        { intros s Hs. rewrite block_ent by assumption. rewrite Eb, Ea. reflexivity. }
        rewrite HP by assumption.
        destruct (Hsvd (vblock v)) as (E1 & _ & _ & (_ & _ & F)).
        specialize (F b t). cbn [mmul madj ent nrow ncol] in F. rewrite <- F.
        2:{ exact Hb. }
        2:{ rewrite E1. exact Ht. }
        change (ncol (vblock v)) with (length cs).
        transitivity (ksum (nrow V) (fun a0 => ksum (length cs) (fun s =>
          ent (vblock v) b s *c conj (ent V a0 s) *c ent V a0 t))).
        { rewrite ksum_swap. apply ksum_ext. intros s Hs. rewrite HP by assumption. rewrite <- ksum_mul_l.
          apply ksum_ext. intros; ring. }
        apply ksum_ext. intros a0 _. rewrite <- ksum_mul_r. reflexivity.
    Qed.

    Lemma W_value q t : (q < length cs)%nat -> (t < length cs)%nat -> W q t = real (/ g) *c P q t.
    Proof.
      intros Hq Ht. pose proof (PW t q Ht Hq) as H. apply (f_equal kconj) in H. rewrite ksum_conj in H.
      assert (E : ksum (length cs) (fun s => W q s *c P s t) = P q t).
      { rewrite (Hherm (nth q cs O) (nth t cs O)) by (apply cs_lt; assumption). rewrite <- H.
        apply ksum_ext. intros s Hs. rewrite kconj_mul, ksum_conj.
        rewrite <- (Hherm (nth s cs O) (nth t cs O)) by (apply cs_lt; assumption).
        rewrite (ksum_ext (nrow V) (fun i => conj (conj (ent V i s) *c ent V i q)) (fun i => conj (ent V i q) *c ent V i s)).
        2:{ intros i _. rewrite kconj_mul, kconj_inv. ring. }
        ring. }
      pose proof (eq_trans (eq_sym (WP q t Hq Ht)) E) as E'. cbv beta in E' |- *. rewrite <- E'.
      transitivity (real (/ g) *c real g *c W q t); [rewrite real_inv by lra; ring|ring].
    Qed.

    Lemma vpart_ent a j : ent (vpart v) a j = if is_in j cs then ent V a (first_pos j cs) else c0.
    Proof. reflexivity. Qed.

    Lemma vpart_orth : orth_rows N (vpart v).
    Proof.
      intros a b Ha Hb. change (nrow (vpart v)) with (nrow V) in *.
      transitivity (ksum N (fun j => if is_in j cs then ent V a (first_pos j cs) *c conj (ent V b (first_pos j cs)) else c0)).
      { apply ksum_ext. intros j _. rewrite !vpart_ent. destruct (is_in j cs); [reflexivity|]. rewrite kconj_0. ring. }
      rewrite (sum_over_list N cs (fun j => ent V a (first_pos j cs) *c conj (ent V b (first_pos j cs))) (vcols_NoDup v) (vcols_lt v)).
      rewrite <- VV by assumption. apply ksum_ext. intros q Hq. rewrite first_pos_nth; [reflexivity|apply vcols_NoDup|assumption].
    Qed.

    Lemma vpart_gram j k : (j < N)%nat -> (k < N)%nat ->
      ksum (nrow (vpart v)) (fun a => conj (ent (vpart v) a j) *c ent (vpart v) a k) =
      if (is_in j cs && is_in k cs)%bool then real (/ g) *c ent p j k else c0.
    Proof.
      intros Hj Hk. change (nrow (vpart v)) with (nrow V).
      destruct (is_in j cs) eqn:Ej; cbn [andb].
      - destruct (is_in k cs) eqn:Ek.
        + apply is_in_true in Ej, Ek. destruct (first_pos_In j cs Ej) as (J1 & J2). destruct (first_pos_In k cs Ek) as (K1 & K2).
          transitivity (W (first_pos j cs) (first_pos k cs)).
          2:{ rewrite (W_value _ _ J1 K1). cbv beta. rewrite J2, K2. reflexivity. }
          apply ksum_ext. intros a _. rewrite !vpart_ent.
          rewrite (proj2 (is_in_true j cs) Ej), (proj2 (is_in_true k cs) Ek). reflexivity.
        + apply ksum_zero. intros a _. rewrite (vpart_ent a k), Ek. ring.
      - apply ksum_zero. intros a _. rewrite (vpart_ent a j), Ej, kconj_0. ring.
    Qed.
  End Key.

  Lemma vpart_apart v w : In v mkeys -> In w mkeys -> v <> w -> orth_to N (vpart v) (vpart w).
  Proof.
    intros Hv Hw Hne a b _ _. apply ksum_zero. intros j Hj. rewrite !vpart_ent.
    destruct (is_in j (vcols v)) eqn:E1; [|ring]. destruct (is_in j (vcols w)) eqn:E2; [|rewrite kconj_0; ring].
    apply is_in_true in E1, E2. apply vcols_In in E1; [|assumption|assumption].
    apply vcols_In in E2; [|assumption|assumption]. congruence.
  Qed.

  Lemma reduce_many_sector d : d <> (1, 0) -> sector N p g (reduce_projector svd p d rel).
  Proof.
    intros Hd. unfold reduce_projector. destruct (cr_eq_dec d (1, 0)) as [E|_]; [contradiction|].
    fold kp. fold (kept_rows p).
    assert (HB : reduce_many svd pk relk = stack N (map vpart (unique_nats mkeys))).
    { unfold reduce_many, vpart, vblock, vcols, vrows. change (ncol pk) with (ncol p). rewrite Hc. reflexivity. }
    rewrite HB. clear HB.
    destruct (stack_ok N (unique_nats mkeys) vpart) as (S1 & S2 & S3).
    { apply increasing_NoDup, unique_nats_increasing. }
    { intros v Hv. apply (proj1 (unique_nats_In v mkeys)) in Hv. split; [reflexivity|apply vpart_orth; assumption]. }
    { intros v w Hv Hw. apply (proj1 (unique_nats_In v mkeys)) in Hv. apply (proj1 (unique_nats_In w mkeys)) in Hw.
      apply vpart_apart; assumption. }
    set (B := stack N (map vpart (unique_nats mkeys))) in *. clearbody B.
    assert (Hnorm : forall a, (a < nrow B)%nat -> row_norm B a = 1).
    { intros a Ha. unfold row_norm. rewrite S1.
      change (ksum N (fun j => cr_mul (ent B a j) (cr_conj (ent B a j)))) with (ksum N (fun j => ent B a j *c conj (ent B a j))).
      rewrite S2 by assumption. rewrite Nat.eqb_refl. apply sqrt_1. }
    assert (Hent : forall a j, (a < nrow B)%nat -> ent (normalised B) a j = ent B a j).
    { intros a j Ha. cbn [normalised ent]. rewrite Hnorm by assumption. rewrite Rinv_1.
      change (cr_mul ?x ?y) with (x *c y). rewrite real_1. ring. }
    split; [exact S1|]. split.
    - split; [reflexivity|]. split; [reflexivity|]. intros a b Ha Hb.
      change (nrow (mmul (normalised B) (madj (normalised B)))) with (nrow B) in *.
      change (ncol (mmul (normalised B) (madj (normalised B)))) with (nrow B) in *.
      cbn [mmul madj ent]. change (ncol (normalised B)) with (ncol B). rewrite S1.
      transitivity (ksum N (fun j => ent B a j *c conj (ent B b j))).
      { apply ksum_ext. intros j _. rewrite !Hent by assumption. reflexivity. }
      rewrite S2 by assumption. reflexivity.
    - split; [transitivity N; [exact S1|symmetry; exact Hr]|]. split; [transitivity N; [exact S1|symmetry; exact Hc]|].
      intros j k Hj Hk.
      change (j < ncol B)%nat in Hj. change (k < ncol B)%nat in Hk. rewrite S1 in Hj, Hk.
      cbn [mmul madj ent mscale]. change (ncol (madj (normalised B))) with (nrow B).
      transitivity (ksum (nrow B) (fun a => conj (ent B a j) *c ent B a k)).
      { apply ksum_ext. intros a Ha. rewrite !Hent by assumption. reflexivity. }
      rewrite S3.
      destruct (row_cols p j) as [|z zs] eqn:Ez.
      + apply row_cols_nil in Ez. rewrite (Ez k) by congruence. replace (real (/ g) *c c0) with c0 by ring.
        apply klsum_zero. intros v Hv. apply (proj1 (unique_nats_In v mkeys)) in Hv.
        rewrite vpart_gram by assumption. rewrite (Ez k) by congruence.
        destruct (is_in j (vcols v) && is_in k (vcols v))%bool; ring.
      + assert (Hz : ~ zero_row p j) by (rewrite <- row_cols_nil, Ez; discriminate). clear z zs Ez.
        assert (Hkj : In j kp) by (apply (kept_In N p Hr Hc Hlarge); auto).
        destruct (In_nth _ _ O Hkj) as (a & Ha & Ea).
        set (v0 := first_col rel j).
        assert (Hv0 : In v0 mkeys).
        { unfold v0. rewrite <- Ea, <- (mkeys_nth a Ha). apply nth_In. rewrite mkeys_length. assumption. }
        rewrite (klsum_pick _ _ v0).
        * rewrite vpart_gram by assumption.
          rewrite (proj2 (is_in_true j (vcols v0))) by (apply vcols_In; auto). cbn [andb].
          destruct (is_in k (vcols v0)) eqn:Ek; [reflexivity|].
          apply is_in_false in Ek. rewrite vcols_In in Ek by assumption.
          destruct (cr_eq_dec (ent p j k) c0) as [F|F]; [change (0,0) with c0 in F; rewrite F; ring|].
          exfalso. apply Ek. unfold v0. symmetry. apply rel_first; auto.
        * apply increasing_NoDup, unique_nats_increasing.
        * apply unique_nats_In. assumption.
        * intros w Hw Hne. apply (proj1 (unique_nats_In w mkeys)) in Hw. rewrite vpart_gram by assumption.
          destruct (is_in j (vcols w)) eqn:Ej; cbn [andb]; [|reflexivity].
          apply is_in_true in Ej. apply vcols_In in Ej; [|assumption|assumption]. unfold v0 in Hne. congruence.
  Qed.
End Many.
