(** Sorting of sites. *)
From Coq Require Import List Arith Lia QArith Qround Qabs ZArith Bool Lqa Setoid Morphisms Sorting Permutation Psatz.
From Verif Require Import Res Matrix ModelGeometry SpecGeometry GeoArith GeoReduce GeoSites GeoSites2 GeoDist GeoPerm.
Import ListNotations.
Local Open Scope Q_scope.
Arguments Qred : simpl never.

(** * Insertion sort for a total preorder *)
Section Sort.
  Variable le : nat -> nat -> bool.
  Hypothesis total : forall i j, le i j = true \/ le j i = true.
  Hypothesis trans : forall i j k, le i j = true -> le j k = true -> le i k = true.

  Lemma insert_perm i l : Permutation (i :: l) (insert_sorted le i l).
  Proof.
    induction l as [|a l IH]; cbn; [reflexivity|]. destruct (le i a); [reflexivity|].
    rewrite perm_swap. constructor. assumption.
  Qed.
  Lemma sort_perm l : Permutation l (stable_sort le l).
  Proof. induction l as [|a l IH]; cbn; [reflexivity|]. rewrite <- insert_perm. constructor. assumption. Qed.
  Let R i j := le i j = true.
  Lemma insert_keeps i l : StronglySorted R l -> StronglySorted R (insert_sorted le i l).
  Proof.
    induction 1 as [|a l S IH H]; cbn; [constructor; constructor|].
    rewrite Forall_forall in H.
    destruct (le i a) eqn:E.
    - constructor; [constructor; [assumption|apply Forall_forall; assumption]|].
      constructor; [assumption|]. apply Forall_forall. intros x Hx. apply (trans i a x); [assumption|apply H; assumption].
    - constructor; [assumption|]. apply Forall_forall. intros x Hx.
      apply (Permutation_in _ (Permutation_sym (insert_perm i l))) in Hx as [<-|Hx]; [|auto].
      destruct (total i a); [congruence|assumption].
  Qed.
  Lemma sort_sorted l : StronglySorted R (stable_sort le l).
  Proof. induction l; cbn; [constructor|]. apply insert_keeps. assumption. Qed.
End Sort.

(** Sorted lists of the same elements agree when no two elements are equivalent. *)
Lemma sorted_unique {A} (R : A -> A -> Prop) (P : A -> Prop) l l' :
  (forall i j, P i -> P j -> R i j -> R j i -> i = j) -> (forall i, In i l -> P i) ->
  StronglySorted R l -> StronglySorted R l' -> Permutation l l' -> l = l'.
Proof.
  intros anti. revert l'. induction l as [|a l IH]; intros l' HP S S' Q.
  - apply Permutation_nil in Q. congruence.
  - destruct l' as [|b l']; [apply Permutation_sym, Permutation_nil_cons in Q; destruct Q|].
    inversion S as [|? ? S1 F1]; inversion S' as [|? ? S2 F2]; subst. rewrite Forall_forall in *.
    assert (a = b).
    { assert (In a (b :: l')) as [->|X] by (apply (Permutation_in _ Q); left; reflexivity); [reflexivity|].
      assert (In b (a :: l)) as [->|Y] by (apply (Permutation_in _ (Permutation_sym Q)); left; reflexivity); [reflexivity|].
      apply anti; [apply HP; left; reflexivity|apply HP; right; assumption|auto|auto]. }
    subst b. f_equal. apply IH; [intros; apply HP; right; assumption|assumption|assumption|].
    apply Permutation_cons_inv in Q. assumption.
Qed.

Lemma stable_sort_ext le le' l : (forall i j, In i l -> In j l -> le i j = le' i j) -> stable_sort le l = stable_sort le' l.
Proof.
  induction l as [|a l IH]; intros H; [reflexivity|].
  change (insert_sorted le a (stable_sort le l) = insert_sorted le' a (stable_sort le' l)).
  rewrite <- IH by (intros; apply H; right; assumption).
  assert (G : forall i, In i (stable_sort le l) -> le a i = le' a i).
  { intros i Hi. apply H; [left; reflexivity|right]. apply (Permutation_in _ (Permutation_sym (sort_perm le l))). assumption. }
  revert G. generalize (stable_sort le l). clear. induction l as [|b l IH]; intros G; cbn; [reflexivity|].
  rewrite <- (G b) by (left; reflexivity). destruct (le a b); [reflexivity|]. f_equal. apply IH.
  intros; apply G; right; assumption.
Qed.

(** * The lexicographic order of keys *)
Lemma qcmp_flip a b : Qcompare b a = CompOpp (Qcompare a b).
Proof. symmetry. apply Qcompare_antisym. Qed.

Lemma key_le_total keys i j : key_le keys i j = true \/ key_le keys j i = true.
Proof.
  induction keys as [|k t IH]; cbn; [auto|]. rewrite (qcmp_flip (k i) (k j)).
  destruct (Qcompare (k i) (k j)); cbn; auto.
Qed.
Lemma key_le_trans keys i j l : key_le keys i j = true -> key_le keys j l = true -> key_le keys i l = true.
Proof.
  induction keys as [|k t IH]; cbn; [auto|].
  destruct (Qcompare_spec (k i) (k j)) as [E|E|E]; [| |discriminate];
  destruct (Qcompare_spec (k j) (k l)) as [F|F|F]; try discriminate;
  destruct (Qcompare_spec (k i) (k l)) as [G|G|G]; auto; try (exfalso; lra).
Qed.
Lemma key_le_both keys i j : key_le keys i j = true -> key_le keys j i = true -> forall k, In k keys -> k i == k j.
Proof.
  induction keys as [|k t IH]; cbn; [contradiction|].
  destruct (Qcompare_spec (k i) (k j)) as [E|E|E]; [| |discriminate];
  destruct (Qcompare_spec (k j) (k i)) as [F|F|F]; try discriminate; try (exfalso; lra).
  intros A B x [<-|Hx]; [assumption|]. apply IH; assumption.
Qed.

Lemma key2_spec (k1 k2 : nat -> Q) i j :
  key_le [k1; k2] i j = true <-> k1 i < k1 j \/ k1 i == k1 j /\ k2 i <= k2 j.
Proof.
  cbn. destruct (Qcompare_spec (k1 i) (k1 j)) as [E|E|E].
  - destruct (Qcompare_spec (k2 i) (k2 j)) as [F|F|F]; split; intros; try reflexivity; try discriminate;
      try (right; split; [assumption|lra]).
    exfalso; destruct H as [H|[_ H]]; lra.
  - split; auto.
  - split; [discriminate|]. intros [H|[H _]]; exfalso; lra.
Qed.

Lemma lexsort_perm n keys : Permutation (lexsort n keys) (seq 0 n).
Proof. apply Permutation_sym, sort_perm. Qed.
Lemma lexsort_sorted n keys : StronglySorted (fun i j => key_le (rev keys) i j = true) (lexsort n keys).
Proof.
  apply sort_sorted; intros; [apply key_le_total|eapply key_le_trans; eassumption].
Qed.
Lemma lexsort_In n keys i : In i (lexsort n keys) <-> (i < n)%nat.
Proof.
  split; intros H.
  - apply (Permutation_in _ (lexsort_perm n keys)) in H. apply in_seq in H. lia.
  - apply (Permutation_in _ (Permutation_sym (lexsort_perm n keys))), in_seq. lia.
Qed.

(** Two key lists ordering all pairs alike, through a renumbering [f]. *)
Lemma lexsort_transport n (keys keys' : list (nat -> Q)) (f : nat -> nat) :
  Permutation (map f (seq 0 n)) (seq 0 n) ->
  (forall i j, (i < n)%nat -> (j < n)%nat -> key_le (rev keys') i j = key_le (rev keys) (f i) (f j)) ->
  (forall i j, (i < n)%nat -> (j < n)%nat -> (forall k, In k keys -> k i == k j) -> i = j) ->
  map f (lexsort n keys') = lexsort n keys.
Proof.
  intros P H D.
  apply (sorted_unique (fun i j => key_le (rev keys) i j = true) (fun i => (i < n)%nat)).
  - intros i j Hi Hj A B. apply D; [assumption|assumption|]. intros k Hk. apply (key_le_both _ _ _ A B), in_rev.
    rewrite rev_involutive. assumption.
  - intros i Hi. apply in_map_iff in Hi as (k & <- & Hk). apply lexsort_In in Hk.
    assert (In (f k) (seq 0 n)) as Q by (apply (Permutation_in _ P), in_map, in_seq; lia). apply in_seq in Q. lia.
  - pose proof (lexsort_sorted n keys') as S. assert (B : forall i, In i (lexsort n keys') -> (i < n)%nat) by (intros i; apply lexsort_In).
    revert S B. generalize (lexsort n keys'). induction 1 as [|a l S IH F]; intros B; cbn; constructor.
    + apply IH. intros; apply B; right; assumption.
    + rewrite Forall_forall in *. intros x Hx. apply in_map_iff in Hx as (k & <- & Hk).
      rewrite <- H by (apply B; cbn; auto). apply F. assumption.
  - apply lexsort_sorted.
  - rewrite (Permutation_map f (lexsort_perm n keys')), P. symmetry. apply lexsort_perm.
Qed.

(** * The largest element *)
Definition is_max (l : list Q) (m : Q) : Prop := (forall x, In x l -> x <= m) /\ exists x, In x l /\ x == m.
Lemma list_max_aux l d : (forall x, In x l -> x <= list_max l d) /\ d <= list_max l d /\
  (list_max l d = d \/ In (list_max l d) l).
Proof.
  induction l as [|a l (A & B & C)]; cbn [list_max fold_right].
  - split; [intros x []|]. split; [lra|auto].
  - fold (list_max l d) in *. destruct (Qle_bool (list_max l d) a) eqn:E.
    + apply Qle_bool_iff in E. split; [intros x [<-|H]; [lra|specialize (A x H); lra]|]. split; [lra|right; left; reflexivity].
    + assert (a < list_max l d) by (apply Qnot_le_lt; intros F; apply Qle_bool_iff in F; congruence).
      split; [intros x [<-|Hx]; [lra|auto]|]. split; [assumption|]. destruct C; [auto|right; right; assumption].
Qed.
Lemma list_max_spec y0 l : is_max (y0 :: l) (list_max (y0 :: l) y0).
Proof.
  destruct (list_max_aux (y0 :: l) y0) as (A & B & C). split; [assumption|].
  destruct C as [C|C]; [exists y0; split; [left; reflexivity|rewrite C; reflexivity]|].
  exists (list_max (y0 :: l) y0). split; [assumption|reflexivity].
Qed.
Lemma is_max_unique l m m' : is_max l m -> is_max l m' -> m == m'.
Proof.
  intros (A & x & Hx & Ex) (A' & x' & Hx' & Ex'). specialize (A x' Hx'). specialize (A' x Hx). lra.
Qed.

Lemma is_int_spec x : is_int x = true <-> exists z, x == inject_Z z.
Proof.
  unfold is_int. rewrite Qeq_bool_iff. split.
  - intros H. eexists. symmetry. exact H.
  - intros (z & H). rewrite (Qfloor_comp _ _ H), Qfloor_Z. symmetry. assumption.
Qed.
Lemma sign_pow_comp x y : x == y -> sign_pow x = sign_pow y.
Proof. intros H. unfold sign_pow. rewrite (Qfloor_comp _ _ H). reflexivity. Qed.
Lemma sign_pow_int x z : x == inject_Z z -> sign_pow x = if Z.even z then 1 else -(1).
Proof. intros H. unfold sign_pow. rewrite (Qfloor_comp _ _ H), Qfloor_Z. reflexivity. Qed.

Section G.
  Context {Ph : Type}.
  Implicit Type g : geometry Ph.

  Definition site g i : point := (nth i (g_x g) 0, nth i (g_y g) 0).
  Definition well_sized g : Prop := length (g_x g) = g_n g /\ length (g_y g) = g_n g.
  Definition distinct_sites g : Prop :=
    forall i j, (i < g_n g)%nat -> (j < g_n g)%nat -> same_point (site g i) (site g j) -> i = j.
  Definition top_row g (top : Q) : Prop :=
    (forall i, (i < g_n g)%nat -> snd (site g i) <= top) /\ exists i, (i < g_n g)%nat /\ snd (site g i) == top.

  (** What the three geometric modes promise. *)
  Definition site_before g (md : sorting_mode) (v w : point) : Prop :=
    match md with
    | TopLeft => top_left v w
    | BottomRight => bottom_right v w
    | TopAlternating => forall top, top_row g top -> top_alternating top v w
    | _ => False
    end.
  Definition geometric (md : sorting_mode) : bool :=
    match md with TopLeft | BottomRight | TopAlternating => true | _ => false end.
  Definition integer_rows g : Prop :=
    forall i j, (i < g_n g)%nat -> (j < g_n g)%nat -> exists z, snd (site g i) - snd (site g j) == inject_Z z.

  Lemma top_row_max g top : well_sized g -> top_row g top <-> is_max (g_y g) top.
  Proof.
    intros (_ & L). unfold top_row, is_max, site. cbn [snd]. split; intros (A & x & Hx & Ex).
    - split; [intros y Hy; apply (In_nth _ _ 0) in Hy as (k & Hk & <-); apply A; lia|].
      exists (nth x (g_y g) 0). split; [apply nth_In; lia|assumption].
    - split; [intros i Hi; apply A, nth_In; lia|]. apply (In_nth _ _ 0) in Hx as (k & Hk & <-). exists k. split; [lia|assumption].
  Qed.

  Definition keys_of g md : list (nat -> Q) :=
    let X i := nth i (g_x g) 0 in
    let Y i := nth i (g_y g) 0 in
    match md with
    | TopAlternating => [(fun i => X i * sign_pow (Y i - list_max (g_y g) (nth 0 (g_y g) 0))); (fun i => - Y i)]
    | TopLeft => [X; (fun i => - Y i)]
    | BottomRight => [X; Y]
    | _ => []
    end.

  Lemma sorting_eq g md : geometric md = true -> well_sized g -> (0 < g_n g)%nat -> (md = TopAlternating -> integer_rows g) ->
    sorting_permutation g md = Ok (lexsort (g_n g) (keys_of g md)).
  Proof.
    intros Hm W N I. destruct md; try discriminate Hm; try reflexivity.
    unfold sorting_permutation, keys_of. specialize (I eq_refl).
    pose proof (top_row_max g) as T. destruct W as (Lx & Ly). unfold integer_rows, site in I. cbn [snd] in I. 
    destruct (g_y g) as [|y0 l] eqn:E; [cbn in Ly; lia|]. cbn [nth]. rewrite <- E in *.
    assert (F : forallb (fun y => is_int (y - list_max (g_y g) y0)) (g_y g) = true); [|rewrite F; reflexivity].
    apply forallb_forall. intros y Hy. apply is_int_spec.
    destruct (list_max_spec y0 l) as (_ & m & Hm' & Em). rewrite <- E in *.
    apply (In_nth _ _ 0) in Hy as (i & Hi & <-). apply (In_nth _ _ 0) in Hm' as (j & Hj & Ej).
    destruct (I i j) as (z & Hz); [lia|lia|]. exists z. rewrite <- Hz, Ej, Em. reflexivity.
  Qed.

  Lemma max_ok g : well_sized g -> (0 < g_n g)%nat -> is_max (g_y g) (list_max (g_y g) (nth 0 (g_y g) 0)).
  Proof.
    intros (_ & L) N. destruct (g_y g) as [|y0 l]; [cbn in L; lia|]. apply list_max_spec.
  Qed.

  Lemma rows_top g top i : integer_rows g -> top_row g top -> (i < g_n g)%nat -> exists z, snd (site g i) - top == inject_Z z.
  Proof.
    intros I (_ & j & Hj & E) Hi. destruct (I i j Hi Hj) as (z & Hz). exists z. rewrite <- Hz, E. reflexivity.
  Qed.

  Lemma sorting_ok g md : geometric md = true -> well_sized g -> (0 < g_n g)%nat -> distinct_sites g ->
    (md = TopAlternating -> integer_rows g) ->
    exists s, sorting_permutation g md = Ok s /\ Permutation s (seq 0 (g_n g)) /\
      StronglySorted (fun i j => site_before g md (site g i) (site g j)) s.
  Proof.
    intros Hm W N D I. exists (lexsort (g_n g) (keys_of g md)). split; [apply sorting_eq; assumption|].
    split; [apply lexsort_perm|].
    pose proof (lexsort_sorted (g_n g) (keys_of g md)) as S.
    assert (B : forall i, In i (lexsort (g_n g) (keys_of g md)) -> (i < g_n g)%nat) by (intros i; apply lexsort_In).
    assert (ND : NoDup (lexsort (g_n g) (keys_of g md))).
    { apply (Permutation_NoDup (Permutation_sym (lexsort_perm _ _))), seq_NoDup. }
    assert (K : forall i j, (i < g_n g)%nat -> (j < g_n g)%nat -> i <> j -> key_le (rev (keys_of g md)) i j = true ->
              site_before g md (site g i) (site g j)).
    { intros i j Hi Hj Nij. pose proof (D i j Hi Hj) as Dij. unfold same_point, site in Dij. cbn [fst snd] in Dij.
      unfold site_before, site.
      destruct md; try discriminate Hm; unfold keys_of; cbn [rev app]; intros H; apply key2_spec in H; cbv beta in H;
        unfold top_left, bottom_right, top_alternating; cbn [fst snd].
      - intros top T. destruct H as [H|[H1 H2]]; [left; lra|].
        destruct (rows_top g top i (I eq_refl) T Hi) as (z & Hz). unfold site in Hz. cbn [snd] in Hz.
        pose proof (is_max_unique _ _ _ (proj1 (top_row_max g top W) T) (max_ok g W N)) as M.
        right. split; [lra|]. rewrite !(sign_pow_int _ z) in H2 by (rewrite <- Hz, M; lra).
        destruct (Z.even z) eqn:E.
        + left. apply Z.even_spec in E as (k & ->). split; [exists (- k)%Z; replace (2 * - k)%Z with (- (2 * k))%Z by lia; rewrite inject_Z_opp, <- Hz; lra|].
          apply Qnot_le_lt. intros F. apply Nij, Dij. split; lra.
        + right. assert (Z.odd z = true) as O by (rewrite <- Z.negb_even, E; reflexivity). apply Z.odd_spec in O as (k & ->).
          split; [exists (- k - 1)%Z; replace (2 * (- k - 1) + 1)%Z with (- (2 * k + 1))%Z by lia; rewrite inject_Z_opp, <- Hz; lra|].
          apply Qnot_le_lt. intros F. apply Nij, Dij. split; lra.
      - destruct H as [H|[H1 H2]]; [left; lra|right]. split; [lra|]. apply Qnot_le_lt. intros F. apply Nij, Dij. split; lra.
      - destruct H as [H|[H1 H2]]; [left; lra|right]. split; [lra|]. apply Qnot_le_lt. intros F. apply Nij, Dij. split; lra. }
    revert S B ND. generalize (lexsort (g_n g) (keys_of g md)). induction 1 as [|a l S IH F]; intros B ND; constructor.
    - apply IH; [intros; apply B; right; assumption|inversion ND; assumption].
    - rewrite Forall_forall in *. intros x Hx. apply K; [apply B; left; reflexivity|apply B; right; assumption| |auto].
      intros ->. inversion ND; contradiction.
  Qed.

  Lemma keys_separate g md i j : geometric md = true -> well_sized g -> (0 < g_n g)%nat -> (md = TopAlternating -> integer_rows g) ->
    distinct_sites g -> (i < g_n g)%nat -> (j < g_n g)%nat -> (forall k, In k (keys_of g md) -> k i == k j) -> i = j.
  Proof.
    intros Hm W N I D Hi Hj H. apply D; [assumption|assumption|]. unfold same_point, site. cbn [fst snd].
    destruct md; try discriminate Hm; unfold keys_of in H.
    - assert (A := H _ (or_introl eq_refl)). assert (B := H _ (or_intror (or_introl eq_refl))). cbv beta in A, B.
      split; [|lra]. assert (E : nth i (g_y g) 0 == nth j (g_y g) 0) by lra.
      rewrite (sign_pow_comp _ (nth j (g_y g) 0 - list_max (g_y g) (nth 0 (g_y g) 0))) in A by (rewrite E; reflexivity).
      unfold sign_pow in A. destruct (Z.even _); lra.
    - assert (A := H _ (or_introl eq_refl)). assert (B := H _ (or_intror (or_introl eq_refl))). cbv beta in A, B. split; lra.
    - assert (A := H _ (or_introl eq_refl)). assert (B := H _ (or_intror (or_introl eq_refl))). cbv beta in A, B. split; lra.
  Qed.

  (** [g'] lists the sites of [g], moved by [d], with site [i] of [g'] being
      site [f i] of [g]. *)
  Definition same_sites (f : nat -> nat) (d : point) g g' : Prop :=
    g_n g' = g_n g /\ well_sized g' /\ Permutation (map f (seq 0 (g_n g))) (seq 0 (g_n g)) /\
    forall i, (i < g_n g)%nat -> fst (site g' i) == fst (site g (f i)) + fst d /\ snd (site g' i) == snd (site g (f i)) + snd d.

  Lemma same_sites_range f d g g' i : same_sites f d g g' -> (i < g_n g)%nat -> (f i < g_n g)%nat.
  Proof.
    intros (_ & _ & P & _) Hi. assert (In (f i) (seq 0 (g_n g))) as H by (apply (Permutation_in _ P), in_map, in_seq; lia).
    apply in_seq in H. lia.
  Qed.
  Lemma same_sites_onto f d g g' j : same_sites f d g g' -> (j < g_n g)%nat -> exists i, (i < g_n g)%nat /\ f i = j.
  Proof.
    intros (_ & _ & P & _) Hj. assert (In j (map f (seq 0 (g_n g)))) as H by (apply (Permutation_in _ (Permutation_sym P)), in_seq; lia).
    apply in_map_iff in H as (i & E & Hi). apply in_seq in Hi. exists i. split; [lia|assumption].
  Qed.

  Lemma top_row_same f d g g' top : same_sites f d g g' -> top_row g top -> top_row g' (top + snd d).
  Proof.
    intros S (A & j & Hj & E). pose proof S as (N & W & P & X). split.
    - intros i Hi. rewrite N in Hi. destruct (X i Hi) as [_ ->]. specialize (A (f i) (same_sites_range _ _ _ _ _ S Hi)). lra.
    - destruct (same_sites_onto _ _ _ _ _ S Hj) as (i & Hi & <-). exists i. split; [lia|]. destruct (X i Hi) as [_ ->]. lra.
  Qed.

  Lemma sorting_canonical f d g g' md s s' : geometric md = true -> well_sized g -> (0 < g_n g)%nat -> distinct_sites g ->
    (md = TopAlternating -> integer_rows g) -> same_sites f d g g' ->
    sorting_permutation g md = Ok s -> sorting_permutation g' md = Ok s' -> map f s' = s.
  Proof.
    intros Hm W N D I S E E'. pose proof S as (N' & W' & P & X).
    assert (I' : md = TopAlternating -> integer_rows g').
    { intros M i j Hi Hj. rewrite N' in Hi, Hj. destruct (X i Hi) as [_ Xi], (X j Hj) as [_ Xj].
      destruct (I M (f i) (f j)) as (z & Hz); [eapply same_sites_range; eassumption|eapply same_sites_range; eassumption|].
      exists z. rewrite <- Hz, Xi, Xj. ring. }
    rewrite sorting_eq in E by assumption. rewrite sorting_eq in E' by (try assumption; lia).
    assert (s = lexsort (g_n g) (keys_of g md)) as -> by congruence.
    assert (s' = lexsort (g_n g) (keys_of g' md)) as -> by (rewrite N' in E'; congruence). clear E E'.
    apply lexsort_transport; [assumption| |].
    - intros i j Hi Hj. destruct (X i Hi) as [Xi Yi], (X j Hj) as [Xj Yj]. unfold site in Xi, Yi, Xj, Yj. cbn [fst snd] in Xi, Yi, Xj, Yj.
      destruct md; try discriminate Hm; unfold keys_of; cbn [rev app]; apply eq_true_iff_eq; rewrite !key2_spec; cbv beta.
      + assert (T : list_max (g_y g') (nth 0 (g_y g') 0) == list_max (g_y g) (nth 0 (g_y g) 0) + snd d).
        { apply (is_max_unique (g_y g')); [apply max_ok; [assumption|lia]|].
          apply top_row_max; [assumption|]. eapply top_row_same; [eassumption|]. apply top_row_max, max_ok; assumption. }
        set (top' := list_max (g_y g') (nth 0 (g_y g') 0)) in *. set (top := list_max (g_y g) (nth 0 (g_y g) 0)) in *.
        rewrite (sign_pow_comp (nth i (g_y g') 0 - top') (nth (f i) (g_y g) 0 - top)) by (rewrite Yi, T; ring).
        rewrite (sign_pow_comp (nth j (g_y g') 0 - top') (nth (f j) (g_y g) 0 - top)) by (rewrite Yj, T; ring).
        rewrite Xi, Xj, Yi, Yj.
        split; (intros [H|[H1 H2]]; [left; lra|right; split; [lra|]]);
          rewrite (sign_pow_comp (nth (f j) (g_y g) 0 - top) (nth (f i) (g_y g) 0 - top)) in *
            by (assert (Z1 : nth (f j) (g_y g) 0 == nth (f i) (g_y g) 0) by lra; rewrite Z1; reflexivity);
          unfold sign_pow in *; destruct (Z.even _); lra.
      + rewrite Xi, Xj, Yi, Yj. split; (intros [H|[H1 H2]]; [left; lra|right; split; lra]).
      + rewrite Xi, Xj, Yi, Yj. split; (intros [H|[H1 H2]]; [left; lra|right; split; lra]).
    - intros i j Hi Hj. apply keys_separate; assumption.
  Qed.
End G.
