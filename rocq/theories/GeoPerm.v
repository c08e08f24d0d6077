(** Renumbering and sorting of sites; equality. *)
From Coq Require Import List Arith Lia QArith Qround Qabs ZArith Bool Lqa Setoid Morphisms Sorting Permutation Psatz.
From Verif Require Import Res Matrix ModelGeometry SpecGeometry GeoArith GeoReduce GeoSites GeoSites2 GeoDist.
Import ListNotations.
Local Open Scope Q_scope.
Arguments Qred : simpl never.
Arguments root_rounds_to_0 : simpl never.
Arguments root_rounds_to_1 : simpl never.
Arguments round14 : simpl never.

(** * The permutation test *)
Lemma zinsert_perm z l : Permutation (z :: l) (zinsert z l).
Proof.
  induction l as [|a l IH]; cbn; [reflexivity|]. destruct (z <=? a)%Z; [reflexivity|].
  rewrite perm_swap. constructor. assumption.
Qed.
Lemma zsort_perm l : Permutation l (zsort l).
Proof. induction l as [|a l IH]; cbn; [reflexivity|]. rewrite <- zinsert_perm. constructor. assumption. Qed.
Lemma zinsert_sorted z l : StronglySorted Z.le l -> StronglySorted Z.le (zinsert z l).
Proof.
  induction 1 as [|a l S IH H]; cbn; [constructor; constructor|].
  destruct (Z.leb_spec z a) as [A|A].
  - constructor; [constructor; assumption|]. constructor; [assumption|]. rewrite Forall_forall in *. intros x Hx.
    specialize (H x Hx). lia.
  - constructor; [assumption|]. rewrite Forall_forall in *. intros x Hx.
    apply (Permutation_in _ (Permutation_sym (zinsert_perm z l))) in Hx as [<-|Hx]; [lia|auto].
Qed.
Lemma zsort_sorted l : StronglySorted Z.le (zsort l).
Proof. induction l; cbn; [constructor|]. apply zinsert_sorted. assumption. Qed.
Lemma zsorted_unique l l' : StronglySorted Z.le l -> StronglySorted Z.le l' -> Permutation l l' -> l = l'.
Proof.
  revert l'. induction l as [|a l IH]; intros l' S S' P.
  - apply Permutation_nil in P. congruence.
  - destruct l' as [|b l']; [apply Permutation_sym, Permutation_nil_cons in P; destruct P|].
    inversion S as [|? ? S1 F1]; inversion S' as [|? ? S2 F2]; subst. rewrite Forall_forall in *.
    assert (a = b).
    { assert (In a (b :: l')) as [->|A] by (apply (Permutation_in _ P); left; reflexivity); [reflexivity|].
      assert (In b (a :: l)) as [->|B] by (apply (Permutation_in _ (Permutation_sym P)); left; reflexivity); [reflexivity|].
      specialize (F1 b B). specialize (F2 a A). lia. }
    subst b. f_equal. apply IH; [assumption|assumption|]. apply Permutation_cons_inv in P. assumption.
Qed.
Lemma zlist_eqb_eq a b : zlist_eqb a b = true <-> a = b.
Proof.
  revert b. induction a as [|x a IH]; intros [|y b]; cbn; split; try congruence; try discriminate.
  - rewrite andb_true_iff, IH. intros [H ->]. apply Z.eqb_eq in H. congruence.
  - intros [= -> ->]. rewrite Z.eqb_refl, (proj2 (IH b) eq_refl). reflexivity.
Qed.
Lemma range_sorted n lo : StronglySorted Z.le (map Z.of_nat (seq lo n)).
Proof.
  revert lo. induction n; intros lo; cbn; [constructor|]. constructor; [apply IHn|]. apply Forall_forall.
  intros x Hx. apply in_map_iff in Hx as (k & <- & Hk). apply in_seq in Hk. lia.
Qed.

(** [perm] lists each of 0..n-1 once. *)
Definition is_perm (n : nat) (perm : list Z) : Prop := Permutation perm (map Z.of_nat (seq 0 n)).

Lemma perm_test n perm : zlist_eqb (zsort perm) (map Z.of_nat (seq 0 n)) = true <-> is_perm n perm.
Proof.
  rewrite zlist_eqb_eq. unfold is_perm. split.
  - intros E. rewrite (zsort_perm perm), E. reflexivity.
  - intros P. apply zsorted_unique; [apply zsort_sorted|apply range_sorted|]. rewrite <- zsort_perm. assumption.
Qed.

Definition np (perm : list Z) (i : nat) : nat := nth i (map Z.to_nat perm) 0%nat.

Lemma perm_facts n perm : is_perm n perm ->
  length perm = n /\ Permutation (map Z.to_nat perm) (seq 0 n) /\ (forall i, (i < n)%nat -> (np perm i < n)%nat).
Proof.
  intros P. assert (Q : Permutation (map Z.to_nat perm) (seq 0 n)).
  { rewrite (Permutation_map Z.to_nat P), map_map. rewrite (map_ext _ (fun x => x)) by (intros; apply Nat2Z.id).
    rewrite map_id. reflexivity. }
  assert (L : length perm = n).
  { rewrite (Permutation_length P), map_length, seq_length. reflexivity. }
  split; [assumption|]. split; [assumption|]. intros i Hi. unfold np.
  assert (In (nth i (map Z.to_nat perm) 0%nat) (seq 0 n)) as H.
  { apply (Permutation_in _ Q), nth_In. rewrite map_length. lia. }
  apply in_seq in H. lia.
Qed.

(** * Matrix products with permutation matrices *)
Lemma qsum_single n f k : (k < n)%nat -> (forall i, (i < n)%nat -> i <> k -> f i == 0) ->
  fold_right Qplus 0 (map f (seq 0 n)) == f k.
Proof.
  intros Hk H.
  assert (G : forall m lo, (forall i, (lo <= i < lo + m)%nat -> i <> k -> f i == 0) ->
    fold_right Qplus 0 (map f (seq lo m)) == if (lo <=? k)%nat && (k <? lo + m)%nat then f k else 0).
  { induction m; intros lo Hm; cbn [seq map fold_right].
    - destruct (Nat.leb_spec lo k), (Nat.ltb_spec k (lo + 0)); cbn [andb]; try reflexivity. lia.
    - rewrite IHm by (intros; apply Hm; [lia|assumption]).
      destruct (Nat.eq_dec lo k) as [->|N].
      + rewrite Nat.leb_refl. rewrite (proj2 (Nat.ltb_lt k (k + S m))) by lia. cbn [andb].
        rewrite (proj2 (Nat.leb_gt (S k) k)) by lia. cbn [andb]. ring.
      + rewrite (Hm lo) by (auto; lia).
        destruct (Nat.leb_spec (S lo) k), (Nat.leb_spec lo k), (Nat.ltb_spec k (S lo + m)), (Nat.ltb_spec k (lo + S m));
          cbn [andb]; try lia; ring. }
  rewrite (G n 0%nat) by (intros; apply H; [lia|assumption]).
  rewrite (proj2 (Nat.ltb_lt k (0 + n))) by lia. reflexivity.
Qed.

Lemma permuted_entry n perm A i j : is_perm n perm -> (i < n)%nat -> (j < n)%nat ->
  ent (permuted n (map Z.to_nat perm) A) i j == ent A (np perm i) (np perm j).
Proof.
  intros P Hi Hj. destruct (perm_facts n perm P) as (_ & _ & B). cbn [permuted ent]. unfold perm_entry, np in *.
  rewrite (qsum_single n _ (nth i (map Z.to_nat perm) 0%nat)); [|auto|].
  - rewrite Nat.eqb_refl. cbn [qb]. rewrite (qsum_single n _ (nth j (map Z.to_nat perm) 0%nat)); [|auto|].
    + rewrite Nat.eqb_refl. cbn [qb]. ring.
    + intros l Hl N. destruct (Nat.eqb_spec (nth j (map Z.to_nat perm) 0%nat) l); [congruence|]. cbn [qb]. ring.
  - intros l Hl N. destruct (Nat.eqb_spec (nth i (map Z.to_nat perm) 0%nat) l); [congruence|]. cbn [qb]. ring.
Qed.

Section G.
  Context {Ph : Type}.

  (** All attributes of [g'] are those of [g] with site [i] of [g'] being site
      [f i] of [g]. *)
  Definition relabelled (f : nat -> nat) (g g' : geometry Ph) : Prop :=
    g_n g' = g_n g /\ g_lat g' = g_lat g /\ length (g_x g') = g_n g /\ length (g_y g') = g_n g /\
    (forall i, (i < g_n g)%nat -> nth i (g_x g') 0 == nth (f i) (g_x g) 0 /\ nth i (g_y g') 0 == nth (f i) (g_y g) 0) /\
    nrow (g_xd g') = g_n g /\ ncol (g_xd g') = g_n g /\ nrow (g_yd g') = g_n g /\ ncol (g_yd g') = g_n g /\
    nrow (g_adj g') = g_n g /\ ncol (g_adj g') = g_n g /\ nrow (g_phase g') = g_n g /\ ncol (g_phase g') = g_n g /\
    (forall i j, (i < g_n g)%nat -> (j < g_n g)%nat ->
       ent (g_xd g') i j == ent (g_xd g) (f i) (f j) /\ ent (g_yd g') i j == ent (g_yd g) (f i) (f j) /\
       ent (g_adj g') i j == ent (g_adj g) (f i) (f j) /\ ent (g_phase g') i j = ent (g_phase g) (f i) (f j)).

  Lemma permute_ok (g : geometry Ph) perm : is_perm (g_n g) perm ->
    exists g', permute_sites g perm = Ok g' /\ relabelled (np perm) g g'.
  Proof.
    intros P. unfold permute_sites. rewrite (proj2 (perm_test _ _) P). cbn [negb].
    eexists. split; [reflexivity|]. destruct (perm_facts _ _ P) as (L & _ & B).
    unfold relabelled. cbn [g_n g_lat g_x g_y g_xd g_yd g_adj g_phase]. rewrite !map_length.
    split; [reflexivity|]. split; [reflexivity|]. split; [assumption|]. split; [assumption|].
    split.
    { intros i Hi. unfold np.
      assert (X : forall (l : list Q), nth i (map (fun k => nth k l 0) (map Z.to_nat perm)) 0 = nth (nth i (map Z.to_nat perm) 0%nat) l 0).
      { intros l. rewrite (nth_indep _ 0 (nth 0%nat l 0)) by (rewrite !map_length; lia).
        rewrite (map_nth (fun k => nth k l 0)). reflexivity. }
      rewrite !X. split; reflexivity. }
    do 8 (split; [reflexivity|]). intros i j Hi Hj.
    rewrite !(permuted_entry (g_n g) perm) by assumption. repeat split; reflexivity.
  Qed.

  Lemma permute_bad (g : geometry Ph) perm : ~ is_perm (g_n g) perm -> permute_sites g perm = Raise ValueError.
  Proof.
    intros P. unfold permute_sites. destruct (zlist_eqb _ _) eqn:E; [exfalso; apply P, perm_test; assumption|reflexivity].
  Qed.

  Definition same_geometry : geometry Ph -> geometry Ph -> Prop := relabelled (fun i => i).

  Lemma relabelled_trans f h g g1 g2 : (forall i, (i < g_n g)%nat -> (h i < g_n g)%nat) ->
    relabelled f g g1 -> relabelled h g1 g2 -> relabelled (fun i => f (h i)) g g2.
  Proof.
    intros Hh (N1 & A1 & B1 & C1 & D1 & E1 & F1 & G1 & H1 & I1 & J1 & K1 & L1 & M1)
      (N2 & A2 & B2 & C2 & D2 & E2 & F2 & G2 & H2 & I2 & J2 & K2 & L2 & M2).
    unfold relabelled. rewrite N1 in *. repeat match goal with |- _ /\ _ => split end; try congruence.
    - intros i Hi. destruct (D2 i Hi) as [X Y]. destruct (D1 (h i) (Hh i Hi)) as [X' Y']. rewrite X, Y, X', Y'. split; reflexivity.
    - intros i j Hi Hj. destruct (M2 i j Hi Hj) as (X & Y & Z & W).
      destruct (M1 (h i) (h j) (Hh i Hi) (Hh j Hj)) as (X' & Y' & Z' & W').
      rewrite X, Y, Z, W, X', Y', Z', W'. repeat split; reflexivity.
  Qed.

  Lemma relabelled_ext f h g g1 : (forall i, (i < g_n g)%nat -> f i = h i) -> relabelled f g g1 -> relabelled h g g1.
  Proof.
    intros E (N1 & A1 & B1 & C1 & D1 & E1 & F1 & G1 & H1 & I1 & J1 & K1 & L1 & M1).
    unfold relabelled. repeat match goal with |- _ /\ _ => split end; try assumption.
    - intros i Hi. rewrite <- (E i Hi). auto.
    - intros i j Hi Hj. rewrite <- (E i Hi), <- (E j Hj). auto.
  Qed.

  Lemma relabelled_same f g g1 g2 : relabelled f g g1 -> relabelled f g g2 -> same_geometry g1 g2.
  Proof.
    intros (N1 & A1 & B1 & C1 & D1 & E1 & F1 & G1 & H1 & I1 & J1 & K1 & L1 & M1)
      (N2 & A2 & B2 & C2 & D2 & E2 & F2 & G2 & H2 & I2 & J2 & K2 & L2 & M2).
    unfold same_geometry, relabelled. rewrite N1. repeat match goal with |- _ /\ _ => split end; try congruence.
    - intros i Hi. destruct (D1 i Hi) as [X Y], (D2 i Hi) as [X' Y']. rewrite X, Y, X', Y'. split; reflexivity.
    - intros i j Hi Hj. destruct (M1 i j Hi Hj) as (X & Y & Z & W), (M2 i j Hi Hj) as (X' & Y' & Z' & W').
      rewrite X, Y, Z, W, X', Y', Z', W'. repeat split; reflexivity.
  Qed.

  (** [p[q]]. *)
  Definition compose (p q : list Z) : list Z := map (fun k => nth (Z.to_nat k) p 0%Z) q.

  Lemma compose_np n p q i : is_perm n p -> is_perm n q -> (i < n)%nat -> np (compose p q) i = np p (np q i).
  Proof.
    intros P Q Hi. destruct (perm_facts n p P) as (Lp & _ & _). destruct (perm_facts n q Q) as (Lq & _ & Bq).
    specialize (Bq i Hi). unfold np, compose in *. rewrite map_map.
    rewrite (nth_indep _ 0%nat ((fun k => Z.to_nat (nth (Z.to_nat k) p 0%Z)) 0%Z)) by (rewrite map_length; lia).
    rewrite (map_nth (fun k => Z.to_nat (nth (Z.to_nat k) p 0%Z))).
    change 0%nat with (Z.to_nat 0). rewrite !map_nth. reflexivity.
  Qed.

  Lemma map_nth_perm {A} (l : list A) d idx : Permutation idx (seq 0 (length l)) ->
    Permutation (map (fun k => nth k l d) idx) l.
  Proof.
    intros P. rewrite (Permutation_map _ P). clear.
    assert (E : map (fun k => nth k l d) (seq 0 (length l)) = l); [|rewrite E; reflexivity].
    apply (nth_ext _ _ d d); [rewrite map_length, seq_length; reflexivity|]. intros n Hn.
    rewrite map_length, seq_length in Hn.
    rewrite (nth_indep _ d ((fun k => nth k l d) 0%nat)) by (rewrite map_length, seq_length; assumption).
    rewrite (map_nth (fun k => nth k l d)), seq_nth by assumption. reflexivity.
  Qed.

  Lemma compose_perm n p q : is_perm n p -> is_perm n q -> is_perm n (compose p q).
  Proof.
    intros P Q. destruct (perm_facts n p P) as (Lp & _ & _). destruct (perm_facts n q Q) as (_ & Pq & _).
    unfold is_perm in *. rewrite <- P. unfold compose. rewrite <- (map_map Z.to_nat (fun k => nth k p 0%Z)).
    apply map_nth_perm. rewrite Lp. assumption.
  Qed.

  Lemma permute_compose (g : geometry Ph) p q : is_perm (g_n g) p -> is_perm (g_n g) q ->
    exists g1 g2 g3, permute_sites g p = Ok g1 /\ permute_sites g1 q = Ok g2 /\
      permute_sites g (compose p q) = Ok g3 /\ same_geometry g2 g3.
  Proof.
    intros P Q. destruct (permute_ok g p P) as (g1 & E1 & R1).
    assert (N1 : g_n g1 = g_n g) by apply R1.
    destruct (permute_ok g1 q) as (g2 & E2 & R2); [rewrite N1; assumption|].
    destruct (permute_ok g (compose p q) (compose_perm _ _ _ P Q)) as (g3 & E3 & R3).
    exists g1, g2, g3. repeat (split; [assumption|]).
    apply (relabelled_same (fun i => np p (np q i)) g).
    - eapply relabelled_trans; [|eassumption|eassumption]. apply (perm_facts _ _ Q).
    - apply (relabelled_ext (np (compose p q))); [|assumption]. intros i Hi. eapply compose_np; eassumption.
  Qed.

  Lemma permute_inverse (g : geometry Ph) p q : is_perm (g_n g) p -> is_perm (g_n g) q ->
    (forall i, (i < g_n g)%nat -> np p (np q i) = i) ->
    exists g1 g2, permute_sites g p = Ok g1 /\ permute_sites g1 q = Ok g2 /\ same_geometry g g2.
  Proof.
    intros P Q I. destruct (permute_ok g p P) as (g1 & E1 & R1).
    assert (N1 : g_n g1 = g_n g) by apply R1.
    destruct (permute_ok g1 q) as (g2 & E2 & R2); [rewrite N1; assumption|].
    exists g1, g2. repeat (split; [assumption|]).
    apply (relabelled_ext (fun i => np p (np q i))); [assumption|].
    eapply relabelled_trans; [|eassumption|eassumption]. apply (perm_facts _ _ Q).
  Qed.
End G.
