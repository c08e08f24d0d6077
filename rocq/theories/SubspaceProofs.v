(** Row-selection projectors: [subspace_projs] and the fixed-number basis. *)
From Coq Require Import List Arith Lia Bool QArith Setoid Morphisms Ring Sorted.
From Verif Require Import Scalars Res Matrix ModelBase ModelFermions SpecFock SpecMat OpsProofs SqMat FockProofs FermiOps.
Import ListNotations.
Local Open Scope nat_scope.
Arguments Nat.div : simpl never.
Arguments Nat.modulo : simpl never.
Arguments Nat.pow : simpl never.

Lemma filter_seq_sorted (p : nat -> bool) s n : StronglySorted lt (filter p (seq s n)).
Proof.
  revert s. induction n as [|n IH]; intros s; simpl; [constructor|].
  destruct (p s); [|apply IH]. constructor; [apply IH|].
  apply Forall_forall. intros x Hx. apply filter_In in Hx. destruct Hx as [Hx _]. apply in_seq in Hx. lia.
Qed.

Section Sel.
  Context {K : Type} {SR : StarRing K}.
  Add Ring KringS : (@k_ring K SR).

  Definition good_idx (n : nat) (idx : list nat) : Prop := NoDup idx /\ forall k, In k idx -> k < n.

  Lemma good_nth n idx i d : good_idx n idx -> i < length idx -> nth i idx d < n.
  Proof. intros [_ H] Hi. apply H, nth_In, Hi. Qed.

  Lemma sel_sel_adj n idx : good_idx n idx ->
    meq (mmul (sel (K:=K) n idx) (madj (sel n idx))) (meye (length idx)).
  Proof.
    intros G. repeat split; simpl. intros i j Hi Hj.
    rewrite (ksum_single n (nth i idx n)).
    - rewrite Nat.eqb_refl, kb_conj. destruct (Nat.eqb_spec i j) as [->|Hne].
      + rewrite Nat.eqb_refl. cbn. ring.
      + rewrite (proj2 (Nat.eqb_neq _ _)); [cbn; ring|].
        intros E. apply Hne. apply (proj1 (NoDup_nth idx n) (proj1 G)); auto.
    - apply good_nth; auto.
    - intros k Hk Hne. rewrite (proj2 (Nat.eqb_neq (nth i idx n) k)) by auto. cbn. ring.
  Qed.

  Lemma ksum_list_single (l : list nat) (g : nat -> K) m d :
    NoDup l -> (forall x, x <> m -> g x = k0) ->
    ksum (length l) (fun i => g (nth i l d)) = if in_dec Nat.eq_dec m l then g m else k0.
  Proof.
    intros ND Hz. destruct (in_dec Nat.eq_dec m l) as [Hin|Hin].
    - destruct (In_nth l m d Hin) as (i & Hi & Ei).
      rewrite (ksum_single _ i); [rewrite Ei; reflexivity|assumption|].
      intros j Hj Hne. apply Hz. intros E. apply Hne.
      apply (proj1 (NoDup_nth l d) ND); auto. congruence.
    - apply ksum_zero. intros i Hi. apply Hz. intros E. apply Hin. rewrite <- E. apply nth_In, Hi.
  Qed.

  Lemma sel_adj_sel n idx : good_idx n idx ->
    meq (mmul (madj (sel (K:=K) n idx)) (sel n idx))
        (mdiag n (fun i => kb (if in_dec Nat.eq_dec i idx then true else false))).
  Proof.
    intros G. repeat split; simpl. intros i j Hi Hj.
    rewrite (ksum_ext _ _ (fun t => (fun x => kmul (kb (x =? i)) (kb (x =? j))) (nth t idx n)))
      by (intros; rewrite kb_conj; reflexivity).
    rewrite (ksum_list_single idx (fun x => kmul (kb (x =? i)) (kb (x =? j))) i).
    - rewrite Nat.eqb_refl. destruct (in_dec Nat.eq_dec i idx), (Nat.eqb_spec i j); cbn; ring.
    - apply G.
    - intros x Hx. rewrite (proj2 (Nat.eqb_neq x i)) by assumption. cbn. ring.
  Qed.

  Lemma sel_sandwich_ent n idx (O : mat K) : good_idx n idx -> square n O ->
    forall i j, i < length idx -> j < length idx ->
    ent (mmul (sel n idx) (mmul O (madj (sel n idx)))) i j = ent O (nth i idx n) (nth j idx n).
  Proof.
    intros G [S1 S2] i j Hi Hj. simpl. rewrite S2.
    rewrite (ksum_single n (nth i idx n)).
    - rewrite Nat.eqb_refl. rewrite (ksum_single n (nth j idx n)).
      + rewrite Nat.eqb_refl, kb_conj. cbn. ring.
      + apply good_nth; auto.
      + intros k Hk Hne. rewrite (proj2 (Nat.eqb_neq (nth j idx n) k)), kb_conj by auto. cbn. ring.
    - apply good_nth; auto.
    - intros k Hk Hne. rewrite (proj2 (Nat.eqb_neq (nth i idx n) k)) by auto. cbn. ring.
  Qed.

  (** Composition of selections. *)
  Lemma sel_sel n idx idx2 : good_idx n idx -> good_idx (length idx) idx2 ->
    meq (mmul (sel (K:=K) (length idx) idx2) (sel n idx)) (sel n (map (fun i => nth i idx n) idx2)).
  Proof.
    intros G1 G2. repeat split; simpl; [symmetry; apply map_length|].
    intros i j Hi Hj. rewrite (ksum_single _ (nth i idx2 (length idx))).
    - rewrite Nat.eqb_refl. cbn [kb].
      rewrite (nth_indep (map (fun i0 => nth i0 idx n) idx2) n (nth (length idx) idx n)) by (rewrite map_length; assumption).
      rewrite (map_nth (fun k => nth k idx n)). ring.
    - apply good_nth; auto.
    - intros k Hk Hne. rewrite (proj2 (Nat.eqb_neq (nth i idx2 (length idx)) k)) by auto. cbn. ring.
  Qed.

  Lemma good_filter n p : good_idx n (filter p (seq 0 n)).
  Proof.
    split; [apply NoDup_filter, seq_NoDup|]. intros k Hk. apply filter_In in Hk.
    destruct Hk as [Hk _]. apply in_seq in Hk. lia.
  Qed.

  Lemma filter_map_nth (p : nat -> bool) (idx : list nat) d :
    map (fun i => nth i idx d) (filter (fun i => p (nth i idx d)) (seq 0 (length idx))) = filter p idx.
  Proof.
    assert (G : forall pre l, map (fun i => nth i (pre ++ l) d)
       (filter (fun i => p (nth i (pre ++ l) d)) (seq (length pre) (length l))) = filter p l).
    { intros pre l. revert pre. induction l as [|a l IH]; intros pre; [reflexivity|].
      cbn [length seq filter]. rewrite app_nth2, Nat.sub_diag by lia. cbn [nth].
      specialize (IH (pre ++ [a])). rewrite <- app_assoc in IH. rewrite app_length, Nat.add_1_r in IH.
      cbn [app] in IH. destruct (p a); [|exact IH].
      cbn [map]. rewrite IH, app_nth2, Nat.sub_diag by lia. reflexivity. }
    apply (G []).
  Qed.

  Lemma kneb_false (a b : K) : negb (kneb a b) = true <-> a = b.
  Proof. unfold kneb. destruct (keq_dec a b); simpl; split; congruence. Qed.

  (** ** C09 *)
  Lemma sel_rows n idx : rows_are n (sel n idx) idx.
  Proof.
    repeat split. intros i j Hi Hj. cbn. rewrite (nth_indep idx n 0) by assumption.
    destruct (_ =? j); reflexivity.
  Qed.

  Lemma projs_spec n O ev : diagonal_mat n O ->
    exists ps vs, subspace_projs true O ev = Ok (ps, vs) /\ length ps = length vs /\
      (forall l, ev = Some l -> vs = l) /\
      (ev = None -> NoDup vs /\ forall v, In v vs <-> exists k, k < n /\ ent O k k = v) /\
      (forall t, t < length vs -> exists idx,
         let P := nth t ps (mzero 0 0) in let v := nth t vs k0 in
         StronglySorted lt idx /\ (forall k, In k idx <-> k < n /\ ent O k k = v) /\
         rows_are n P idx /\
         meq (mmul P (madj P)) (meye (length idx)) /\
         meq (mmul (madj P) P) (mdiag n (fun k => if keq_dec (ent O k k) v then k1 else k0)) /\
         meq (mmul P (mmul O (madj P))) (mscale v (meye (length idx)))) /\
      (ev = None -> meq (msum n (map (fun P => mmul (madj P) P) ps)) (meye n)).
  Proof.
    intros [[S1 S2] HD]. unfold subspace_projs. rewrite S1, S2, Nat.min_id.
    set (vs := match ev with Some l => l | None => nodup keq_dec (diagonal O) end).
    set (ps := map (fun v => sel n (diag_indices O v)) vs).
    assert (HI : forall v k, In k (diag_indices O v) <-> k < n /\ ent O k k = v).
    { intros v k. unfold diag_indices. rewrite filter_In, kneb_false, in_seq, S1, S2, Nat.min_id.
      split; intros [H1 H2]; split; auto; lia. }
    assert (HG : forall v, good_idx n (diag_indices O v)).
    { intros v. unfold diag_indices. rewrite S1, S2, Nat.min_id. apply good_filter. }
    assert (HPP : forall v, meq (mmul (madj (sel n (diag_indices O v))) (sel n (diag_indices O v)))
       (mdiag n (fun k => if keq_dec (ent O k k) v then k1 else k0))).
    { intros v. rewrite sel_adj_sel by auto. repeat split. intros i j Hi Hj. cbn in *.
      destruct (i =? j); [|reflexivity].
      destruct (in_dec Nat.eq_dec i (diag_indices O v)) as [X|X]; rewrite HI in X;
        destruct (keq_dec (ent O i i) v); try reflexivity; exfalso; tauto. }
    assert (HU : ev = None -> NoDup vs /\ forall v, In v vs <-> exists k, k < n /\ ent O k k = v).
    { intros ->. unfold vs. split; [apply NoDup_nodup|]. intros v. rewrite nodup_In.
      unfold diagonal. rewrite S1, S2, Nat.min_id, in_map_iff. split.
      - intros (k & E & Hk). apply in_seq in Hk. exists k. split; [lia|assumption].
      - intros (k & Hk & E). exists k. split; [assumption|]. apply in_seq. lia. }
    exists ps, vs. splits; auto.
    - unfold ps. apply map_length.
    - intros l ->. reflexivity.
    - intros t Ht. exists (diag_indices O (nth t vs k0)). cbv zeta.
      assert (EP : nth t ps (mzero 0 0) = sel n (diag_indices O (nth t vs k0))).
      { unfold ps. rewrite (nth_indep _ (mzero 0 0) (sel n (diag_indices O k0))) by (rewrite map_length; assumption).
        apply (map_nth (fun v => sel n (diag_indices O v))). }
      rewrite EP. splits; auto.
      + unfold diag_indices. apply filter_seq_sorted.
      + apply sel_rows.
      + apply sel_sel_adj; auto.
      + set (idx := diag_indices O (nth t vs k0)).
        assert (G := HG (nth t vs k0)). fold idx in G.
        repeat split. intros i j Hi Hj. cbn [mmul nrow ncol] in Hi, Hj. cbn in Hi, Hj.
        rewrite sel_sandwich_ent by (auto; split; assumption). cbn.
        destruct (Nat.eqb_spec i j) as [->|Hne].
        * assert (X : In (nth j idx n) idx) by (apply nth_In; assumption).
          apply HI in X. rewrite (proj2 X). cbn. ring.
        * rewrite HD; [cbn; ring| apply good_nth; auto | apply good_nth; auto |].
          intros E. apply Hne. apply (proj1 (NoDup_nth idx n) (proj1 G)); auto.
    - intros Hev. destruct (HU Hev) as [ND HV]. unfold ps. rewrite map_map.
      assert (GM : forall l, meq (msum n (map (fun v => mmul (madj (sel n (diag_indices O v))) (sel n (diag_indices O v))) l))
        (fold_right madd (mzero n n) (map (fun v => mdiag n (fun k => if keq_dec (ent O k k) v then k1 else k0)) l))).
      { induction l as [|v l IH]; [reflexivity|]. unfold msum in *. cbn [map fold_right].
        assert (Sz : forall l, square n (fold_right madd (mzero n n)
          (map (fun v => mmul (madj (sel (K:=K) n (diag_indices O v))) (sel n (diag_indices O v))) l))).
        { intros [|w l']; split; reflexivity. }
        apply madd_meq; auto; apply Sz. }
      rewrite GM. clear GM.
      assert (GE : forall l i j, ent (fold_right madd (mzero n n) (map (fun v => mdiag n (fun k => if keq_dec (ent O k k) v then k1 else k0)) l)) i j
         = if i =? j then kofnat (length (filter (fun v => if keq_dec (ent O i i) v then true else false) l)) else k0).
      { induction l as [|v l IH]; intros i j.
        - cbn. rewrite kofnat_0. destruct (i =? j); reflexivity.
        - cbn [map fold_right madd ent mdiag filter]. rewrite IH. destruct (i =? j).
          + destruct (keq_dec (ent O i i) v); cbn [length]; rewrite ?kofnat_S; ring.
          + ring. }
      assert (SZ : forall l, square n (fold_right madd (mzero n n) (map (fun v => mdiag (K:=K) n (fun k => if keq_dec (ent O k k) v then k1 else k0)) l))).
      { intros [|w l']; split; reflexivity. }
      destruct (SZ vs) as [Z1 Z2]. split; [|split]; auto.
      intros i j Hi Hj. rewrite GE. cbn [meye ent]. destruct (i =? j); [|reflexivity].
      assert (C : length (filter (fun v => if keq_dec (ent O i i) v then true else false) vs) = 1).
      { assert (Hin : In (ent O i i) vs) by (apply HV; exists i; split; [congruence|reflexivity]).
        clear -ND Hin. induction vs as [|v l IH]; [destruct Hin|]. inversion ND; subst. cbn [filter].
        destruct (keq_dec (ent O i i) v) as [->|Hne].
        - cbn. rewrite filter_none; [reflexivity|]. intros x Hx. destruct (keq_dec v x); [subst; contradiction|reflexivity].
        - apply IH; auto. destruct Hin; [congruence|assumption]. }
      rewrite C, kofnat_S, kofnat_0. cbn. ring.
  Qed.

  (** ** C10 *)
  Definition sector_pred (s : sys) (l : list (nat * option nat)) (k : nat) : bool :=
    forallb (fun p => match snd p with
                      | None => true
                      | Some n => occ_species (nlog s) (s_nsites s) k (fst p) =? n
                      end) l.

  Lemma sel_meq_entries n idx (A : mat K) : nrow A = length idx -> ncol A = n ->
    (forall i j, i < length idx -> j < n -> ent A i j = ent (sel n idx) i j) -> meq A (sel n idx).
  Proof. intros H1 H2 H3. repeat split; auto. intros. apply H3; congruence. Qed.

  Lemma n_projector_spec s l :
    two_state s -> s_nsites s <> 0 -> length l = s_nspecies s ->
    exists P, n_projector s (Some l) = Ok P /\
      meq P (sel (nstates s) (filter (sector_pred s (combine (seq 0 (s_nspecies s)) l)) (seq 0 (nstates s)))).
  Proof.
    intros Hb Hn Hl. unfold n_projector. rewrite Hl, Nat.eqb_refl. cbn [negb].
    set (D := nstates s).
    set (I := fun (pre : list (nat * option nat)) (P : mat K) =>
      meq P (sel D (filter (sector_pred s pre) (seq 0 D)))).
    apply (rfold_inv _ I).
    - intros pre [sp o] post run Hsplit HI.
      assert (Hsp : sp < s_nspecies s).
      { assert (X : In (sp, o) (combine (seq 0 (s_nspecies s)) l)) by (rewrite Hsplit; apply in_elt).
        apply in_combine_l in X. apply in_seq in X. lia. }
      destruct o as [n|]; cbn [fst snd].
      + destruct (sum_op_number s sp Hb Hn Hsp) as (N & EN & MN). rewrite EN. cbn [bind].
        pose proof MN as (N1 & N2 & N3). cbn [number_spec nrow ncol] in N1, N2.
        rewrite <- nstates2 in N1, N2 by assumption. fold D in N1, N2.
        set (idx := filter (sector_pred s pre) (seq 0 D)) in *.
        assert (G : good_idx D idx) by apply good_filter.
        unfold I in HI. fold idx in HI. pose proof HI as (R1 & R2 & R3). cbn [sel nrow ncol] in R1, R2.
        unfold cmul at 1. cbn [madj nrow]. rewrite N2, R2, Nat.eqb_refl. cbn [bind].
        unfold cmul at 1. cbn [mmul nrow]. rewrite N1, R2, Nat.eqb_refl. cbn [bind].
        set (d := mmul run (mmul N (madj run))).
        assert (Ed : forall i j, i < length idx -> j < length idx -> ent d i j = ent N (nth i idx D) (nth j idx D)).
        { intros i j Hi Hj.
          assert (M : meq d (mmul (sel D idx) (mmul N (madj (sel D idx))))).
          { unfold d. apply mmul_meq; [cbn; congruence|assumption|].
            apply mmul_meq; [cbn; congruence|reflexivity|]. rewrite HI. reflexivity. }
          destruct M as (_ & _ & M). rewrite M by (cbn; congruence).
          apply sel_sandwich_ent; auto. split; assumption. }
        assert (Sd : nrow d = length idx /\ ncol d = length idx) by (split; cbn; congruence).
        destruct Sd as [Sd1 Sd2].
        unfold subspace_projs. cbn [bind map fst]. rewrite Sd1, Sd2, Nat.min_id.
        assert (EI : diag_indices d (kofnat n) =
           filter (fun i => (fun k => occ_species (nlog s) (s_nsites s) k sp =? n) (nth i idx D)) (seq 0 (length idx))).
        { unfold diag_indices. rewrite Sd1, Sd2, Nat.min_id. apply filter_ext_in. intros i Hi. apply in_seq in Hi.
          rewrite Ed by lia. rewrite N3 by (rewrite ?N1, ?N2; apply good_nth; auto; lia).
          cbn [number_spec ent]. rewrite Nat.eqb_refl.
          apply eq_true_iff_eq. rewrite kneb_false, Nat.eqb_eq. split; intros X; [apply kofnat_inj; exact X|congruence]. }
        rewrite EI. set (idx2 := filter _ (seq 0 (length idx))).
        assert (G2 : good_idx (length idx) idx2) by apply good_filter.
        unfold cmul. cbn [sel ncol]. rewrite R1, Nat.eqb_refl.
        eexists. split; [reflexivity|]. unfold I.
        transitivity (mmul (sel (length idx) idx2) (sel D idx)).
        { apply mmul_meq; [cbn; congruence|reflexivity|assumption]. }
        rewrite sel_sel by assumption. unfold idx2.
        rewrite (filter_map_nth (fun k => occ_species (nlog s) (s_nsites s) k sp =? n) idx D).
        assert (EF : filter (fun k => occ_species (nlog s) (s_nsites s) k sp =? n) idx =
                filter (sector_pred s (pre ++ [(sp, Some n)])) (seq 0 D)).
        { unfold idx, sector_pred. generalize (seq 0 D) as L. induction L as [|x L IHL]; [reflexivity|].
          cbn [filter]. rewrite forallb_app. cbn [forallb fst snd].
          destruct (forallb _ pre); cbn [andb filter];
            [destruct (occ_species _ _ _ _ =? n); cbn [andb]; rewrite IHL; reflexivity|exact IHL]. }
        rewrite EF. reflexivity.
      + exists run. split; [reflexivity|]. unfold I in *. rewrite HI.
        assert (EF : filter (sector_pred s pre) (seq 0 D) = filter (sector_pred s (pre ++ [(sp, None)])) (seq 0 D)).
        { apply filter_ext. intros k. unfold sector_pred. rewrite forallb_app. cbn. rewrite andb_true_r. reflexivity. }
        rewrite EF. reflexivity.
    - unfold I. assert (EF : filter (sector_pred s []) (seq 0 D) = seq 0 D).
      { generalize (seq 0 D) as L. induction L as [|x L IHL]; [reflexivity|]. cbn. rewrite <- IHL at 2. reflexivity. }
      rewrite EF. repeat split; cbn; [rewrite seq_length; reflexivity|].
      intros i j Hi Hj. rewrite seq_nth by assumption. reflexivity.
  Qed.
End Sel.

(** ** Counting: binomial coefficients *)
Definition count (p : nat -> bool) (n : nat) : nat := length (filter p (seq 0 n)).

Lemma count_ext p q n : (forall k, k < n -> p k = q k) -> count p n = count q n.
Proof.
  intros H. unfold count. f_equal. apply filter_ext_in. intros k Hk. apply in_seq in Hk. apply H. lia.
Qed.

Lemma seq_add n m : seq n m = map (fun k => n + k) (seq 0 m).
Proof.
  revert n. induction m as [|m IH]; intros n; simpl; [reflexivity|].
  f_equal; [lia|]. rewrite IH, (IH 1), map_map. apply map_ext. intros. lia.
Qed.

Lemma count_plus p n m : count p (n + m) = count p n + count (fun k => p (n + k)) m.
Proof.
  unfold count. rewrite seq_app, filter_app, app_length. f_equal.
  cbn [Nat.add]. rewrite seq_add, filter_map_length. reflexivity.
Qed.

Lemma count_prod p q B A : B <> 0 ->
  count (fun k => p (k / B) && q (k mod B)) (A * B) = count p A * count q B.
Proof.
  intros HB. induction A as [|A IH]; [reflexivity|].
  rewrite Nat.mul_succ_l, count_plus, IH.
  rewrite (count_ext (fun k => p ((A * B + k) / B) && q ((A * B + k) mod B)) (fun k => p A && q k)).
  2:{ intros k Hk. rewrite Nat.div_add_l, Nat.div_small, Nat.add_0_r by lia.
      rewrite Nat.add_comm, Nat.mod_add, Nat.mod_small by lia. reflexivity. }
  replace (S A) with (A + 1) by lia. rewrite count_plus.
  rewrite (count_ext (fun k => p (A + k)) (fun _ => p A)) by (intros k Hk; f_equal; lia).
  assert (C1 : forall n, count (fun _ => p A) n = if p A then n else 0).
  { intros n. unfold count. destruct (p A).
    - rewrite <- (seq_length n 0) at 2. f_equal. clear. generalize (seq 0 n) as l.
      induction l as [|x l IHl]; simpl; congruence.
    - rewrite filter_none; reflexivity. }
  rewrite C1. destruct (p A); simpl.
  - change (fun k => q k) with q. nia.
  - rewrite Nat.add_0_r. assert (count (fun _ => false) B = 0) as ->.
    { unfold count. rewrite filter_none; [reflexivity|]. reflexivity. }
    lia.
Qed.

Definition popcount (n k : nat) : nat := length (filter (Nat.testbit k) (seq 0 n)).

Lemma popcount_S n k : popcount (S n) k = popcount n k + Nat.b2n (Nat.testbit k n).
Proof.
  unfold popcount. rewrite seq_S, filter_app, app_length. cbn.
  destruct (Nat.testbit k n); reflexivity.
Qed.

Lemma binom_0 n : binom n 0 = 1. Proof. destruct n; reflexivity. Qed.

Lemma count_popcount n k : count (fun x => popcount n x =? k) (2 ^ n) = binom n k.
Proof.
  revert k. induction n as [|n IH]; intros k.
  - destruct k; reflexivity.
  - rewrite Nat.pow_succ_r'. replace (2 * 2 ^ n) with (2 ^ n + 2 ^ n) by lia. rewrite count_plus.
    assert (P : 2 ^ n <> 0) by (apply Nat.pow_nonzero; lia).
    rewrite (count_ext _ (fun x => popcount n x =? k)).
    2:{ intros x Hx. rewrite popcount_S, testbit_high by assumption. cbn. rewrite Nat.add_0_r. reflexivity. }
    rewrite IH.
    assert (Q : forall x, x < 2 ^ n -> popcount (S n) (2 ^ n + x) = S (popcount n x)).
    { intros x Hx. rewrite popcount_S. 
      assert (Nat.testbit (2 ^ n + x) n = true) as ->.
      { pose proof (Nat.testbit_spec' (2 ^ n + x) n) as T.
        replace (2 ^ n + x) with (1 * 2 ^ n + x) in T at 2 by lia.
        rewrite Nat.div_add_l, Nat.div_small in T by assumption.
        destruct (Nat.testbit (2 ^ n + x) n); [reflexivity|discriminate]. }
      cbn. rewrite Nat.add_1_r. f_equal. unfold popcount. f_equal. apply filter_ext_in.
      intros i Hi. apply in_seq in Hi.
      rewrite <- (Nat.mod_pow2_bits_low (2 ^ n + x) n) by lia.
      replace (2 ^ n + x) with (x + 1 * 2 ^ n) by lia. rewrite Nat.mod_add, Nat.mod_small by lia. reflexivity. }
    destruct k as [|k].
    + rewrite (count_ext _ (fun _ => false)) by (intros x Hx; rewrite Q by assumption; reflexivity).
      assert (count (fun _ => false) (2 ^ n) = 0) as ->.
      { unfold count. rewrite filter_none; [reflexivity|]. reflexivity. }
      rewrite binom_0. reflexivity.
    + rewrite (count_ext (fun x => popcount (S n) (2 ^ n + x) =? S k) (fun x => popcount n x =? k))
        by (intros x Hx; rewrite Q by assumption; reflexivity).
      rewrite IH. cbn [binom]. lia.
Qed.

(** Occupation of species [sp] in terms of the bits of the index. *)
Lemma occ_species_popcount ns m sp k : sp < m ->
  occ_species (ns * m) ns k sp = popcount ns (k / 2 ^ (ns * (m - 1 - sp))).
Proof.
  intros Hsp. unfold occ_species, popcount.
  rewrite <- (filter_rev_length _ (seq 0 ns)), seq_rev_map, filter_map_length.
  f_equal. apply filter_ext_in. intros i Hi. apply in_seq in Hi. unfold occ.
  rewrite Nat.div_pow2_bits. f_equal. nia.
Qed.

Lemma popcount_mod n k e : n <= e -> popcount n (k mod 2 ^ e) = popcount n k.
Proof.
  intros H. unfold popcount. f_equal. apply filter_ext_in. intros i Hi. apply in_seq in Hi.
  apply Nat.mod_pow2_bits_low. lia.
Qed.

(** Number of basis states with [n_s] particles of each species. *)
Lemma count_sector ns (l : list nat) :
  count (fun k => forallb (fun p => occ_species (ns * length l) ns k (fst p) =? snd p)
                          (combine (seq 0 (length l)) l)) (2 ^ (ns * length l))
  = fold_right Nat.mul 1 (map (binom ns) l).
Proof.
  induction l as [|n l IH].
  - cbn [length]. rewrite Nat.mul_0_r. reflexivity.
  - cbn [length map fold_right]. rewrite <- IH, <- count_popcount.
    set (m := length l) in *. set (B := 2 ^ (ns * m)).
    replace (2 ^ (ns * S m)) with (2 ^ ns * B).
    2:{ unfold B. rewrite <- Nat.pow_add_r. f_equal. nia. }
    assert (HB : B <> 0) by (apply Nat.pow_nonzero; lia).
    rewrite <- (count_prod (fun x => popcount ns x =? n)
      (fun k => forallb (fun p => occ_species (ns * m) ns k (fst p) =? snd p) (combine (seq 0 m) l)) B (2 ^ ns) HB).
    apply count_ext. intros k Hk. cbn [seq combine forallb fst snd]. f_equal.
    + rewrite occ_species_popcount by lia. replace (S m - 1 - 0) with m by lia. reflexivity.
    + assert (G : forall st l', st + length l' <= m ->
         forallb (fun p => occ_species (ns * S m) ns k (fst p) =? snd p) (combine (seq (S st) (length l')) l') =
         forallb (fun p => occ_species (ns * m) ns (k mod B) (fst p) =? snd p) (combine (seq st (length l')) l')).
      { intros st l'. revert st. induction l' as [|x l' IHl]; intros st Hst; [reflexivity|].
        cbn [length seq combine forallb fst snd]. cbn [length] in Hst. f_equal; [|apply IHl; lia].
        rewrite !occ_species_popcount by lia.
        replace (S m - 1 - S st) with (m - 1 - st) by lia.
        set (e := ns * (m - 1 - st)). unfold B.
        assert (X : popcount ns (k mod 2 ^ (ns * m) / 2 ^ e) = popcount ns (k / 2 ^ e)); [|rewrite X; reflexivity].
        unfold popcount. f_equal. apply filter_ext_in. intros i Hi. apply in_seq in Hi.
        rewrite !Nat.div_pow2_bits. apply Nat.mod_pow2_bits_low. unfold e. nia. }
      apply G. cbn. lia.
Qed.
