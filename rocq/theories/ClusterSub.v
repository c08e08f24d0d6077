(** The enumeration of the connected sub-clusters of a geometry. *)
From Coq Require Import List Arith Lia ZArith QArith Permutation Sorting Bool.
From Verif Require Import Res Matrix ModelGeometry ModelNlce SpecCluster GeoArith ClusterSets ClusterRep ClusterSym ClusterAll.
Import ListNotations.
Local Open Scope nat_scope.

Lemma first_true_none l : first_true l = None <-> ~ In true l.
Proof.
  induction l as [|b l IH]; cbn [first_true In]; [tauto|]. destruct b; [split; [discriminate|intros H; destruct H; left; reflexivity]|].
  destruct (first_true l); split; intros H; try discriminate; try (intros [E|E]; [discriminate|]; apply IH in E; [exact E|reflexivity]).
  - exfalso. assert (~ In true l) by (intros E; apply H; right; exact E). apply IH in H0. discriminate.
  - reflexivity.
Qed.
Lemma first_true_some l k : first_true l = Some k -> k < length l /\ nth k l false = true /\ forall j, j < k -> nth j l false = false.
Proof.
  revert k. induction l as [|b l IH]; intros k H; cbn [first_true] in H; [discriminate|]. destruct b.
  - injection H as <-. cbn. split; [lia|]. split; [reflexivity|]. lia.
  - destruct (first_true l) as [j|]; [|discriminate]. injection H as <-. destruct (IH j eq_refl) as (A & B & C). cbn. split; [lia|]. split; [exact B|].
    intros [|i] Hi; [reflexivity|]. apply C. lia.
Qed.
Lemma append_at_length {A} k (x : A) l : length (append_at k x l) = length l.
Proof. revert k. induction l as [|y l IH]; intros [|k]; cbn; auto. Qed.
Lemma append_at_nth {A} k (x : A) l j : k < length l -> nth j (append_at k x l) [] = if Nat.eq_dec j k then nth j l [] ++ [x] else nth j l [].
Proof.
  revert k j. induction l as [|y l IH]; intros k j Hk; cbn [length] in Hk; [lia|]. destruct k as [|k], j as [|j]; cbn [append_at nth]; try reflexivity.
  - rewrite IH by lia. destruct (Nat.eq_dec j k), (Nat.eq_dec (S j) (S k)); try reflexivity; lia.
Qed.
Lemma insert_num_in x l y : In y (insert_num x l) <-> y = x \/ In y l.
Proof.
  induction l as [|z l IH]; cbn [insert_num]; [cbn; intuition|]. destruct (x <? z); [cbn; intuition|].
  destruct (Nat.eqb_spec x z) as [->|]; cbn [In]; [intuition|]. rewrite IH. intuition.
Qed.
Lemma insert_num_sorted x l : StronglySorted lt l -> StronglySorted lt (insert_num x l).
Proof.
  induction 1 as [|z l S IH F]; cbn [insert_num]; [repeat constructor|]. rewrite Forall_forall in F. destruct (Nat.ltb_spec x z).
  - constructor; [constructor; [exact S|apply Forall_forall; exact F]|]. apply Forall_forall. intros y [<-|Hy]; [exact H|]. apply F in Hy. lia.
  - destruct (Nat.eqb_spec x z); [constructor; [exact S|apply Forall_forall; exact F]|]. constructor; [exact IH|]. apply Forall_forall. intros y Hy.
    apply insert_num_in in Hy as [->|Hy]; [lia|]. apply F, Hy.
Qed.
Lemma sorted_set_ok l : StronglySorted lt (sorted_set l) /\ forall y, In y (sorted_set l) <-> In y l.
Proof.
  unfold sorted_set. induction l as [|x l [S H]]; cbn [fold_right]; [split; [constructor|intros; reflexivity]|].
  split; [apply insert_num_sorted; exact S|]. intros y. rewrite insert_num_in, H. cbn. intuition.
Qed.

Lemma incl_or_not (l m : list pt) : {incl l m} + {~ incl l m}.
Proof.
  destruct (forallb (fun x => if in_dec pt_dec x m then true else false) l) eqn:E.
  - left. intros x Hx. rewrite forallb_forall in E. specialize (E x Hx). destruct (in_dec pt_dec x m); [assumption|discriminate].
  - right. intros H. assert (forallb (fun x => if in_dec pt_dec x m then true else false) l = true); [|congruence].
    apply forallb_forall. intros x Hx. destruct (in_dec pt_dec x m) as [|N]; [reflexivity|destruct N; apply H, Hx].
Qed.

Lemma nth_snoc {A} (l : list A) x a d : a < length l + 1 -> a < length l /\ nth a (l ++ [x]) d = nth a l d \/ a = length l /\ nth a (l ++ [x]) d = x.
Proof.
  intros Hk. destruct (Nat.lt_ge_cases a (length l)); [left; split; [|apply app_nth1]; assumption|].
  right. assert (a = length l) by lia. subst. split; [reflexivity|]. apply nth_middle.
Qed.


Section Sub.
  Context {Ph : Type} (parent : geometry Ph) (P : list pt).
  Hypothesis (Hat : at_sites parent P) (HP : NoDup P) (Hn : g_n parent = length P).
  Hypothesis Hsym : forall j k, j < length P -> k < length P -> (ent (g_adj parent) j k == 1 -> ent (g_adj parent) k j == 1)%Q.
  Notation adj := (neighbours parent P).

  Lemma adj_sym p q : adj p q -> adj q p.
  Proof. intros (j & k & Hj & Hk & <- & <- & H). exists k, j. repeat split; auto. Qed.
  Lemma parent_coords : coords parent = map inj P.
  Proof.
    destruct Hat as [Ex Ey]. unfold coords. rewrite Ex, Ey. clear. induction P as [|p l IH]; [reflexivity|]. cbn [map combine]. rewrite IH. reflexivity.
  Qed.
  Lemma parent_index p : In p P -> exists j, first_true (map (fun w => vec_eqb w (inj p)) (coords parent)) = Some j /\ j < length P /\ nth j P (0, 0)%Z = p.
  Proof.
    intros Hp. rewrite parent_coords, map_map. destruct (first_true _) as [j|] eqn:E.
    - exists j. split; [reflexivity|]. apply first_true_some in E as (A & B & _). rewrite map_length in A. split; [exact A|].
      rewrite (nth_indep _ false (vec_eqb (inj (0, 0)%Z) (inj p))) in B by (rewrite map_length; exact A).
      rewrite (map_nth (fun x => vec_eqb (inj x) (inj p))) in B. apply vec_eqb_inj in B. exact B.
    - apply first_true_none in E. destruct E. apply in_map_iff. exists p. split; [apply vec_eqb_inj; reflexivity|exact Hp].
  Qed.

  (** ** One order *)
  Record sublisted (cands : list (nat * list pt)) (acc : list cluster_geom * list (list nat)) (ls : list (list pt)) : Prop := {
    sl_cl : Forall2 cluster (fst acc) ls;
    sl_len : length (snd acc) = length ls;
    sl_ap : apart same_set ls;
    sl_from : forall l, In l ls -> exists ic, In ic cands /\ Permutation (snd ic) l;
    sl_all : forall ic, In ic cands -> exists l, In l ls /\ same_set (snd ic) l;
    sl_in : forall a i, a < length ls -> (In i (nth a (snd acc) []) <-> exists c, In (i, c) cands /\ same_set c (nth a ls [])) }.
  Lemma sublisted_nil : sublisted [] ([], []) [].
  Proof. constructor; cbn; [constructor|reflexivity|apply apart_nil|intros ? []|intros ? []|intros; lia]. Qed.


  Lemma add_subcluster_ok i cands acc ls c : sublisted cands acc ls -> c <> [] -> NoDup c ->
    exists acc' ls', add_subcluster i acc (map inj c) = Ok acc' /\ sublisted (cands ++ [(i, c)]) acc' ls'.
  Proof.
    intros [F L A H1 H2 H3] Hne Hnd. unfold add_subcluster. destruct (sorted_cluster_ok c Hne Hnd) as (g & m & -> & C & Pm). cbn [bind].
    destruct (rmap_decides (fun h => geometry_eqb g h) cluster (same_set m) (fst acc) ls F) as (es & -> & Les & D).
    { intros h l Ch. apply geometry_eqb_ok; assumption. }
    cbn [bind]. assert (Scm : same_set c m) by (apply perm_same_set; exact Pm).
    destruct (first_true es) as [k|] eqn:E.
    - apply first_true_some in E as (Hk & Ek & _). rewrite Les in Hk. apply (D k []) in Ek; [|exact Hk].
      assert (Sck : same_set c (nth k ls [])) by (apply (same_trans _ m); assumption).
      eexists. exists ls. split; [reflexivity|]. constructor; cbn [fst snd]; auto.
      + rewrite append_at_length. exact L.
      + intros l Hl. destruct (H1 l Hl) as (c' & Hc & P'). exists c'. split; [apply in_or_app; left; exact Hc|exact P'].
      + intros c' Hc. apply in_app_or in Hc as [Hc|[<-|[]]]; [apply H2; exact Hc|]. exists (nth k ls []). split; [apply nth_In; exact Hk|exact Sck].
      + intros a j Ha. rewrite append_at_nth by lia. specialize (H3 a j Ha). destruct (Nat.eq_dec a k) as [->|Hak].
        * rewrite in_app_iff, H3. cbn [In]. split.
          -- intros [(c' & Hc & S)|[<-|[]]]; [exists c'; split; [apply in_or_app; left; exact Hc|exact S]|].
             exists c. split; [apply in_or_app; right; left; reflexivity|exact Sck].
          -- intros (c' & Hc & S). apply in_app_or in Hc as [Hc|[Hc|[]]]; [left; exists c'; auto|]. injection Hc as -> _. right. left. reflexivity.
        * rewrite H3. split; intros (c' & Hc & S).
          -- exists c'. split; [apply in_or_app; left; exact Hc|exact S].
          -- apply in_app_or in Hc as [Hc|[Hc|[]]]; [exists c'; auto|]. injection Hc as _ ->. destruct Hak. apply A; auto.
             apply (same_trans _ c'); [apply same_sym; exact S|exact Sck].
    - apply first_true_none in E.
      assert (N : forall l, In l ls -> ~ same_set m l).
      { intros l Hl S. apply E. apply (In_nth _ _ []) in Hl as (k & Hk & El). rewrite <- El in S. apply (D k [] Hk) in S. rewrite <- S. apply nth_In. lia. }
      assert (B : length (snd acc) = length ls) by exact L.
      eexists. exists (ls ++ [m]). split; [reflexivity|]. constructor; cbn [fst snd].
      + apply Forall2_snoc; assumption.
      + rewrite !app_length. cbn. lia.
      + apply apart_snoc; [intros x y; apply same_sym|exact A|]. intros l Hl S. apply (N l Hl), same_sym, S.
      + intros l Hl. apply in_app_or in Hl as [Hl|[<-|[]]].
        * destruct (H1 l Hl) as (c' & Hc & P'). exists c'. split; [apply in_or_app; left; exact Hc|exact P'].
        * exists (i, c). split; [apply in_or_app; right; left; reflexivity|exact Pm].
      + intros c' Hc. apply in_app_or in Hc as [Hc|[<-|[]]].
        * destruct (H2 c' Hc) as (l & Hl & Hm). exists l. split; [apply in_or_app; left; exact Hl|exact Hm].
        * exists m. split; [apply in_or_app; right; left; reflexivity|exact Scm].
      + intros a j Ha. rewrite app_length in Ha. cbn in Ha.
        destruct (nth_snoc ls m a [] Ha) as [[A1 ->]|[A1 ->]].
        * rewrite app_nth1 by lia. rewrite (H3 a j A1). split; intros (c' & Hc & S).
          -- exists c'. split; [apply in_or_app; left; exact Hc|exact S].
          -- apply in_app_or in Hc as [Hc|[Hc|[]]]; [exists c'; auto|]. injection Hc as _ ->. exfalso. apply (N (nth a ls [])); [apply nth_In; exact A1|].
             apply (same_trans _ c'); [apply same_sym; exact Scm|exact S].
        * subst a. rewrite <- B, nth_middle. cbn [In]. split.
          -- intros [<-|[]]. exists c. split; [apply in_or_app; right; left; reflexivity|exact Scm].
          -- intros (c' & Hc & S). apply in_app_or in Hc as [Hc|[Hc|[]]]; [|injection Hc as -> _; left; reflexivity].
             exfalso. destruct (H2 (j, c') Hc) as (l & Hl & S'). cbn [snd] in S'. apply (N l Hl). apply (same_trans _ c'); [apply same_sym; exact S|exact S'].
  Qed.

  Definition subcands_at (l : list pt) (v : pt) (kk : nat) : list (list pt) :=
    match first_true (map (fun w => vec_eqb w (inj v)) (coords parent)) with
    | None => []
    | Some jj => let q := nth kk P (0, 0)%Z in
      if Qeq_bool (ent (g_adj parent) jj kk) 1 then if in_dec pt_dec q l then [] else [l ++ [q]] else []
    end.
  Definition subcands_of (il : nat * list pt) : list (nat * list pt) :=
    map (pair (fst il)) (flat_map (fun v => flat_map (subcands_at (snd il) v) (seq 0 (length P))) (snd il)).
  Lemma in_subcands i l c : incl l P -> 
    (In c (subcands_of (i, l)) <-> fst c = i /\ exists p q, In p l /\ adj p q /\ ~ In q l /\ snd c = l ++ [q]).
  Proof.
    intros Hl. unfold subcands_of. cbn [fst snd]. rewrite in_map_iff. split.
    - intros (x & <- & H). cbn [fst snd]. split; [reflexivity|]. apply in_flat_map in H as (p & Hp & H). apply in_flat_map in H as (k & Hk & H).
      apply in_seq in Hk. unfold subcands_at in H. destruct (parent_index p (Hl p Hp)) as (j & Ej & Hj & Np). rewrite Ej in H. cbv zeta in H.
      destruct (Qeq_bool (ent (g_adj parent) j k) 1) eqn:Ea; [|destruct H]. destruct (in_dec pt_dec _ l) as [Hi|Hi]; [destruct H|]. destruct H as [<-|[]].
      exists p, (nth k P (0, 0)%Z). split; [exact Hp|]. split; [|auto]. exists j, k. split; [exact Hj|]. split; [lia|]. split; [exact Np|]. split; [reflexivity|].
      apply Qeq_bool_iff. exact Ea.
    - intros (E & p & q & Hp & (j & k & Hj & Hk & Ep & Eq & Ea) & Hq & Ec). exists (l ++ [q]). split; [destruct c; cbn in *; subst; reflexivity|].
      apply in_flat_map. exists p. split; [exact Hp|]. apply in_flat_map. exists k. split; [apply in_seq; lia|].
      unfold subcands_at. destruct (parent_index p (Hl p Hp)) as (j' & Ej & Hj' & Np). rewrite Ej. cbv zeta.
      assert (j' = j). { apply (proj1 (NoDup_nth P (0, 0)%Z) HP); auto. rewrite Np, Ep. reflexivity. }
      subst j'. rewrite (proj2 (Qeq_bool_iff _ _) Ea), Eq. destruct (in_dec pt_dec q l); [contradiction|left; reflexivity].
  Qed.

  Lemma next_subclusters_ok cl ls : Forall2 cluster cl ls -> (forall l, In l ls -> incl l P) ->
    exists acc ls', next_subclusters parent (Some cl) = Ok acc /\ sublisted (flat_map subcands_of (combine (seq 0 (length ls)) ls)) acc ls'.
  Proof.
    intros F HI. cbn [next_subclusters]. rewrite Hn.
    set (outer := fun acc ic => _).
    assert (G : forall s base acc ls0, sublisted base acc ls0 ->
      exists acc' ls', rfold outer (combine (seq s (length cl)) cl) acc = Ok acc' /\
        sublisted (base ++ flat_map subcands_of (combine (seq s (length ls)) ls)) acc' ls').
    2:{ exact (G 0 [] ([], []) [] sublisted_nil). }
    induction F as [|g l cl ls C F IH]; intros s base acc ls0 H0; cbn [length seq combine rfold flat_map].
    { exists acc, ls0. rewrite app_nil_r. auto. }
    unfold outer at 1. rewrite (rep_coords _ _ (cl_rep _ _ C)). cbv zeta.
    set (inner := fun acc v => _).
    assert (HlP : incl l P) by (apply HI; left; reflexivity).
    assert (K : forall vs base acc ls0, incl vs l -> sublisted base acc ls0 ->
      exists acc' ls', rfold inner (map inj vs) acc = Ok acc' /\
        sublisted (base ++ map (pair s) (flat_map (fun v => flat_map (subcands_at l v) (seq 0 (length P))) vs)) acc' ls').
    { clear base acc ls0 H0. induction vs as [|v vs IHv]; intros base acc ls0 Hi H0; cbn [map rfold flat_map].
      { exists acc, ls0. rewrite app_nil_r. auto. }
      unfold inner at 1. destruct (parent_index v (HlP v (Hi v (or_introl eq_refl)))) as (jj & Ejj & Hjj & Nv). rewrite Ejj.
      set (most := fun acc kk => _).
      assert (J : forall ks base acc ls0, (forall k, In k ks -> k < length P) -> sublisted base acc ls0 ->
        exists acc' ls', rfold most ks acc = Ok acc' /\ sublisted (base ++ map (pair s) (flat_map (subcands_at l v) ks)) acc' ls').
      { clear base acc ls0 H0. induction ks as [|k ks IHk]; intros base acc ls0 Hks H0; cbn [map rfold flat_map].
        { exists acc, ls0. rewrite app_nil_r. auto. }
        unfold most at 1.
        assert (Nk : nth k (coords parent) vzero = inj (nth k P (0, 0)%Z)) by (rewrite parent_coords; exact (map_nth inj P (0, 0)%Z k)).
        rewrite Nk. unfold subcands_at at 1. rewrite Ejj. cbv zeta.
        assert (R : forall acc1 ls1 more, sublisted (base ++ map (pair s) more) acc1 ls1 ->
          exists acc' ls', rfold most ks acc1 = Ok acc' /\ sublisted (base ++ map (pair s) (more ++ flat_map (subcands_at l v) ks)) acc' ls').
        { intros acc1 ls1 more H1. destruct (IHk _ _ _ (fun x Hx => Hks x (or_intror Hx)) H1) as (acc2 & ls2 & E2 & H2).
          exists acc2, ls2. split; [exact E2|]. rewrite map_app, app_assoc. exact H2. }
        destruct (Qeq_bool (ent (g_adj parent) jj k) 1); cbn [andb].
        2:{ cbn [bind]. apply (R acc ls0 []). cbn [map]. rewrite app_nil_r. exact H0. }
        destruct (in_dec pt_dec (nth k P (0, 0)%Z) l) as [Hin|Hin].
        - rewrite (proj2 (is_among_inj _ _) Hin). cbn [negb bind]. apply (R acc ls0 []). cbn [map]. rewrite app_nil_r. exact H0.
        - destruct (is_among (inj (nth k P (0, 0)%Z)) (map inj l)) eqn:E; [apply is_among_inj in E; contradiction|]. cbn [negb].
          change [inj (nth k P (0, 0)%Z)] with (map inj [nth k P (0, 0)%Z]). rewrite <- map_app.
          destruct (add_subcluster_ok s base acc ls0 (l ++ [nth k P (0, 0)%Z]) H0) as (acc1 & ls1 & -> & H1).
          { destruct l; discriminate. }
          { apply (Permutation_NoDup (l := nth k P (0, 0)%Z :: l)); [apply Permutation_cons_append|constructor; [exact Hin|exact (cl_nd _ _ C)]]. }
          cbn [bind]. apply (R acc1 ls1 [l ++ [nth k P (0, 0)%Z]]). exact H1. }
      destruct (J (seq 0 (length P)) base acc ls0) as (acc1 & ls1 & -> & H1); [intros k Hk; apply in_seq in Hk; lia|exact H0|]. cbn [bind].
      destruct (IHv _ _ _ (fun x Hx => Hi x (or_intror Hx)) H1) as (acc2 & ls2 & E2 & H2). exists acc2, ls2. split; [exact E2|].
      rewrite map_app, app_assoc. exact H2. }
    destruct (K l base acc ls0 (incl_refl _) H0) as (acc1 & ls1 & -> & H1). cbn [bind].
    destruct (IH (fun x Hx => HI x (or_intror Hx)) (S s) _ _ _ H1) as (acc2 & ls2 & E2 & H2). exists acc2, ls2. split; [exact E2|].
    rewrite <- app_assoc in H2. exact H2.
  Qed.

  (** ** Levels *)
  Definition sublevel (k : nat) (L : list (list pt)) : Prop :=
    (forall l, In l L -> connected adj l /\ incl l P /\ length l = k) /\ apart same_set L /\
    (forall l, connected adj l -> incl l P -> length l = k -> exists m, In m L /\ same_set l m).

  Lemma in_subcands_all ls ic : (forall l, In l ls -> incl l P) ->
    (In ic (flat_map subcands_of (combine (seq 0 (length ls)) ls)) <->
     fst ic < length ls /\ exists p q, In p (nth (fst ic) ls []) /\ adj p q /\ ~ In q (nth (fst ic) ls []) /\ snd ic = nth (fst ic) ls [] ++ [q]).
  Proof.
    intros HI. rewrite in_flat_map.
    assert (X : forall i l, In (i, l) (combine (seq 0 (length ls)) ls) <-> i < length ls /\ l = nth i ls []).
    { intros i l. split.
      - intros H. apply (In_nth _ _ (0, [])) in H as (k & Hk & E). rewrite combine_length, seq_length, Nat.min_id in Hk.
        rewrite combine_nth in E by apply seq_length. rewrite seq_nth in E by exact Hk. injection E as <- <-. auto.
      - intros [Hi ->]. replace (i, nth i ls []) with (nth i (combine (seq 0 (length ls)) ls) (0, [])).
        + apply nth_In. rewrite combine_length, seq_length, Nat.min_id. exact Hi.
        + rewrite combine_nth by apply seq_length. rewrite seq_nth by exact Hi. reflexivity. }
    split.
    - intros ([i l] & Hil & H). apply X in Hil as [Hi ->]. apply in_subcands in H as [E H]; [|apply HI, nth_In, Hi]. subst i. auto.
    - intros [Hi H]. exists (fst ic, nth (fst ic) ls []). split; [apply X; auto|]. apply in_subcands; [apply HI, nth_In, Hi|]. auto.
  Qed.

  Lemma adj_in p q : adj p q -> In q P.
  Proof. intros (j & k & Hj & Hk & _ & <- & _). apply nth_In. exact Hk. Qed.

  (** A connected set with one site more than a connected part is a neighbouring site away from it. *)
  Lemma one_more l m : connected adj l -> connected adj m -> incl l m -> length m = S (length l) ->
    exists p q, In p l /\ adj p q /\ ~ In q l /\ same_set (l ++ [q]) m.
  Proof.
    intros Cl Cm Hi Hlen.
    assert (PP : proper_part l m). { split; [exact Hi|]. intros H. apply NoDup_incl_length in H; [lia|apply Cm]. }
    destruct (grow_one pt_dec adj m l adj_sym Cm Cl PP) as (a & b & Ha & Hb & Hnb & Hab & Cb).
    exists a, b. split; [exact Ha|]. split; [exact Hab|]. split; [exact Hnb|].
    assert (I : incl (l ++ [b]) m). { intros x Hx. apply in_app_or in Hx as [Hx|[<-|[]]]; [apply Hi; exact Hx|exact Hb]. }
    intros x. split; [apply I|]. apply NoDup_length_incl; [apply Cb|rewrite app_length; cbn; lia|exact I].
  Qed.

  Lemma sublevel_next k L acc L' : 1 <= k -> sublevel k L ->
    sublisted (flat_map subcands_of (combine (seq 0 (length L)) L)) acc L' ->
    sublevel (S k) L' /\ forall a i, a < length L' -> (In i (nth a (snd acc) []) <-> i < length L /\ incl (nth i L []) (nth a L' [])).
  Proof.
    intros Hk (H1 & H2 & H3) [F LA A G1 G2 G3].
    assert (HI : forall l, In l L -> incl l P) by (intros l Hl; apply H1, Hl).
    assert (SL : sublevel (S k) L').
    { split; [|split; [exact A|]].
      - intros l Hl. destruct (G1 l Hl) as (ic & Hc & Pm). apply (in_subcands_all L ic HI) in Hc as (Hi & p & q & Hp & Ha & Hq & E). rewrite E in Pm.
        destruct (H1 _ (nth_In _ [] Hi)) as (Cm & Im & Lm).
        pose proof (connected_add adj _ p q adj_sym Cm Hp Ha Hq) as CA. split; [|split].
        + apply (connected_same adj (nth (fst ic) L [] ++ [q])); [apply perm_same_set; exact Pm|apply (Permutation_NoDup Pm), CA|exact CA].
        + intros x Hx. apply (Permutation_in _ (Permutation_sym Pm)) in Hx. apply in_app_or in Hx as [Hx|[<-|[]]]; [apply Im; exact Hx|]. apply (adj_in p). exact Ha.
        + rewrite <- (Permutation_length Pm), app_length. cbn. lia.
      - intros l Cl Il Ll. destruct l as [|p l]; [discriminate|]. cbn in Ll.
        assert (PP : proper_part [p] (p :: l)).
        { split; [intros x [<-|[]]; left; reflexivity|]. intros Hi. apply NoDup_incl_length in Hi; [cbn in Hi; lia|apply Cl]. }
        destruct (shrink pt_dec adj (p :: l) [p] adj_sym Cl (connected_one adj p) PP) as (S' & a & b & CS & _ & Ha & Hb & Hab & Pm).
        assert (LS : length S' = k). { apply Permutation_length in Pm. rewrite app_length in Pm. cbn in Pm. lia. }
        assert (IS : incl S' P). { intros x Hx. apply Il. apply (Permutation_in _ (Permutation_sym Pm)). apply in_or_app. left. exact Hx. }
        destruct (H3 S' CS IS LS) as (m & Hm & Sm). apply (In_nth _ _ []) in Hm as (i & Hi & Em). subst m.
        assert (Hc : In (i, nth i L [] ++ [b]) (flat_map subcands_of (combine (seq 0 (length L)) L))).
        { apply (in_subcands_all L _ HI). cbn [fst snd]. split; [exact Hi|]. exists a, b. split; [apply Sm; exact Ha|]. split; [exact Hab|].
          split; [intros H; apply Hb, Sm, H|reflexivity]. }
        destruct (G2 _ Hc) as (l' & Hl' & K'). exists l'. split; [exact Hl'|]. cbn [snd] in K'. apply (same_trans _ (nth i L [] ++ [b])); [|exact K'].
        apply (same_trans _ (S' ++ [b])); [apply perm_same_set; exact Pm|]. apply same_app; [exact Sm|apply same_refl]. }
    split; [exact SL|]. intros a i Ha. rewrite (G3 a i Ha). split.
    - intros (c & Hc & S). apply (in_subcands_all L (i, c) HI) in Hc as (Hi & p & q & _ & _ & _ & E). cbn [fst snd] in *. split; [exact Hi|].
      intros x Hx. apply S. rewrite E. apply in_or_app. left. exact Hx.
    - intros [Hi I]. destruct (H1 _ (nth_In _ [] Hi)) as (Cm & Im & Lm). destruct (proj1 SL _ (nth_In _ [] Ha)) as (Cl & Il & Ll).
      destruct (one_more _ _ Cm Cl I ltac:(lia)) as (p & q & Hp & Hpq & Hq & E). exists (nth i L [] ++ [q]). split; [|exact E].
      apply (in_subcands_all L _ HI). cbn [fst snd]. split; [exact Hi|]. exists p, q. auto.
  Qed.

  (** ** Indices of contained clusters *)

  Lemma rmap_nth_error {A} (inds : list (list A)) c0 : (forall c, In c c0 -> c < length inds) ->
    rmap (fun ci => match nth_error inds ci with Some l => Ok l | None => Raise IndexError end) c0 = Ok (map (fun c => nth c inds []) c0).
  Proof.
    induction c0 as [|c c0 IH]; intros H; cbn [rmap map]; [reflexivity|]. rewrite (nth_error_nth' inds []) by (apply H; left; reflexivity).
    cbn [bind]. rewrite IH; [reflexivity|]. intros; apply H; right; assumption.
  Qed.
  Lemma contained_indices_ok prev inds c : (forall i, In i c -> i + prev < length inds) ->
    exists r, contained_indices prev inds c = Ok r /\ StronglySorted lt r /\
      forall b, In b r <-> exists i, In i c /\ (b = i + prev \/ In b (nth (i + prev) inds [])).
  Proof.
    intros H. unfold contained_indices. destruct c as [|c0 cs].
    - exists []. split; [reflexivity|]. split; [constructor|]. intros b. split; [intros []|intros (i & [] & _)].
    - cbv zeta. rewrite rmap_nth_error.
      + cbn [bind]. set (all := _ ++ _). destruct (sorted_set_ok all) as [S I]. eexists. split; [reflexivity|]. split; [exact S|].
        intros b. rewrite I. unfold all. rewrite in_app_iff, in_map_iff, in_concat. split.
        * intros [(i & <- & Hi)|(x & Hx & Hb)]; [exists i; auto|]. rewrite map_map in Hx. apply in_map_iff in Hx as (i & <- & Hi). exists i. auto.
        * intros (i & Hi & [->|Hb]); [left; exists i; auto|]. right. exists (nth (i + prev) inds []). split; [|exact Hb].
          rewrite map_map. apply in_map_iff. exists i. auto.
      + intros x Hx. apply in_map_iff in Hx as (i & <- & Hi). apply H. exact Hi.
  Qed.

  (** The levels up to [k] and the ones before the last one. *)
  Definition levels_upto (LL : list (list (list pt))) : Prop := forall k, k < length LL -> sublevel (S k) (nth k LL []).

  Lemma all_same LL a b : levels_upto LL -> a < length (concat LL) -> b < length (concat LL) ->
    same_set (nth a (concat LL) []) (nth b (concat LL) []) -> a = b.
  Proof.
    intros H Ha Hb K. destruct (concat_split LL a Ha) as (ka & ja & Hka & Hja & Ea). destruct (concat_split LL b Hb) as (kb & jb & Hkb & Hjb & Eb).
    destruct (concat_at LL ka ja [] Hka Hja) as [_ Na]. destruct (concat_at LL kb jb [] Hkb Hjb) as [_ Nb].
    rewrite Ea, Eb, Na, Nb in K.
    destruct (proj1 (H ka Hka) _ (nth_In _ [] Hja)) as (Ca & Ia & La). destruct (proj1 (H kb Hkb) _ (nth_In _ [] Hjb)) as (Cb & Ib & Lb).
    assert (ka = kb). { pose proof (same_length _ _ (proj1 (proj2 Ca)) (proj1 (proj2 Cb)) K). lia. }
    subst kb. assert (ja = jb) by (apply (proj1 (proj2 (H ka Hka))); assumption). congruence.
  Qed.
  Lemma all_in LL a : levels_upto LL -> a < length (concat LL) ->
    connected adj (nth a (concat LL) []) /\ incl (nth a (concat LL) []) P /\ length (nth a (concat LL) []) <= length LL.
  Proof.
    intros H Ha. destruct (concat_split LL a Ha) as (ka & ja & Hka & Hja & Ea). destruct (concat_at LL ka ja [] Hka Hja) as [_ Na].
    rewrite Ea, Na. destruct (proj1 (H ka Hka) _ (nth_In _ [] Hja)) as (Ca & Ia & La). repeat split; auto; try apply Ca. lia.
  Qed.
  Lemma all_find LL l : levels_upto LL -> connected adj l -> incl l P -> length l <= length LL ->
    exists a, length (concat (firstn (length l - 1) LL)) <= a /\ a < length (concat (firstn (length l) LL)) /\ a < length (concat LL) /\ same_set l (nth a (concat LL) []).
  Proof.
    intros H Cl Il Ll. assert (1 <= length l) by (destruct l; [destruct Cl; congruence|cbn; lia]).
    destruct (H (length l - 1) ltac:(lia)) as (_ & _ & G). destruct (G l Cl Il ltac:(lia)) as (m & Hm & K).
    apply (In_nth _ _ []) in Hm as (j & Hj & Em). destruct (concat_at LL (length l - 1) j [] ltac:(lia) Hj) as [B1 B2].
    exists (length (concat (firstn (length l - 1) LL)) + j). split; [lia|]. split; [|split; [exact B1|rewrite B2, Em; exact K]].
    replace (length l) with (S (length l - 1)) at 2 by lia. rewrite firstn_S_nth by lia. rewrite concat_app, app_length. cbn [concat]. rewrite app_nil_r. lia.
  Qed.

  (** Adding the indices of one more level. *)
  Lemma add_indices LL N contained inds : levels_upto (LL ++ [N]) -> indices_ok (concat LL) inds ->
    length contained = length N ->
    (forall a i, a < length N -> (In i (nth a contained []) <-> i < length (last LL []) /\ incl (nth i (last LL []) []) (nth a N []))) ->
    exists inds', rfold (fun inds c => ci <- contained_indices (length (concat (removelast LL))) inds c ;; Ok (inds ++ [ci])) contained inds = Ok inds' /\
      indices_ok (concat (LL ++ [N])) inds'.
  Proof.
    intros HL [LI HI] LC HC.
    assert (HL0 : levels_upto LL).
    { intros k Hk. specialize (HL k). rewrite app_nth1 in HL by exact Hk. apply HL. rewrite app_length. lia. }
    set (prev := length (concat (removelast LL))).
    assert (EC : concat (LL ++ [N]) = concat LL ++ N) by (rewrite concat_app; cbn [concat]; rewrite app_nil_r; reflexivity).
    assert (LP : LL <> [] -> prev + length (last LL []) = length (concat LL) /\ forall i, i < length (last LL []) -> nth (i + prev) (concat LL) [] = nth i (last LL []) []).
    { intros Hne. pose proof (app_removelast_last [] Hne) as E. unfold prev. split.
      - rewrite E at 3. rewrite concat_app, app_length. cbn [concat]. rewrite app_nil_r. reflexivity.
      - intros i Hi. rewrite E at 2. rewrite concat_app. cbn [concat]. rewrite app_nil_r. rewrite app_nth2 by lia. f_equal. lia. }
    assert (K : forall done todo inds0, contained = done ++ todo ->
      length inds0 = length (concat LL) + length done ->
      (forall a, a < length inds0 -> StronglySorted lt (nth a inds0 []) /\ forall b, In b (nth a inds0 []) <-> part_of (concat LL ++ N) a b) ->
      exists inds', rfold (fun inds c => ci <- contained_indices prev inds c ;; Ok (inds ++ [ci])) todo inds0 = Ok inds' /\ indices_ok (concat LL ++ N) inds').
    { intros done todo. revert done. induction todo as [|c todo IH]; intros done inds0 Ec L0 H0; cbn [rfold].
      - exists inds0. split; [reflexivity|]. rewrite app_nil_r in Ec. subst done. split; [rewrite app_length; lia|].
        intros a Ha. rewrite app_length in Ha. apply H0. lia.
      - set (a := length done). assert (Ha : a < length N) by (subst a; rewrite <- LC, Ec, app_length; cbn; lia).
        assert (Eca : nth a contained [] = c) by (rewrite Ec; apply nth_middle).
        specialize (HC a). rewrite Eca in HC.
        assert (Hcb : forall i, In i c -> LL <> [] /\ i < length (last LL []) /\ i + prev < length (concat LL)).
        { intros i Hi. apply HC in Hi as [Hi _]; [|exact Ha]. assert (LL <> []) by (intros ->; cbn in Hi; lia).
          split; [assumption|]. split; [exact Hi|]. destruct (LP H). lia. }
        destruct (contained_indices_ok prev inds0 c) as (r & -> & Sr & Ir).
        { intros i Hi. destruct (Hcb i Hi) as (_ & _ & ?). lia. }
        cbn [bind]. apply (IH (done ++ [c])).
        { rewrite <- app_assoc. exact Ec. }
        { rewrite !app_length. cbn. lia. }
        intros x Hx. rewrite app_length in Hx. cbn [length] in Hx. destruct (nth_snoc inds0 r x [] Hx) as [[X1 ->]|[X1 ->]]; [apply H0; exact X1|].
        split; [exact Sr|]. intros b. rewrite Ir.
        assert (Xa : nth x (concat LL ++ N) [] = nth a N []). { rewrite app_nth2 by lia. f_equal. subst a. lia. }
        assert (HaN : In (nth a N []) N) by (apply nth_In; exact Ha).
        assert (LVN : sublevel (S (length LL)) N).
        { specialize (HL (length LL)). rewrite nth_middle in HL. apply HL. rewrite app_length. cbn. lia. }
        destruct (proj1 LVN _ HaN) as (CN & IN & LN).
        unfold part_of. rewrite Xa. split.
        + intros (i & Hi & Hb). destruct (Hcb i Hi) as (Hne & Hil & Hip). destruct (LP Hne) as [LP1 LP2].
          apply HC in Hi as [_ Hinc]; [|exact Ha]. rewrite <- LP2 in Hinc by exact Hil.
          assert (PPi : proper_part (nth (i + prev) (concat LL) []) (nth a N [])).
          { split; [exact Hinc|]. intros H. apply NoDup_incl_length in H; [|apply CN].
            destruct (all_in LL (i + prev) HL0 Hip) as (_ & _ & ?). lia. }
          destruct Hb as [->|Hb].
          * split; [rewrite app_length; lia|]. rewrite app_nth1 by exact Hip. exact PPi.
          * assert (Hib : i + prev < length inds0) by lia. apply (H0 _ Hib) in Hb as [Hb1 Hb2]. split; [exact Hb1|].
            rewrite (app_nth1 _ _ _ Hip) in Hb2. destruct Hb2 as [Q1 Q2], PPi as [R1 R2]. split.
            -- intros y Hy. apply R1, Q1, Hy.
            -- intros H. apply R2. intros y Hy. apply Q1, H, Hy.
        + intros [Hb1 Hb2].
          assert (Bb : b < length (concat LL)).
          { destruct (Nat.lt_ge_cases b (length (concat LL))) as [|Hge]; [assumption|]. exfalso. rewrite app_length in Hb1.
            rewrite app_nth2 in Hb2 by exact Hge. destruct (proj1 LVN _ (nth_In N [] (n := b - length (concat LL)) ltac:(lia))) as (Cb & _ & Lb).
            destruct Hb2 as [Q1 Q2]. apply Q2. apply NoDup_length_incl; [apply Cb|lia|exact Q1]. }
          rewrite app_nth1 in Hb2 by exact Bb. destruct (all_in LL b HL0 Bb) as (Cb & Ib & Lb).
          destruct (shrink pt_dec adj (nth a N []) (nth b (concat LL) []) adj_sym CN Cb Hb2) as (S' & u & v & CS & IS & Hu & Hv & Huv & Pm).
          assert (LS : length S' = length LL). { apply Permutation_length in Pm. rewrite app_length in Pm. cbn in Pm. lia. }
          assert (ISN : incl S' (nth a N [])). { intros y Hy. apply (Permutation_in _ (Permutation_sym Pm)). apply in_or_app. left. exact Hy. }
          assert (Hne : LL <> []). { intros ->. destruct S'; [destruct CS; congruence|discriminate]. }
          destruct (LP Hne) as [LP1 LP2].
          destruct (HL0 (length LL - 1)) as (_ & _ & G); [destruct LL; [congruence|cbn; lia]|].
          assert (Elast : nth (length LL - 1) LL [] = last LL []).
          { pose proof (app_removelast_last [] Hne) as E. rewrite E at 2. rewrite E at 1. rewrite app_length. cbn [length]. replace (length (removelast LL) + 1 - 1) with (length (removelast LL)) by lia. apply nth_middle. }
          rewrite Elast in G. assert (0 < length LL) by (destruct LL; [congruence|cbn; lia]).
          destruct (G S' CS (fun y Hy => IN y (ISN y Hy)) ltac:(lia)) as (m & Hm & Sm). apply (In_nth _ _ []) in Hm as (i & Hi & Em). subst m.
          exists i. split.
          * apply HC; [exact Ha|]. split; [exact Hi|]. intros y Hy. apply ISN, Sm, Hy.
          * assert (Hip : i + prev < length (concat LL)) by lia.
            destruct (incl_or_not (nth i (last LL []) []) (nth b (concat LL) [])) as [HI2|HI2].
            -- left. apply (all_same LL); auto. rewrite LP2 by exact Hi. intros y. split; [intros Hy; apply Sm, IS, Hy|apply HI2].
            -- right. assert (Hib : i + prev < length inds0) by lia. apply (H0 _ Hib). split; [exact Hb1|].
               rewrite !app_nth1 by assumption. rewrite LP2 by exact Hi. split; [intros y Hy; apply Sm, IS, Hy|exact HI2]. }
    rewrite EC. apply (K [] contained inds eq_refl).
    - cbn. lia.
    - intros a Ha. rewrite LI in Ha. destruct (HI a Ha) as [H1 H2]. split; [exact H1|]. intros b. rewrite H2. unfold part_of. rewrite app_length.
      rewrite (app_nth1 _ N [] Ha).
      assert (LVN : sublevel (S (length LL)) N).
      { specialize (HL (length LL)). rewrite nth_middle in HL. apply HL. rewrite app_length. cbn. lia. }
      split.
      + intros [B1 B2]. split; [lia|]. rewrite app_nth1 by exact B1. exact B2.
      + intros [B1 B2]. assert (Bb : b < length (concat LL)).
        { destruct (Nat.lt_ge_cases b (length (concat LL))) as [|Hge]; [assumption|]. exfalso. rewrite app_nth2 in B2 by exact Hge.
          destruct (proj1 LVN _ (nth_In N [] (n := b - length (concat LL)) ltac:(lia))) as (Cb & _ & Lb). destruct B2 as [Q1 _].
          apply NoDup_incl_length in Q1; [|apply Cb]. destruct (all_in LL a HL0 Ha) as (_ & _ & ?). lia. }
        split; [exact Bb|]. rewrite app_nth1 in B2 by exact Bb. exact B2.
  Qed.

  (** ** The loop *)
  Definition contained_ok (LL : list (list (list pt))) (N : list (list pt)) (contained : list (list nat)) : Prop :=
    length contained = length N /\
    forall a i, a < length N -> (In i (nth a contained []) <-> i < length (last LL []) /\ incl (nth i (last LL []) []) (nth a N [])).

  Lemma sub_orders_ok fuel : forall next contained orders inds LL N,
    Forall2 cluster next N -> Forall2 (Forall2 cluster) orders LL -> levels_upto (LL ++ [N]) ->
    indices_ok (concat LL) inds -> contained_ok LL N contained ->
    exists orders' inds' LL', sub_orders parent fuel next contained orders inds (length (concat LL)) (length (concat (removelast LL))) = Ok (orders', inds') /\
      Forall2 (Forall2 cluster) orders' LL' /\ levels_upto LL' /\ indices_ok (concat LL') inds' /\
      (length LL' = length LL + fuel \/ sublevel (S (length LL')) []).
  Proof.
    induction fuel as [|fuel IH]; intros next contained orders inds LL N FN FO HL HI HC; cbn [sub_orders].
    - exists orders, inds, LL. split; [reflexivity|]. split; [exact FO|]. split; [|split; [exact HI|left; lia]].
      intros k Hk. specialize (HL k). rewrite app_nth1 in HL by exact Hk. apply HL. rewrite app_length. lia.
    - destruct next as [|g next].
      + inversion FN; subst. exists orders, inds, LL. split; [reflexivity|]. split; [exact FO|].
        split; [|split; [exact HI|right]].
        * intros k Hk. specialize (HL k). rewrite app_nth1 in HL by exact Hk. apply HL. rewrite app_length. lia.
        * specialize (HL (length LL)). rewrite nth_middle in HL. apply HL. rewrite app_length. cbn. lia.
      + destruct HC as [LC HC]. destruct (add_indices LL N contained inds HL HI LC HC) as (inds' & -> & HI'). cbn [bind].
        assert (LVN : sublevel (S (length LL)) N).
        { specialize (HL (length LL)). rewrite nth_middle in HL. apply HL. rewrite app_length. cbn. lia. }
        destruct (next_subclusters_ok (g :: next) N FN) as (acc & N' & -> & SL).
        { intros l Hl. apply (proj1 LVN l Hl). }
        cbn [bind]. destruct (sublevel_next (S (length LL)) N acc N' ltac:(lia) LVN SL) as [LVN' CN'].
        replace (length (concat LL) + length (g :: next)) with (length (concat (LL ++ [N]))).
        2:{ rewrite concat_app, app_length. cbn [concat]. rewrite app_nil_r. rewrite (Forall2_length' _ _ _ FN). reflexivity. }
        replace (length (concat LL)) with (length (concat (removelast (LL ++ [N])))) by (rewrite removelast_last; reflexivity).
        destruct (IH (fst acc) (snd acc) (orders ++ [g :: next]) inds' (LL ++ [N]) N') as (orders' & i' & LL' & E & F' & L' & I' & H').
        * apply (sl_cl _ _ _ SL).
        * apply Forall2_snoc; assumption.
        * intros k Hk. rewrite app_length in Hk. cbn in Hk. destruct (nth_snoc (LL ++ [N]) N' k [] Hk) as [[X ->]|[X ->]]; [apply HL; exact X|].
          rewrite app_length in X. cbn in X. replace (S k) with (S (S (length LL))) by lia. exact LVN'.
        * exact HI'.
        * split; [apply (sl_len _ _ _ SL)|]. rewrite last_last. exact CN'.
        * exists orders', i', LL'. split; [exact E|]. split; [exact F'|]. split; [exact L'|]. split; [exact I'|].
          destruct H' as [H'|H']; [left|right; exact H']. rewrite app_length in H'. cbn in H'. lia.
  Qed.

  Lemma singles_ok : exists gs, rmap (fun v => from_coords [v]) (coords parent) = Ok gs /\ Forall2 cluster gs (map (fun p => [p]) P).
  Proof.
    rewrite parent_coords. clear. induction P as [|p l (gs & E & F)]; [exists []; split; [reflexivity|constructor]|].
    cbn [map rmap]. destruct (cluster_one p) as (g & -> & C). cbn [bind]. rewrite E. cbn [bind]. exists (g :: gs). split; [reflexivity|]. constructor; assumption.
  Qed.

  Lemma all_subclusters_ok : exists orders inds LL, all_subclusters parent = Ok (orders, inds) /\
    Forall2 (Forall2 cluster) orders LL /\
    (forall k l, k < length LL -> In l (nth k LL []) -> connected adj l /\ incl l P /\ length l = S k) /\
    apart same_set (concat LL) /\
    (forall T, connected adj T -> incl T P -> exists a, a < length (concat LL) /\ same_set T (nth a (concat LL) [])) /\
    indices_ok (concat LL) inds.
  Proof.
    unfold all_subclusters. cbn [next_subclusters]. destruct singles_ok as (gs & -> & F). cbn [bind fst snd].
    assert (L1 : sublevel 1 (map (fun p => [p]) P)).
    { split; [|split].
      - intros l Hl. apply in_map_iff in Hl as (p & <- & Hp). split; [apply connected_one|]. split; [intros x [<-|[]]; exact Hp|reflexivity].
      - intros a b Ha Hb S. rewrite map_length in Ha, Hb. rewrite !(nth_indep _ [] [(0, 0)%Z]) in S by (rewrite map_length; assumption).
        rewrite !(map_nth (fun p : pt => [p])) in S. apply (proj1 (NoDup_nth P (0, 0)%Z) HP a b Ha Hb).
        destruct (proj1 (S (nth a P (0, 0)%Z)) (or_introl eq_refl)) as [E|[]]. symmetry. exact E.
      - intros l Cl Il Ll. destruct l as [|p [|q l]]; try discriminate. exists [p]. split; [apply in_map_iff; exists p; split; [reflexivity|apply Il; left; reflexivity]|apply same_refl]. }
    destruct (sub_orders_ok (g_n parent) gs (map (fun _ => []) gs) [] [] [] (map (fun p => [p]) P)) as (orders & inds & LL & E & FO & HL & HI & HF).
    - exact F.
    - constructor.
    - intros k Hk. cbn in Hk. assert (k = 0) by lia. subst. exact L1.
    - split; [reflexivity|]. intros a Ha. inversion Ha.
    - split; [rewrite map_length; apply (Forall2_length' _ _ _ F)|]. intros a i Ha.
      assert (Em : forall (A : Type) (l : list A), nth a (map (fun _ => @nil nat) l) [] = []).
      { intros A l. clear. revert l. induction a; intros [|x l]; cbn; auto. }
      rewrite Em. cbn. split; [intros []|lia].
    - exists orders, inds, LL. split; [exact E|]. split; [exact FO|]. split; [intros k l Hk Hl; apply (proj1 (HL k Hk)); exact Hl|].
      split; [intros a b Ha Hb; apply all_same; assumption|]. split; [|exact HI].
      intros T CT IT. assert (LT : length T <= length LL).
      { destruct (Nat.le_gt_cases (length T) (length LL)) as [|Hgt]; [assumption|]. exfalso. destruct HF as [HF|HF].
        - cbn in HF. apply NoDup_incl_length in IT; [lia|apply CT].
        - destruct T as [|p T]; [destruct CT; congruence|].
          destruct (grow_to pt_dec adj (p :: T) [p] (S (length LL)) adj_sym CT (connected_one adj p)) as (T' & CT' & _ & IT' & LT').
          + intros x [<-|[]]. left. reflexivity.
          + cbn in *. lia.
          + destruct (proj2 (proj2 HF) T' CT') as (m & [] & _); [intros x Hx; apply IT, IT', Hx|exact LT']. }
      destruct (all_find LL T HL CT IT LT) as (a & _ & _ & Ha & S). exists a. auto.
  Qed.
End Sub.
