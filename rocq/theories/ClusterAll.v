(** The enumeration of clusters up to translation and symmetry. *)
From Coq Require Import List Arith Lia ZArith QArith Permutation Bool.
From Verif Require Import Res Matrix ModelGeometry ModelNlce SpecCluster GeoArith ClusterSets ClusterRep ClusterSym.
Import ListNotations.
Local Open Scope nat_scope.

Section Candidates.
  Context (sym : bool).
  Record listed (cands : list (list pt)) (acc : list cluster_geom * list nat) (ls : list (list pt)) : Prop := {
    li_cl : Forall2 cluster (fst acc) ls;
    li_m : Forall2 (orientations sym) ls (snd acc);
    li_ap : apart (congruent sym) ls;
    li_from : forall l, In l ls -> exists c, In c cands /\ Permutation c l;
    li_all : forall c, In c cands -> exists l, In l ls /\ congruent sym c l }.

  Lemma listed_nil : listed [] ([], []) [].
  Proof. constructor; try constructor; try apply apart_nil; intros ? []. Qed.

  Lemma add_cluster_ok cands acc ls c : listed cands acc ls -> c <> [] -> NoDup c ->
    exists acc' ls', add_cluster sym acc (map inj c) = Ok acc' /\ listed (cands ++ [c]) acc' ls'.
  Proof.
    intros [F M A H1 H2] Hne Hnd. unfold add_cluster. destruct (sorted_cluster_ok c Hne Hnd) as (g & m & -> & C & P). cbn [bind].
    destruct (partners_test sym g m (fst acc) ls C F) as (ps & es & -> & O & Ees & L & D). cbn [bind]. rewrite Ees. cbn [bind].
    assert (K : congruent sym c m) by (apply congruent_of_same, perm_same_set; exact P).
    pose proof (decides_exists (congruent sym m) ls es L D) as X. destruct (existsb (fun b => b) es).
    - exists acc, ls. split; [reflexivity|]. constructor; auto.
      + intros l Hl. destruct (H1 l Hl) as (c' & Hc & P'). exists c'. split; [apply in_or_app; left; exact Hc|exact P'].
      + intros c' Hc. apply in_app_or in Hc as [Hc|[<-|[]]]; [apply H2; exact Hc|].
        destruct (proj1 X eq_refl) as (l & Hl & Hm). exists l. split; [exact Hl|]. apply (congruent_trans sym _ m); assumption.
    - eexists. exists (ls ++ [m]). split; [reflexivity|]. constructor; cbn [fst snd].
      + apply Forall2_snoc; assumption.
      + apply Forall2_snoc; assumption.
      + apply apart_snoc; [exact (congruent_sym sym)|exact A|]. intros l Hl Hm.
        assert (false = true) by (apply X; exists l; split; [exact Hl|apply congruent_sym; exact Hm]). discriminate.
      + intros l Hl. apply in_app_or in Hl as [Hl|[<-|[]]].
        * destruct (H1 l Hl) as (c' & Hc & P'). exists c'. split; [apply in_or_app; left; exact Hc|exact P'].
        * exists c. split; [apply in_or_app; right; left; reflexivity|exact P].
      + intros c' Hc. apply in_app_or in Hc as [Hc|[<-|[]]].
        * destruct (H2 c' Hc) as (l & Hl & Hm). exists l. split; [apply in_or_app; left; exact Hl|exact Hm].
        * exists m. split; [apply in_or_app; right; left; reflexivity|exact K].
  Qed.

  Context (lv1 lv2 : pt).
  Definition steps : list pt := [lv1; (- fst lv1, - snd lv1); lv2; (- fst lv2, - snd lv2)]%Z.
  Definition cands_at (l : list pt) (v w : pt) : list (list pt) :=
    if in_dec pt_dec (shift w v) l then [] else [l ++ [shift w v]].
  Definition cands_of (l : list pt) : list (list pt) := flat_map (fun v => flat_map (cands_at l v) steps) l.

  Lemma steps_inj : [inj lv1; vsub vzero (inj lv1); inj lv2; vsub vzero (inj lv2)] = map inj steps.
  Proof. cbn [steps map]. rewrite !vneg_inj. reflexivity. Qed.
  Lemma linked_steps p q : linked lv1 lv2 p q <-> exists w, In w steps /\ q = shift w p.
  Proof.
    assert (B : forall v, p = shift v q <-> q = shift (- fst v, - snd v)%Z p).
    { intros v. destruct p, q. unfold shift. cbn [fst snd]. split; intros H; injection H; intros; f_equal; lia. }
    unfold linked. rewrite !B. unfold steps. cbn [In]. split.
    - intros [H|[H|[H|H]]]; eexists; (split; [|exact H]); auto.
    - intros (w & [<-|[<-|[<-|[<-|[]]]]] & H); auto.
  Qed.
  Lemma in_cands l c : In c (cands_of l) <-> exists p q, In p l /\ linked lv1 lv2 p q /\ ~ In q l /\ c = l ++ [q].
  Proof.
    unfold cands_of. rewrite in_flat_map. split.
    - intros (p & Hp & H). apply in_flat_map in H as (w & Hw & H). unfold cands_at in H. destruct (in_dec pt_dec (shift w p) l) as [Hi|Hi]; [destruct H|].
      destruct H as [<-|[]]. exists p, (shift w p). split; [exact Hp|]. split; [|auto]. apply linked_steps. exists w. auto.
    - intros (p & q & Hp & Hl & Hn & ->). exists p. split; [exact Hp|]. apply linked_steps in Hl as (w & Hw & ->).
      apply in_flat_map. exists w. split; [exact Hw|]. unfold cands_at. destruct (in_dec pt_dec (shift w p) l); [contradiction|]. left. reflexivity.
  Qed.

  Lemma flat_map_snoc {A B} (f : A -> list B) l x : flat_map f (l ++ [x]) = flat_map f l ++ f x.
  Proof. rewrite flat_map_app. cbn [flat_map]. rewrite app_nil_r. reflexivity. Qed.

  Lemma next_clusters_ok cl ls : Forall2 cluster cl ls ->
    exists acc ls', next_clusters (inj lv1) (inj lv2) sym (Some cl) = Ok acc /\ listed (flat_map cands_of ls) acc ls'.
  Proof.
    intros F. cbn [next_clusters]. rewrite steps_inj.
    assert (G : forall base acc ls0, listed base acc ls0 ->
      exists acc' ls', rfold (fun acc cluster =>
        let cs := coords cluster in
        rfold (fun acc v => rfold (fun acc w =>
          let new := vadd v w in if is_among new cs then Ok acc else add_cluster sym acc (cs ++ [new]))
          (map inj steps) acc) cs acc) cl acc = Ok acc' /\ listed (base ++ flat_map cands_of ls) acc' ls').
    2:{ exact (G [] ([], []) [] listed_nil). }
    induction F as [|g l cl ls C F IH]; intros base acc ls0 H0; cbn [rfold flat_map].
    { exists acc, ls0. rewrite app_nil_r. auto. }
    rewrite (rep_coords _ _ (cl_rep _ _ C)). cbv zeta.
    set (inner := fun acc v => rfold _ (map inj steps) acc).
    assert (K : forall vs base acc ls0, incl vs l -> listed base acc ls0 ->
      exists acc' ls', rfold inner (map inj vs) acc = Ok acc' /\ listed (base ++ flat_map (fun v => flat_map (cands_at l v) steps) vs) acc' ls').
    { clear base acc ls0 H0. induction vs as [|v vs IHv]; intros base acc ls0 Hi H0; cbn [map rfold flat_map].
      { exists acc, ls0. rewrite app_nil_r. auto. }
      assert (J : forall ws base acc ls0, listed base acc ls0 ->
        exists acc' ls', rfold (fun acc w => let new := vadd (inj v) w in
          if is_among new (map inj l) then Ok acc else add_cluster sym acc (map inj l ++ [new])) (map inj ws) acc = Ok acc'
          /\ listed (base ++ flat_map (cands_at l v) ws) acc' ls').
      { clear base acc ls0 H0. induction ws as [|w ws IHw]; intros base acc ls0 H0; cbn [map rfold flat_map].
        { exists acc, ls0. rewrite app_nil_r. auto. }
        cbv zeta. rewrite vadd_inj. unfold cands_at at 1. destruct (in_dec pt_dec (shift w v) l) as [Hin|Hin].
        - rewrite (proj2 (is_among_inj _ _) Hin). cbn [bind app]. apply IHw with (1 := H0).
        - destruct (is_among (inj (shift w v)) (map inj l)) eqn:E; [apply is_among_inj in E; contradiction|].
          change [inj (shift w v)] with (map inj [shift w v]). rewrite <- map_app.
          destruct (add_cluster_ok base acc ls0 (l ++ [shift w v]) H0) as (acc1 & ls1 & -> & H1).
          { destruct l; discriminate. }
          { apply (Permutation_NoDup (l := shift w v :: l)); [apply Permutation_cons_append|constructor; [exact Hin|exact (cl_nd _ _ C)]]. }
          cbn [bind]. destruct (IHw _ _ _ H1) as (acc2 & ls2 & E2 & H2). exists acc2, ls2. split; [exact E2|].
          rewrite <- app_assoc in H2. exact H2. }
      cbv zeta in J. unfold inner at 1. destruct (J steps base acc ls0 H0) as (acc1 & ls1 & -> & H1). cbn [bind].
      destruct (IHv _ _ _ (fun x Hx => Hi x (or_intror Hx)) H1) as (acc2 & ls2 & E2 & H2). exists acc2, ls2. split; [exact E2|].
      rewrite <- app_assoc in H2. exact H2. }
    destruct (K l base acc ls0 (incl_refl _) H0) as (acc1 & ls1 & -> & H1). cbn [bind].
    destruct (IH _ _ _ H1) as (acc2 & ls2 & E2 & H2). exists acc2, ls2. split; [exact E2|]. rewrite <- app_assoc in H2. exact H2.
  Qed.

  (** ** Levels *)
  Notation adj := (linked lv1 lv2).
  Definition level (k : nat) (L : list (list pt)) : Prop :=
    (forall l, In l L -> connected adj l /\ length l = k) /\ apart (congruent sym) L /\
    (forall l, connected adj l -> length l = k -> exists m, In m L /\ congruent sym l m).

  Lemma level_one : level 1 [[(0, 0)%Z]].
  Proof.
    split; [|split; [apply apart_one|]].
    - intros l [<-|[]]. split; [apply connected_one|reflexivity].
    - intros l _ Hl. destruct l as [|p [|q l]]; try discriminate. exists [(0, 0)%Z]. split; [left; reflexivity|].
      apply congruent_of_translate. exists (- fst p, - snd p)%Z. cbn [map]. replace (shift _ p) with (0, 0)%Z; [apply same_refl|].
      unfold shift. cbn [fst snd]. f_equal; lia.
  Qed.
  Lemma level_next k L acc L' : step_symmetric sym lv1 lv2 -> 1 <= k -> level k L -> listed (flat_map cands_of L) acc L' -> level (S k) L'.
  Proof.
    intros SS Hk (H1 & H2 & H3) [F M A G1 G2]. split; [|split; [exact A|]].
    - intros l Hl. destruct (G1 l Hl) as (c & Hc & P). apply in_flat_map in Hc as (m & Hm & Hc). apply in_cands in Hc as (p & q & Hp & Ha & Hq & ->).
      destruct (H1 m Hm) as [Cm Lm]. split.
      + apply (connected_same adj (m ++ [q])).
        * apply perm_same_set. exact P.
        * apply (Permutation_NoDup P). apply (connected_add adj m p q (linked_sym lv1 lv2) Cm Hp Ha Hq).
        * apply (connected_add adj m p q (linked_sym lv1 lv2) Cm Hp Ha Hq).
      + rewrite <- (Permutation_length P), app_length. cbn. lia.
    - intros l Cl Ll. destruct l as [|p l]; [discriminate|]. cbn in Ll.
      assert (PP : proper_part [p] (p :: l)).
      { split; [intros x [<-|[]]; left; reflexivity|]. intros Hi. apply NoDup_incl_length in Hi; [cbn in Hi; lia|apply Cl]. }
      destruct (shrink pt_dec adj (p :: l) [p] (linked_sym lv1 lv2) Cl (connected_one adj p) PP) as (S' & a & b & CS & _ & Ha & Hb & Hab & P).
      assert (LS : length S' = k). { apply Permutation_length in P. rewrite app_length in P. cbn in P. lia. }
      destruct (H3 S' CS LS) as (m & Hm & K). destruct (congruent_map sym S' m K) as (f & Hf & Hs & s & t & Hss & E).
      assert (Hc : In (m ++ [f b]) (flat_map cands_of L)).
      { apply in_flat_map. exists m. split; [exact Hm|]. apply in_cands. exists (f a), (f b). split; [|split; [|split; [|reflexivity]]].
        - apply Hs, in_map, Ha.
        - rewrite !E. apply linked_shift, (linked_map sym); assumption.
        - intros Hi. apply Hs in Hi. apply in_map_iff in Hi as (x & Ex & Hx). apply Hf in Ex. subst. contradiction. }
      destruct (G2 _ Hc) as (l' & Hl' & K'). exists l'. split; [exact Hl'|]. apply (congruent_trans sym _ (m ++ [f b])); [|exact K'].
      apply (map_congruent sym f s t); [exact Hss|exact E|].
      apply (same_trans _ (map f (S' ++ [b]))); [apply same_map, perm_same_set; exact P|]. rewrite map_app. apply same_app; [exact Hs|apply same_refl].
  Qed.

  (** ** All levels *)
  Fixpoint sums (s : nat) (L : list (list (list pt))) : list nat :=
    s :: match L with [] => [] | l :: t => sums (s + length l) t end.
  Lemma sums_length s L : length (sums s L) = S (length L).
  Proof. revert s. induction L as [|l L IH]; intros s; [reflexivity|]. cbn [sums length]. rewrite IH. reflexivity. Qed.
  Lemma sums_snoc s L l : sums s (L ++ [l]) = sums s L ++ [length l + s + length (concat L)].
  Proof.
    revert s. induction L as [|m L IH]; intros s; cbn [app sums concat length].
    - replace (length l + s + 0) with (s + length l) by lia. reflexivity.
    - rewrite IH, app_length. replace (length l + (s + length m) + length (concat L)) with (length l + s + (length m + length (concat L))) by lia. reflexivity.
  Qed.
  Lemma sums_nth s L k : k <= length L -> nth k (sums s L) 0 = s + length (concat (firstn k L)).
  Proof.
    revert s k. induction L as [|l L IH]; intros s [|k] Hk; cbn [length] in Hk; try lia; cbn [sums nth firstn concat length]; try lia.
    rewrite IH by lia. rewrite app_length. lia.
  Qed.

  Definition levels_ok (levels : list (list cluster_geom)) (mults : list (list nat)) (inds : list nat) (LL : list (list (list pt))) : Prop :=
    Forall2 (Forall2 cluster) levels LL /\ Forall2 (Forall2 (orientations sym)) LL mults /\ inds = sums 0 LL /\
    forall k, k < length LL -> level (S k) (nth k LL []).

  Lemma orientations_one : orientations sym [(0, 0)%Z] 1.
  Proof.
    exists [[(0, 0)%Z]]. split; [reflexivity|]. split; [intros a b Ha Hb _; lia|]. 
    assert (Z : forall s, In s (symmetries sym) -> s (0, 0)%Z = (0, 0)%Z) by (destruct sym; intros s Hs; each_sym Hs; reflexivity).
    split.
    - intros o [<-|[]]. exists (fun p => p). split; [apply sym_id|]. apply translate_refl.
    - intros s Hs. exists [(0, 0)%Z]. split; [left; reflexivity|]. cbn [map]. rewrite (Z s Hs). apply translate_refl.
  Qed.

  Lemma cluster_levels_ok n : step_symmetric sym lv1 lv2 ->
    exists levels mults inds LL, cluster_levels n (inj lv1) (inj lv2) sym = Ok (levels, mults, inds) /\
      length LL = S (n - 1) /\ levels_ok levels mults inds LL.
  Proof.
    intros SS. unfold cluster_levels.
    change (next_clusters (inj lv1) (inj lv2) sym None) with (g <- from_coords [inj (0, 0)%Z] ;; Ok ([g], [1])).
    destruct (cluster_one (0, 0)%Z) as (g & -> & C). cbn [bind fst snd length].
    set (step := fun st ii => _).
    assert (K : forall d, exists levels mults inds LL, rfold step (seq 1 d) ([[g]], [[1]], [0; 1]) = Ok (levels, mults, inds) /\
      length LL = S d /\ levels_ok levels mults inds LL).
    2:{ apply K. }
    induction d as [|d (levels & mults & inds & LL & E & LE & F & M & EI & H)].
    - exists [[g]], [[1]], [0; 1], [[[(0, 0)%Z]]]. split; [reflexivity|]. split; [reflexivity|]. split; [|split; [|split; [reflexivity|]]].
      + constructor; [|constructor]. constructor; [exact C|constructor].
      + constructor; [|constructor]. constructor; [|constructor]. apply orientations_one.
      + intros [|k] Hk; cbn in Hk; [|lia]. apply level_one.
    - rewrite seq_S, rfold_app, E. cbn [bind rfold].
      pose proof (Forall2_length' _ _ _ F) as LF.
      unfold step at 1. cbn [Nat.add]. replace (S d - 1) with d by lia.
      rewrite (nth_error_nth' levels []) by lia. rewrite (nth_error_nth' inds 0) by (rewrite EI, sums_length; lia).
      pose proof (Forall2_nth _ _ _ [] [] d F ltac:(lia)) as Fd.
      destruct (next_clusters_ok _ _ Fd) as (acc & L' & -> & HL). cbn [bind].
      exists (levels ++ [fst acc]), (mults ++ [snd acc]), (inds ++ [length (fst acc) + nth (S d) inds 0]), (LL ++ [L']).
      split; [reflexivity|]. split; [rewrite app_length; cbn; lia|]. split; [|split; [|split]].
      + apply Forall2_snoc; [exact F|]. apply (li_cl _ _ _ HL).
      + apply Forall2_snoc; [exact M|]. apply (li_m _ _ _ HL).
      + rewrite sums_snoc, EI. do 2 f_equal. rewrite sums_nth by lia. rewrite (Forall2_length' _ _ _ (li_cl _ _ _ HL)).
        replace (S d) with (length LL) by lia. rewrite firstn_all. lia.
      + intros k Hk. rewrite app_length in Hk. cbn in Hk. destruct (Nat.lt_ge_cases k (length LL)) as [Hk'|Hk'].
        * rewrite app_nth1 by assumption. apply H. exact Hk'.
        * replace k with (length LL) by lia. rewrite nth_middle.
          replace (S (length LL)) with (S (S d)) by lia. apply (level_next (S d) (nth d LL []) acc); [exact SS|lia|apply H; lia|exact HL].
  Qed.

  Lemma Forall2_concat {A B} (R : A -> B -> Prop) L M : Forall2 (Forall2 R) L M -> Forall2 R (concat L) (concat M).
  Proof. induction 1; cbn [concat]; [constructor|]. apply Forall2_app; assumption. Qed.
  Lemma concat_at {A} (L : list (list A)) k j d : k < length L -> j < length (nth k L []) ->
    length (concat (firstn k L)) + j < length (concat L) /\ nth (length (concat (firstn k L)) + j) (concat L) d = nth j (nth k L []) d.
  Proof.
    revert k. induction L as [|l L IH]; intros [|k] Hk Hj; cbn [length] in Hk; try lia; cbn [firstn concat nth length] in *.
    - rewrite app_length. split; [lia|]. apply app_nth1. exact Hj.
    - destruct (IH k ltac:(lia) Hj) as [A1 A2]. rewrite !app_length. split; [lia|]. rewrite app_nth2 by lia. rewrite <- A2. f_equal. lia.
  Qed.
  Lemma concat_split {A} (L : list (list A)) a : a < length (concat L) ->
    exists k j, k < length L /\ j < length (nth k L []) /\ a = length (concat (firstn k L)) + j.
  Proof.
    revert a. induction L as [|l L IH]; intros a Ha; cbn [concat length] in Ha; [lia|]. rewrite app_length in Ha.
    destruct (Nat.lt_ge_cases a (length l)) as [H|H].
    - exists 0, a. cbn. repeat split; lia.
    - destruct (IH (a - length l) ltac:(lia)) as (k & j & Hk & Hj & E). exists (S k), j. cbn [firstn concat length nth]. rewrite app_length.
      repeat split; try assumption; lia.
  Qed.
  Lemma firstn_S_nth {A} (L : list (list A)) k : k < length L -> firstn (S k) L = firstn k L ++ [nth k L []].
  Proof.
    revert k. induction L as [|l L IH]; intros [|k] Hk; cbn [length] in Hk; try lia; [reflexivity|].
    cbn [nth]. change (firstn (S (S k)) (l :: L)) with (l :: firstn (S k) L). rewrite IH by lia. reflexivity.
  Qed.

  Lemma all_clusters_ok n : step_symmetric sym lv1 lv2 -> 1 <= n ->
    exists cl ms inds L, all_clusters n (inj lv1) (inj lv2) sym = Ok (cl, ms, inds) /\
      Forall2 cluster cl L /\ Forall2 (orientations sym) L ms /\
      length inds = S n /\ nth 0 inds 0 = 0 /\ nth n inds 0 = length L /\
      (forall k, k < n -> nth k inds 0 <= nth (S k) inds 0 /\
         forall a, nth k inds 0 <= a < nth (S k) inds 0 -> connected adj (nth a L []) /\ length (nth a L []) = S k) /\
      apart (congruent sym) L /\
      (forall T, connected adj T -> length T <= n -> exists a, a < length L /\ congruent sym T (nth a L [])).
  Proof.
    intros SS Hn. destruct (cluster_levels_ok n SS) as (levels & mults & inds & LL & E & LE & F & M & EI & H).
    unfold all_clusters. rewrite E. cbn [bind]. exists (concat levels), (concat mults), inds, (concat LL).
    split; [reflexivity|]. split; [apply Forall2_concat; exact F|]. split; [apply Forall2_concat; exact M|].
    assert (LN : length LL = n) by lia.
    assert (SN : forall k, k <= n -> nth k inds 0 = length (concat (firstn k LL))).
    { intros k Hk. rewrite EI, sums_nth by lia. lia. }
    assert (SS' : forall k, k < n -> nth (S k) inds 0 = nth k inds 0 + length (nth k LL [])).
    { intros k Hk. rewrite !SN by lia. rewrite firstn_S_nth by lia. rewrite concat_app, app_length. cbn [concat]. rewrite app_nil_r. reflexivity. }
    split; [rewrite EI, sums_length; lia|]. split; [apply SN; lia|]. split; [rewrite SN by lia; rewrite <- LN, firstn_all; reflexivity|].
    split; [|split].
    - intros k Hk. split; [rewrite SS' by exact Hk; lia|]. intros a Ha. rewrite SS' in Ha by exact Hk. rewrite SN in Ha by lia.
      destruct (concat_at LL k (a - length (concat (firstn k LL))) [] ltac:(lia) ltac:(lia)) as [_ A2].
      replace (length (concat (firstn k LL)) + (a - length (concat (firstn k LL)))) with a in A2 by lia. rewrite A2.
      apply (H k ltac:(lia)). apply nth_In. lia.
    - intros a b Ha Hb K. destruct (concat_split LL a Ha) as (ka & ja & Hka & Hja & Ea). destruct (concat_split LL b Hb) as (kb & jb & Hkb & Hjb & Eb).
      destruct (concat_at LL ka ja [] Hka Hja) as [_ Na]. destruct (concat_at LL kb jb [] Hkb Hjb) as [_ Nb].
      rewrite Ea, Eb, Na, Nb in K.
      destruct (proj1 (H ka Hka) _ (nth_In _ [] Hja)) as [Ca La]. destruct (proj1 (H kb Hkb) _ (nth_In _ [] Hjb)) as [Cb Lb].
      assert (ka = kb). { pose proof (congruent_length sym _ _ (proj1 (proj2 Ca)) (proj1 (proj2 Cb)) K). lia. }
      subst kb. assert (ja = jb) by (apply (proj1 (proj2 (H ka Hka))); assumption). congruence.
    - intros T CT LT. assert (HT : 1 <= length T) by (destruct T; [destruct CT; congruence|cbn; lia]).
      destruct (H (length T - 1) ltac:(lia)) as (_ & _ & G). destruct (G T CT ltac:(lia)) as (m & Hm & K).
      apply (In_nth _ _ []) in Hm as (j & Hj & Em). destruct (concat_at LL (length T - 1) j [] ltac:(lia) Hj) as [B1 B2].
      eexists. split; [exact B1|]. rewrite B2, Em. exact K.
  Qed.
End Candidates.
