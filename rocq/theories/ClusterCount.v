(** Counting sub-clusters up to symmetry. *)
From Coq Require Import List Arith Lia ZArith QArith Permutation Sorting Bool.
From Verif Require Import Res Matrix ModelGeometry ModelNlce SpecCluster GeoArith ClusterSets ClusterRep ClusterSym ClusterAll ClusterSub.
Import ListNotations.
Local Open Scope nat_scope.

(** ** Motions *)
Definition motion (sym : bool) (f : pt -> pt) : Prop := exists s t, In s (symmetries sym) /\ forall p, f p = shift t (s p).
Lemma motion_inj sym f p q : motion sym f -> f p = f q -> p = q.
Proof. intros (s & t & Hs & E) H. rewrite !E in H. apply shift_inj in H. apply (sym_inj sym s); assumption. Qed.
Lemma motion_inverse sym f : motion sym f -> exists g, motion sym g /\ (forall p, g (f p) = p) /\ forall p, f (g p) = p.
Proof.
  intros (s & t & Hs & E). destruct (sym_inv sym s Hs) as (s' & Hs' & I).
  set (t' := (- fst t, - snd t)%Z).
  assert (G : forall p, s' (shift t' (f p)) = p). { intros p. rewrite E. unfold t'. rewrite shift_back. apply I. }
  exists (fun p => s' (shift t' p)). split; [|split; [exact G|]].
  - exists s', (s' t'). split; [exact Hs'|]. intros p. apply (sym_linear sym s' Hs').
  - intros p. assert (J : shift t' (f (s' (shift t' p))) = shift t' p).
    { apply (sym_inj sym s' _ _ Hs'). apply G. }
    apply shift_inj in J. exact J.
Qed.
Lemma motion_linked sym lv1 lv2 f p q : step_symmetric sym lv1 lv2 -> motion sym f -> linked lv1 lv2 p q -> linked lv1 lv2 (f p) (f q).
Proof. intros SS (s & t & Hs & E) H. rewrite !E. apply linked_shift, (linked_map sym); assumption. Qed.
Lemma congruent_motion sym S T : congruent sym S T <-> exists f, motion sym f /\ same_set (map f S) T.
Proof.
  split.
  - intros H. destruct (congruent_map sym S T H) as (f & _ & Hm & s & t & Hs & E). exists f. split; [exists s, t; auto|exact Hm].
  - intros (f & (s & t & Hs & E) & H). apply (map_congruent sym f s t); assumption.
Qed.

(** ** Counting *)
Lemma pigeon {A B} (R : A -> B -> Prop) (xs : list A) : forall ys d,
  (forall x, In x xs -> exists y, In y ys /\ R x y) ->
  (forall a b y, a < length xs -> b < length xs -> R (nth a xs d) y -> R (nth b xs d) y -> a = b) -> length xs <= length ys.
Proof.
  induction xs as [|x xs IH]; intros ys d H1 H2; [cbn; lia|].
  destruct (H1 x (or_introl eq_refl)) as (y & Hy & Rxy). apply in_split in Hy as (l1 & l2 & ->).
  rewrite app_length. cbn [length]. enough (length xs <= length (l1 ++ l2)) by (rewrite app_length in *; lia). apply (IH _ d).
  - intros x' Hx'. destruct (H1 x' (or_intror Hx')) as (y' & Hy' & R'). exists y'. split; [|exact R'].
    apply in_app_or in Hy' as [Hy'|[->|Hy']]; [apply in_or_app; left; exact Hy'| |apply in_or_app; right; exact Hy'].
    exfalso. apply (In_nth _ _ d) in Hx' as (k & Hk & E). assert (0 = S k); [|lia]. apply (H2 0 (S k) y'); cbn; try lia; [exact Rxy|rewrite E; exact R'].
  - intros a b y' Ha Hb Ra Rb. assert (S a = S b); [|lia]. apply (H2 (S a) (S b) y'); cbn; auto; lia.
Qed.
Lemma contains_unique sym adj S T N M : contains sym adj S T N -> contains sym adj S T M -> N = M.
Proof.
  assert (K : forall N M, contains sym adj S T N -> contains sym adj S T M -> N <= M).
  { clear. intros N M (os & <- & A & H1 & _) (os' & <- & _ & _ & H2). apply (pigeon same_set os os' []).
    - intros o Ho. destruct (H1 o Ho) as (C1 & C2 & C3). destruct (H2 o C1 C2 C3) as (o' & Ho' & S'). exists o'. auto.
    - intros a b y Ha Hb Ra Rb. apply A; auto. apply (same_trans _ y); [exact Ra|apply same_sym; exact Rb]. }
  intros H1 H2. apply Nat.le_antisymm; apply K; assumption.
Qed.
Lemma contains_congruent sym lv1 lv2 S S' T T' N : step_symmetric sym lv1 lv2 -> congruent sym S S' -> congruent sym T T' ->
  contains sym (linked lv1 lv2) S T N -> contains sym (linked lv1 lv2) S' T' N.
Proof.
  intros SS HS HT (os & LN & A & H1 & H2). apply congruent_motion in HS as (f & Mf & Sf).
  destruct (motion_inverse sym f Mf) as (g & Mg & GF & FG).
  assert (Nth : forall a, a < N -> nth a (map (map f) os) [] = map f (nth a os [])).
  { intros a Ha. rewrite (nth_indep _ [] (map f [])) by (rewrite map_length; lia). apply map_nth. }
  assert (Cf : forall o, congruent sym o (map f o)) by (intros o; apply congruent_motion; exists f; split; [exact Mf|apply same_refl]).
  assert (Cg : forall o, congruent sym o (map g o)) by (intros o; apply congruent_motion; exists g; split; [exact Mg|apply same_refl]).
  exists (map (map f) os). split; [rewrite map_length; exact LN|]. split; [|split].
  - intros a b Ha Hb E. rewrite !Nth in E by assumption. apply A; auto.
    intros x. specialize (E (f x)). rewrite !in_map_iff in E. split; intros Hx.
    + destruct (proj1 E (ex_intro _ x (Logic.conj eq_refl Hx))) as (y & Ey & Hy). apply (motion_inj sym f) in Ey; [subst; exact Hy|exact Mf].
    + destruct (proj2 E (ex_intro _ x (Logic.conj eq_refl Hx))) as (y & Ey & Hy). apply (motion_inj sym f) in Ey; [subst; exact Hy|exact Mf].
  - intros o Ho. apply in_map_iff in Ho as (o0 & <- & Ho0). destruct (H1 o0 Ho0) as (C1 & [P1 P2] & C3). split; [|split; [split|]].
    + apply (connected_map _ f o0); [intros a b; apply (motion_linked sym); assumption|apply same_refl|apply NoDup_map_inj; [intros a b; apply (motion_inj sym); exact Mf|apply C1]|exact C1].
    + intros x Hx. apply in_map_iff in Hx as (y & <- & Hy). apply Sf, in_map, P1, Hy.
    + intros Hi. apply P2. intros x Hx. assert (In (f x) (map f o0)) as Hm by (apply Hi, Sf, in_map, Hx).
      apply in_map_iff in Hm as (y & Ey & Hy). apply (motion_inj sym f) in Ey; [subst; exact Hy|exact Mf].
    + apply (congruent_trans sym _ o0); [apply congruent_sym, Cf|]. apply (congruent_trans sym _ T); assumption.
  - intros o C1 [P1 P2] C3. destruct (H2 (map g o)) as (o' & Ho' & E).
    + apply (connected_map _ g o); [intros a b; apply (motion_linked sym); assumption|apply same_refl|apply NoDup_map_inj; [intros a b; apply (motion_inj sym); exact Mg|apply C1]|exact C1].
    + split.
      * intros x Hx. apply in_map_iff in Hx as (y & <- & Hy). apply P1, Sf, in_map_iff in Hy as (z & <- & Hz). rewrite GF. exact Hz.
      * intros Hi. apply P2. intros x Hx. apply Sf, in_map_iff in Hx as (z & <- & Hz). apply Hi, in_map_iff in Hz as (y & <- & Hy). rewrite FG. exact Hy.
    + apply (congruent_trans sym _ o); [apply congruent_sym, Cg|]. apply (congruent_trans sym _ T'); [exact C3|apply congruent_sym; exact HT].
    + exists (map f o'). split; [apply in_map; exact Ho'|]. apply (same_trans _ (map f (map g o))); [|apply same_map; exact E].
      rewrite map_map, (map_ext _ (fun x => x) FG), map_id. apply same_refl.
Qed.

(** ** Distinct clusters of each order *)
Lemma incr_at_length k l : length (incr_at k l) = length l.
Proof. revert k. induction l as [|y l IH]; intros [|k]; cbn; auto. Qed.
Lemma incr_at_nth k l j : k < length l -> nth j (incr_at k l) 0 = nth j l 0 + if Nat.eq_dec j k then 1 else 0.
Proof.
  revert k j. induction l as [|y l IH]; intros k j Hk; cbn [length] in Hk; [lia|]. destruct k as [|k], j as [|j]; cbn [incr_at nth].
  - destruct (Nat.eq_dec 0 0); lia.
  - destruct (Nat.eq_dec (S j) 0); lia.
  - destruct (Nat.eq_dec 0 (S k)); lia.
  - rewrite IH by lia. destruct (Nat.eq_dec j k), (Nat.eq_dec (S j) (S k)); lia.
Qed.

Section Reduce.
  Context (sym : bool).
  Record placed (run : nat) (red0 : list nat) (done : list (list pt)) (st : list cluster_geom * list nat * list nat) (ds : list (list pt)) (r : list nat) : Prop := {
    pl_cl : Forall2 cluster (fst (fst st)) ds;
    pl_ap : apart (congruent sym) ds;
    pl_in : incl ds done;
    pl_red : snd st = red0 ++ r;
    pl_len : length r = length done;
    pl_cls : forall k, k < length done -> exists j, j < length ds /\ nth k r 0 = run + j /\ congruent sym (nth k done []) (nth j ds []);
    pl_mlen : length (snd (fst st)) = length ds;
    pl_mult : forall j, j < length ds -> nth j (snd (fst st)) 0 = count_occ Nat.eq_dec r (run + j) }.

  Lemma count_snoc l x y : count_occ Nat.eq_dec (l ++ [x]) y = count_occ Nat.eq_dec l y + if Nat.eq_dec x y then 1 else 0.
  Proof. rewrite count_occ_app. cbn. destruct (Nat.eq_dec x y); lia. Qed.

  Lemma place_ok run red0 done st ds r c l : placed run red0 done st ds r -> cluster c l ->
    exists st' ds' r', place_cluster sym run st c = Ok st' /\ placed run red0 (done ++ [l]) st' ds' r'.
  Proof.
    intros [F A I ER LR CL ML MU] C. destruct st as [[distinct mults] red]. cbn [fst snd] in *. unfold place_cluster.
    destruct (partners_test sym c l distinct ds C F) as (ps & es & -> & _ & Ees & Les & D). cbn [bind]. rewrite Ees. cbn [bind].
    assert (OLD : forall ds', (forall j, j < length ds -> j < length ds' /\ nth j ds' [] = nth j ds []) -> forall x k, k < length done ->
      exists j, j < length ds' /\ nth k (r ++ [x]) 0 = run + j /\ congruent sym (nth k (done ++ [l]) []) (nth j ds' [])).
    { intros ds' Hds x k Hk. destruct (CL k Hk) as (j & Hj & Ej & Kj). exists j. destruct (Hds j Hj) as [B1 B2]. split; [exact B1|].
      rewrite app_nth1 by lia. split; [exact Ej|]. rewrite app_nth1 by exact Hk. rewrite B2. exact Kj. }
    destruct (first_true es) as [k|] eqn:E.
    - apply first_true_some in E as (Hk & Ek & _). rewrite Les in Hk. apply (D k []) in Ek; [|exact Hk].
      eexists. exists ds, (r ++ [run + k]). split; [reflexivity|]. constructor; cbn [fst snd]; auto.
      + intros x Hx. apply in_or_app. left. apply I, Hx.
      + rewrite ER, <- app_assoc, (Nat.add_comm k run). reflexivity.
      + rewrite !app_length. cbn. lia.
      + intros j Hj. rewrite app_length in Hj. cbn in Hj. destruct (Nat.lt_ge_cases j (length done)) as [H|H]; [apply OLD; auto|].
        assert (j = length done) by lia. subst j. exists k. split; [exact Hk|]. rewrite <- LR at 1. rewrite !nth_middle. auto.
      + rewrite incr_at_length. exact ML.
      + intros j Hj. rewrite incr_at_nth by lia. rewrite count_snoc, MU by exact Hj. destruct (Nat.eq_dec j k), (Nat.eq_dec (run + k) (run + j)); lia.
    - apply first_true_none in E.
      assert (N : forall x, In x ds -> ~ congruent sym x l).
      { intros x Hx S. apply congruent_sym in S. apply E. apply (In_nth _ _ []) in Hx as (k & Hk & El). rewrite <- El in S. apply (D k [] Hk) in S.
        rewrite <- S. apply nth_In. lia. }
      pose proof (Forall2_length' _ _ _ F) as LF.
      eexists. exists (ds ++ [l]), (r ++ [run + length ds]). split; [reflexivity|]. constructor; cbn [fst snd].
      + apply Forall2_snoc; assumption.
      + apply apart_snoc; [exact (congruent_sym sym)|exact A|exact N].
      + intros x Hx. apply in_or_app. apply in_app_or in Hx as [Hx|Hx]; [left; apply I, Hx|right; exact Hx].
      + rewrite ER, <- app_assoc, LF. reflexivity.
      + rewrite !app_length. cbn. lia.
      + intros j Hj. rewrite app_length in Hj. cbn in Hj. destruct (Nat.lt_ge_cases j (length done)) as [H|H].
        * apply OLD; auto. intros i Hi. rewrite app_length, app_nth1 by exact Hi. split; [lia|reflexivity].
        * assert (j = length done) by lia. subst j. exists (length ds). rewrite app_length. split; [cbn; lia|]. rewrite <- LR at 1. rewrite !nth_middle.
          split; [reflexivity|apply congruent_refl].
      + rewrite !app_length. cbn. lia.
      + intros j Hj. rewrite app_length in Hj. cbn in Hj. rewrite count_snoc. destruct (Nat.lt_ge_cases j (length ds)) as [H|H].
        * rewrite app_nth1 by lia. rewrite MU by exact H. destruct (Nat.eq_dec (run + length ds) (run + j)); lia.
        * assert (j = length ds) by lia. subst j. rewrite <- ML at 1. rewrite nth_middle. destruct (Nat.eq_dec _ _); [|lia].
          assert (Z : count_occ Nat.eq_dec r (run + length ds) = 0); [|lia].
          apply count_occ_not_In. intros Hi. apply (In_nth _ _ 0) in Hi as (k & Hk & Ek). destruct (CL k ltac:(lia)) as (j & Hj' & Ej & _). lia.
  Qed.
  Lemma placed_nil run red0 : placed run red0 [] ([], [], red0) [] [].
  Proof. constructor; cbn; try apply apart_nil; try (intros; lia); try constructor; try (intros ? []). rewrite app_nil_r. reflexivity. Qed.
  Lemma place_all run red0 cl ls : Forall2 cluster cl ls ->
    exists st ds r, rfold (place_cluster sym run) cl ([], [], red0) = Ok st /\ placed run red0 ls st ds r.
  Proof.
    intros F. assert (K : forall done st ds r, placed run red0 done st ds r ->
      exists st' ds' r', rfold (place_cluster sym run) cl st = Ok st' /\ placed run red0 (done ++ ls) st' ds' r').
    2:{ exact (K [] _ _ _ (placed_nil run red0)). }
    induction F as [|c l cl ls C F IH]; intros done st ds r H; cbn [rfold].
    - exists st, ds, r. rewrite app_nil_r. auto.
    - destruct (place_ok run red0 done st ds r c l H C) as (st1 & ds1 & r1 & -> & H1). cbn [bind].
      destruct (IH _ _ _ _ H1) as (st2 & ds2 & r2 & E2 & H2). exists st2, ds2, r2. split; [exact E2|]. rewrite <- app_assoc in H2. exact H2.
  Qed.

  Record reduced (LL : list (list (list pt))) (dist : list (list cluster_geom)) (mults : list (list nat)) (red : list nat) (DL : list (list (list pt))) : Prop := {
    rd_cl : Forall2 (Forall2 cluster) dist DL;
    rd_len : length DL = length LL;
    rd_lev : forall k, k < length LL -> apart (congruent sym) (nth k DL []) /\ incl (nth k DL []) (nth k LL []);
    rd_rlen : length red = length (concat LL);
    rd_red : forall a, a < length (concat LL) -> nth a red 0 < length (concat DL) /\ congruent sym (nth a (concat LL) []) (nth (nth a red 0) (concat DL) []);
    rd_mlen : length (concat mults) = length (concat DL);
    rd_mult : forall j, j < length (concat DL) -> nth j (concat mults) 0 = count_occ Nat.eq_dec red j }.

  Lemma concat_snoc {A} (L : list (list A)) l : concat (L ++ [l]) = concat L ++ l.
  Proof. rewrite concat_app. cbn [concat]. rewrite app_nil_r. reflexivity. Qed.
  Lemma nth_app_case {A} (l m : list A) k d : k < length l + length m ->
    k < length l /\ nth k (l ++ m) d = nth k l d \/ exists j, k = length l + j /\ j < length m /\ nth k (l ++ m) d = nth j m d.
  Proof.
    intros Hk. destruct (Nat.lt_ge_cases k (length l)) as [H|H]; [left; split; [exact H|apply app_nth1; exact H]|]. right.
    exists (k - length l). split; [lia|]. split; [lia|]. apply app_nth2. exact H.
  Qed.
  Lemma nth_app_r {A} (l m : list A) j d : nth (length l + j) (l ++ m) d = nth j m d.
  Proof. rewrite app_nth2 by lia. f_equal. lia. Qed.

  Lemma reduce_clusters_ok orders LL : Forall2 (Forall2 cluster) orders LL ->
    exists dist mults red DL, reduce_clusters sym orders = Ok (dist, mults, red) /\ reduced LL dist mults red DL.
  Proof.
    revert orders. induction LL as [|N LL IH] using rev_ind; intros orders F.
    - inversion F; subst. exists [], [], [], []. split; [reflexivity|]. constructor; cbn; try (intros; lia); try reflexivity. constructor.
    - destruct (Forall2_app_inv_r _ _ F) as (o1 & o2 & F1 & F2 & ->). inversion F2 as [|cl ? o3 ? FN Fn]; subst. inversion Fn; subst. clear F F2 Fn.
      destruct (IH o1 F1) as (dist & mults & red & DL & E & [F2 L2 V2 R2 C2 M2 U2]). unfold reduce_clusters in *. rewrite rfold_app, E. cbn [bind rfold].
      destruct (place_all (length (concat dist)) red cl N FN) as ([[d m] red'] & ds & r & -> & [Fd Ad Id Er Lr Cr Ml Mu]). cbn [bind fst snd] in *.
      assert (EL : length (concat dist) = length (concat DL)) by (apply (Forall2_length' cluster), Forall2_concat, F2). rewrite EL in *.
      exists (dist ++ [d]), (mults ++ [m]), red', (DL ++ [ds]). split; [reflexivity|]. subst red'. constructor.
      + apply Forall2_snoc; assumption.
      + rewrite !app_length. cbn. lia.
      + intros k Hk. rewrite app_length in Hk. cbn in Hk. destruct (nth_snoc LL N k [] Hk) as [[X ->]|[X ->]].
        * rewrite app_nth1 by lia. apply V2. exact X.
        * subst k. rewrite <- L2, nth_middle. auto.
      + rewrite concat_snoc, !app_length. lia.
      + intros a Ha. rewrite !concat_snoc in *. rewrite app_length in Ha |- *. destruct (nth_app_case (concat LL) N a [] Ha) as [[X ->]|(j & -> & Hj & ->)].
        * rewrite (app_nth1 red) by lia. destruct (C2 a X) as [B1 B2]. split; [lia|]. rewrite app_nth1 by exact B1. exact B2.
        * rewrite <- R2, nth_app_r. destruct (Cr j Hj) as (i & Hi & -> & K). split; [lia|]. rewrite nth_app_r. exact K.
      + rewrite !concat_snoc, !app_length. lia.
      + intros j Hj. rewrite !concat_snoc in *. rewrite app_length in Hj. rewrite count_occ_app.
        destruct (Nat.lt_ge_cases j (length (concat DL))) as [H|H].
        * rewrite app_nth1 by lia. rewrite U2 by exact H. assert (Z : count_occ Nat.eq_dec r j = 0); [|lia].
          apply count_occ_not_In. intros Hi. apply (In_nth _ _ 0) in Hi as (k & Hk & Ek). destruct (Cr k ltac:(lia)) as (i & _ & Ei & _). lia.
        * replace j with (length (concat mults) + (j - length (concat mults))) at 1 by lia. rewrite nth_app_r, Mu by lia. rewrite M2.
          replace (length (concat DL) + (j - length (concat DL))) with j by lia.
          assert (Z : count_occ Nat.eq_dec red j = 0); [|lia].
          apply count_occ_not_In. intros Hi. apply (In_nth _ _ 0) in Hi as (k & Hk & Ek). destruct (C2 k ltac:(lia)) as [B _]. lia.
  Qed.

  (** Levels of different sizes. *)
  Lemma reduced_apart LL dist mults red DL : reduced LL dist mults red DL ->
    (forall k l, k < length LL -> In l (nth k LL []) -> NoDup l /\ length l = S k) ->
    apart (congruent sym) (concat DL) /\
    (forall d, In d (concat DL) -> In d (concat LL)) /\
    (forall a j, a < length (concat LL) -> j < length (concat DL) -> (nth a red 0 = j <-> congruent sym (nth a (concat LL) []) (nth j (concat DL) []))).
  Proof.
    intros [F2 L2 V2 R2 C2 M2 U2] H.
    assert (A : apart (congruent sym) (concat DL)).
    { intros a b Ha Hb K. destruct (concat_split DL a Ha) as (ka & ja & Hka & Hja & Ea). destruct (concat_split DL b Hb) as (kb & jb & Hkb & Hjb & Eb).
      destruct (concat_at DL ka ja [] Hka Hja) as [_ Na]. destruct (concat_at DL kb jb [] Hkb Hjb) as [_ Nb].
      rewrite Ea, Eb, Na, Nb in K. rewrite L2 in Hka, Hkb. destruct (V2 ka Hka) as [Aa Ia]. destruct (V2 kb Hkb) as [Ab Ib].
      destruct (H ka _ Hka (Ia _ (nth_In _ [] Hja))) as [N1 S1]. destruct (H kb _ Hkb (Ib _ (nth_In _ [] Hjb))) as [N2 S2].
      assert (ka = kb) by (pose proof (congruent_length sym _ _ N1 N2 K); lia). subst kb. assert (ja = jb) by (apply Aa; assumption). congruence. }
    split; [exact A|]. split.
    - intros d Hd. apply in_concat in Hd as (L & HL & Hd). apply (In_nth _ _ []) in HL as (k & Hk & <-). rewrite L2 in Hk.
      apply in_concat. exists (nth k LL []). split; [apply nth_In; exact Hk|]. apply (V2 k Hk), Hd.
    - intros a j Ha Hj. destruct (C2 a Ha) as [B1 B2]. split; [intros <-; exact B2|]. intros K. apply A; auto.
      apply (congruent_trans sym _ (nth a (concat LL) [])); [apply congruent_sym; exact B2|exact K].
  Qed.
End Reduce.

(** ** Tables *)
Lemma tab_entry n m f i j : i < n -> j < m -> (entry (tab n m f) i j == f i j)%Q.
Proof.
  intros Hi Hj. unfold entry, tab. rewrite (nth_indep _ [] (map (fun j => Qred (f 0 j)) (seq 0 m))) by (rewrite map_length, seq_length; exact Hi).
  rewrite (map_nth (fun i => map (fun j => Qred (f i j)) (seq 0 m))), seq_nth by exact Hi.
  rewrite (nth_indep _ 0%Q (Qred (f (0 + i) 0))) by (rewrite map_length, seq_length; exact Hj).
  rewrite (map_nth (fun j => Qred (f (0 + i) j))), seq_nth by exact Hj. apply Qred_correct.
Qed.
Lemma qsum_ext n f g : (forall k, k < n -> (f k == g k)%Q) -> (qsum n f == qsum n g)%Q.
Proof.
  intros H. unfold qsum. assert (K : forall l, (forall k, In k l -> k < n) -> (fold_right Qplus 0 (map f l) == fold_right Qplus 0 (map g l))%Q).
  { induction l as [|k l IH]; intros Hl; cbn [map fold_right]; [reflexivity|]. rewrite (H k (Hl k (or_introl eq_refl))), IH; [reflexivity|]. intros; apply Hl; right; assumption. }
  apply K. intros k Hk. apply in_seq in Hk. lia.
Qed.
Lemma qsum_count n (p : nat -> bool) : (qsum n (fun k => if p k then 1 else 0) == inject_Z (Z.of_nat (length (filter p (seq 0 n)))))%Q.
Proof.
  unfold qsum. generalize (seq 0 n). induction l as [|k l IH]; cbn [map fold_right filter]; [reflexivity|]. rewrite IH. destruct (p k).
  - cbn [length]. rewrite Nat2Z.inj_succ. unfold Z.succ. rewrite inject_Z_plus. ring.
  - ring.
Qed.
Lemma qsum_select n (p : nat -> bool) (c : Q) : (qsum n (fun k => (if p k then 1 else 0) * c) == inject_Z (Z.of_nat (length (filter p (seq 0 n)))) * c)%Q.
Proof.
  rewrite <- qsum_count. unfold qsum. generalize (seq 0 n). induction l as [|k l IH]; cbn [map fold_right]; [ring|]. rewrite IH. ring.
Qed.

(** ** The reduced sub-clusters of an open geometry *)
Section Open.
  Context {Ph : Type} (parent : geometry Ph) (P : list pt).
  Hypothesis (Hat : at_sites parent P) (HP : NoDup P) (Hn : g_n parent = length P).
  Notation adj := (linked (1, 0)%Z (0, 1)%Z).
  Hypothesis Hadj : forall j k, j < length P -> k < length P ->
    ((ent (g_adj parent) j k == 1)%Q <-> adj (nth j P (0, 0)%Z) (nth k P (0, 0)%Z)).

  Lemma open_sym j k : j < length P -> k < length P -> (ent (g_adj parent) j k == 1 -> ent (g_adj parent) k j == 1)%Q.
  Proof. intros Hj Hk H. apply Hadj; auto. apply linked_sym. apply Hadj; auto. Qed.
  Lemma walk_adj {A} (a1 a2 : A -> A -> Prop) S p q : (forall x y, In x S -> In y S -> a1 x y -> a2 x y) -> walk a1 S p q -> walk a2 S p q.
  Proof.
    intros H. induction 1 as [p Hp|p q r Hp Ha Hw IH]; [apply walk_stay; exact Hp|]. eapply walk_step; [exact Hp| |exact IH].
    apply H; auto. apply (walk_in _ _ _ _ Hw).
  Qed.
  Lemma open_connected T : incl T P -> (connected (neighbours parent P) T <-> connected adj T).
  Proof.
    intros HT. assert (E : forall x y, In x T -> In y T -> (neighbours parent P x y <-> adj x y)).
    { intros x y Hx Hy. split.
      - intros (j & k & Hj & Hk & <- & <- & H). apply Hadj; assumption.
      - intros H. apply HT in Hx. apply HT in Hy. apply (@In_nth pt _ _ (0, 0)%Z) in Hx as (j & Hj & Ej). apply (@In_nth pt _ _ (0, 0)%Z) in Hy as (k & Hk & Ek).
        exists j, k. repeat split; auto. apply Hadj; auto. rewrite Ej, Ek. exact H. }
    unfold connected. split; intros (H0 & H1 & H2); (split; [exact H0|split; [exact H1|]]); intros p q Hp Hq;
      (eapply walk_adj; [|apply H2; assumption]); intros x y Hx Hy; apply E; assumption.
  Qed.

  Record reduced_ok (subs : list cluster_geom) (M : table) (inds : list nat) (DL : list (list (list pt))) : Prop := {
    ro_cl : Forall2 cluster subs (concat DL);
    ro_inds : inds = sums 0 DL;
    ro_lev : forall k d, k < length DL -> In d (nth k DL []) -> connected adj d /\ incl d P /\ length d = S k;
    ro_ap : apart (congruent true) (concat DL);
    ro_all : forall T, connected adj T -> incl T P -> exists j, j < length (concat DL) /\ congruent true T (nth j (concat DL) []);
    ro_mat : forall i j, i < length (concat DL) -> j < length (concat DL) ->
      exists N, (entry M i j == inject_Z (Z.of_nat N))%Q /\ contains true adj (nth i (concat DL) []) (nth j (concat DL) []) N }.

  Lemma edge_indices_sums {A} (dist : list (list A)) (DL : list (list (list pt))) : Forall2 (fun a b => length a = length b) dist DL ->
    edge_indices dist = sums 0 DL.
  Proof.
    intros F. unfold edge_indices. revert dist F. induction DL as [|N DL IH] using rev_ind; intros dist F.
    - inversion F; subst. reflexivity.
    - destruct (Forall2_app_inv_r _ _ F) as (o1 & o2 & F1 & F2 & ->). inversion F2 as [|cl ? o3 ? FN Fn]; subst. inversion Fn; subst.
      rewrite fold_left_app, IH by exact F1. cbn [fold_left]. rewrite sums_snoc. f_equal. f_equal. rewrite FN. 
      assert (E : forall s L, last (sums s L) 0 = s + length (concat L)).
      { clear. intros s L. revert s. induction L as [|l L IH]; intros s; [cbn; lia|]. cbn [sums concat]. rewrite app_length.
        assert (X : sums (s + length l) L <> []) by (destruct L; discriminate). destruct (sums (s + length l) L) eqn:Q; [congruence|]. rewrite <- Q in *.
        change (last (s :: sums (s + length l) L) 0) with (match sums (s + length l) L with [] => s | _ => last (sums (s + length l) L) 0 end).
        rewrite Q at 1. rewrite IH. lia. }
      rewrite E. lia.
  Qed.

  Lemma reduced_subclusters_ok : exists subs M inds DL, reduced_subclusters parent = Ok (subs, M, inds) /\ reduced_ok subs M inds DL.
  Proof.
    unfold reduced_subclusters.
    destruct (all_subclusters_ok parent P Hat HP Hn open_sym) as (orders & sinds & LL & -> & F & HL & AP & ALL & LI & HI). cbn [bind fst snd].
    destruct (reduce_clusters_ok true orders LL F) as (dist & mults & red & DL & -> & RD). cbn [bind].
    destruct (reduced_apart true LL dist mults red DL RD) as (AD & ID & RED). { intros k l Hk Hl. destruct (HL k l Hk Hl) as (C & _ & L). split; [apply C|exact L]. }
    pose proof RD as [F2 L2 V2 R2 C2 _ _].
    pose proof (Forall2_concat _ _ _ F2) as FC. pose proof (Forall2_length' _ _ _ FC) as LC.
    set (SC := sub_mat sinds). set (nf := length red). set (nr := length (concat dist)).
    set (C := tab nr nf _). set (RF := tab nf nr _). set (M := tab nr nr _).
    exists (concat dist), M, (edge_indices dist), DL. split; [reflexivity|].
    assert (LEV : forall k d, k < length DL -> In d (nth k DL []) -> connected adj d /\ incl d P /\ length d = S k).
    { intros k d Hk Hd. rewrite L2 in Hk. apply (proj2 (V2 k Hk)) in Hd. destruct (HL k d Hk Hd) as (Cd & Id & Ld). split; [|auto]. apply open_connected; assumption. }
    assert (AIN : forall a, a < length (concat LL) -> connected adj (nth a (concat LL) []) /\ incl (nth a (concat LL) []) P).
    { intros a Ha. destruct (concat_split LL a Ha) as (k & j & Hk & Hj & Ea). destruct (concat_at LL k j [] Hk Hj) as [_ Na]. rewrite Ea, Na.
      destruct (HL k _ Hk (nth_In _ [] Hj)) as (Ca & Ia & _). split; [apply open_connected; assumption|exact Ia]. }
    constructor; auto.
    - apply edge_indices_sums. clear -F2. induction F2; constructor; auto. apply (Forall2_length' _ _ _ H).
    - intros T CT IT. destruct (ALL T) as (a & Ha & S); [apply open_connected; assumption|exact IT|]. destruct (C2 a Ha) as [B1 B2]. exists (nth a red 0).
      split; [exact B1|]. apply (congruent_trans true _ (nth a (concat LL) [])); [apply congruent_of_same; exact S|exact B2].
    - intros i j Hi Hj. assert (Hi' : i < nr) by (unfold nr; lia). assert (Hj' : j < nr) by (unfold nr; lia).
      assert (NF : nf = length (concat LL)) by exact R2.
      (* the number of parts of a full cluster *)
      set (cnt := fun k j => length (filter (fun x => existsb (Nat.eqb x) (nth k sinds []) && (nth x red 0 =? j)) (seq 0 nf))).
      assert (EC : forall a b, a < nr -> b < nf -> (entry C a b == if (nth b red 0 =? a)%nat then 1 else 0)%Q).
      { intros a b Ha Hb. unfold C. rewrite tab_entry by assumption. reflexivity. }
      assert (ESC : forall a b, a < nf -> b < nf -> (entry SC a b == if existsb (Nat.eqb b) (nth a sinds []) then 1 else 0)%Q).
      { intros a b Ha Hb. unfold SC, sub_mat. rewrite tab_entry by lia. reflexivity. }
      assert (ERF : forall k, k < nf -> (entry RF k j == inject_Z (Z.of_nat (cnt k j)))%Q).
      { intros k Hk. unfold RF. rewrite tab_entry by assumption. unfold cnt. rewrite <- qsum_count. apply qsum_ext. intros x Hx.
        rewrite ESC, EC by assumption. destruct (existsb _ _), (nth x red 0 =? j)%nat; cbn [andb]; ring. }
      assert (CNT : forall k, k < nf -> contains true adj (nth k (concat LL) []) (nth j (concat DL) []) (cnt k j)).
      { intros k Hk. rewrite NF in Hk. set (sel := filter (fun x => existsb (Nat.eqb x) (nth k sinds []) && (nth x red 0 =? j)) (seq 0 nf)).
        assert (SEL : forall x, In x sel <-> x < nf /\ proper_part (nth x (concat LL) []) (nth k (concat LL) []) /\ congruent true (nth x (concat LL) []) (nth j (concat DL) [])).
        { intros x. unfold sel. rewrite filter_In, in_seq, andb_true_iff, Nat.eqb_eq, existsb_exists. destruct (HI k Hk) as [_ HIk]. split.
          - intros (Hx & (y & Hy & Ey) & E). apply Nat.eqb_eq in Ey. subst y. apply HIk in Hy as [_ Hp]. split; [lia|]. split; [exact Hp|]. apply (RED x j); [lia|exact Hj|exact E].
          - intros (Hx & Hp & Hc). split; [lia|]. split; [exists x; split; [apply HIk; split; [lia|exact Hp]|apply Nat.eqb_refl]|]. apply RED; [lia|exact Hj|exact Hc]. }
        assert (ND : NoDup sel) by (apply NoDup_filter, seq_NoDup).
        exists (map (fun x => nth x (concat LL) []) sel). split; [apply map_length|]. split; [|split].
        - intros a b Ha Hb S. unfold cnt in Ha, Hb. fold sel in Ha, Hb.
          assert (NS : forall a, a < length sel -> nth a (map (fun x => nth x (concat LL) []) sel) [] = nth (nth a sel 0) (concat LL) []).
          { clear. induction sel as [|x l IH]; intros [|a] Ha; cbn in *; try lia; [reflexivity|]. apply IH. lia. }
          rewrite !NS in S by assumption. apply (proj1 (NoDup_nth sel 0) ND); auto. apply AP; [| |exact S].
          + rewrite <- NF. apply SEL. apply nth_In. exact Ha.
          + rewrite <- NF. apply SEL. apply nth_In. exact Hb.
        - intros o Ho. apply in_map_iff in Ho as (x & <- & Hx). apply SEL in Hx as (Hx & Hp & Hc). split; [apply AIN; lia|]. auto.
        - intros o Co Po Ko. assert (IO : incl o P). { intros y Hy. apply (AIN k Hk). apply (proj1 Po), Hy. }
          destruct (ALL o) as (x & Hx & S); [apply open_connected; assumption|exact IO|]. exists (nth x (concat LL) []). split; [|exact S].
          apply in_map_iff. exists x. split; [reflexivity|]. apply SEL. split; [lia|]. split.
          + destruct Po as [P1 P2]. split; [intros y Hy; apply P1, S, Hy|]. intros Hin. apply P2. intros y Hy. apply S, Hin, Hy.
          + apply (congruent_trans true _ o); [apply congruent_of_same, same_sym; exact S|exact Ko]. }
      (* a representative *)
      assert (INJ : In (nth i (concat DL) []) (concat LL)) by (apply ID, nth_In; exact Hi).
      apply (In_nth _ _ []) in INJ as (k & Hk & Ek).
      exists (cnt k j). split; [|rewrite <- Ek; apply CNT; lia].
      unfold M. rewrite tab_entry by assumption.
      assert (Hki : nth k red 0 = i) by (apply RED; [exact Hk|exact Hi|rewrite Ek; apply congruent_refl]).
      set (q := inject_Z (Z.of_nat (length (filter (fun x => nth x red 0 =? i) (seq 0 nf))))).
      assert (E1 : (qsum nf (entry C i) == q)%Q).
      { unfold q. rewrite <- qsum_count. apply qsum_ext. intros x Hx. apply EC; assumption. }
      assert (E2 : (qsum nf (fun x => entry C i x * entry RF x j) == q * inject_Z (Z.of_nat (cnt k j)))%Q).
      { unfold q. rewrite <- qsum_select. apply qsum_ext. intros x Hx. rewrite EC, ERF by assumption. destruct (Nat.eqb_spec (nth x red 0) i) as [Ex|Ex]; [|ring].
        assert (cnt x j = cnt k j); [|rewrite H; reflexivity]. apply (contains_unique true adj (nth k (concat LL) []) (nth j (concat DL) [])); [|apply CNT; lia].
        apply (contains_congruent true (1, 0)%Z (0, 1)%Z (nth x (concat LL) []) _ (nth j (concat DL) [])); [right; auto| |apply congruent_refl|apply CNT; exact Hx].
        rewrite Ek. apply RED; [lia|exact Hi|exact Ex]. }
      rewrite E1, E2. assert (~ (q == 0)%Q).
      { unfold q. change 0%Q with (inject_Z 0). rewrite inj_eq. assert (In k (filter (fun x => nth x red 0 =? i) (seq 0 nf))).
        { apply filter_In. split; [apply in_seq; lia|apply Nat.eqb_eq; exact Hki]. }
        destruct (filter _ _); [destruct H|cbn; lia]. }
      field. exact H.
  Qed.
End Open.
