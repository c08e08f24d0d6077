(** Sub-cluster multiplicities in the basis of all clusters. *)
From Coq Require Import List Arith Lia ZArith QArith Permutation Sorting Bool.
From Verif Require Import Res Matrix ModelGeometry ModelNlce SpecCluster GeoArith ClusterSets ClusterRep ClusterSym ClusterAll ClusterSub ClusterCount.
Import ListNotations.
Local Open Scope nat_scope.

(** ** Index ranges of the orders *)
Record indexed (inds : list nat) (L : list (list pt)) (n : nat) : Prop := {
  ix_len : length inds = S n;
  ix_in : forall k a, k < n -> nth k inds 0 <= a < nth (S k) inds 0 -> a < length L /\ length (nth a L []) = S k;
  ix_all : forall a, a < length L -> exists k, k < n /\ nth k inds 0 <= a < nth (S k) inds 0 }.

Lemma interval_find (f : nat -> nat) n a : f 0 = 0 -> a < f n -> exists k, k < n /\ f k <= a < f (S k).
Proof.
  intros H0. induction n as [|n IH]; intros H; [lia|]. destruct (Nat.lt_ge_cases a (f n)) as [Hl|Hl].
  - destruct (IH Hl) as (k & Hk & E). exists k. split; [lia|exact E].
  - exists n. split; [lia|]. lia.
Qed.
Lemma mono_below (f : nat -> nat) n : (forall k, k < n -> f k <= f (S k)) -> forall k, k <= n -> f k <= f n.
Proof.
  intros H k Hk. replace n with (k + (n - k)) in H, Hk |- * by lia. generalize (n - k), H. clear. intros d H. induction d as [|d IH]; [rewrite Nat.add_0_r; lia|].
  replace (k + S d) with (S (k + d)) in * by lia. etransitivity; [apply IH; intros; apply H; lia|]. apply H. lia.
Qed.
Lemma indexed_sums (DL : list (list (list pt))) : (forall k d, k < length DL -> In d (nth k DL []) -> length d = S k) ->
  indexed (sums 0 DL) (concat DL) (length DL).
Proof.
  intros H. constructor.
  - apply sums_length.
  - intros k a Hk Ha. rewrite !sums_nth in Ha by lia. rewrite firstn_S_nth in Ha by exact Hk. rewrite concat_snoc, app_length in Ha.
    destruct (concat_at DL k (a - length (concat (firstn k DL))) [] Hk ltac:(lia)) as [A1 A2].
    replace (length (concat (firstn k DL)) + (a - length (concat (firstn k DL)))) with a in A1, A2 by lia. split; [exact A1|]. rewrite A2.
    apply (H k _ Hk), nth_In. lia.
  - intros a Ha. destruct (concat_split DL a Ha) as (k & j & Hk & Hj & ->). exists k. split; [exact Hk|]. rewrite !sums_nth by lia.
    rewrite firstn_S_nth by exact Hk. rewrite concat_snoc, app_length. lia.
Qed.

Section Map.
  Context (sym : bool) (larger smaller : list cluster_geom) (L Sm : list (list pt)) (inds_l inds_s : list nat) (nl ns : nat).
  Hypothesis (FL : Forall2 cluster larger L) (FS : Forall2 cluster smaller Sm) (XL : indexed inds_l L nl) (XS : indexed inds_s Sm ns).

  Definition fold_pairs (lo hi : nat) (ii : nat) : list (nat * nat) -> res (list (nat * nat)) := fun acc =>
    rfold (fun acc jj => match nth_error smaller ii, nth_error larger jj with
        | Some sub, Some c => ps <- partners sym sub ;; e <- any_equal ps c ;; Ok (if e then acc ++ [(ii, jj)] else acc)
        | _, _ => Raise IndexError end) (range lo hi) acc.

  Lemma pairs_row ii jjs acc : ii < length Sm -> (forall jj, In jj jjs -> jj < length L) ->
    exists ps, rfold (fun acc jj => match nth_error smaller ii, nth_error larger jj with
        | Some sub, Some c => ps <- partners sym sub ;; e <- any_equal ps c ;; Ok (if e then acc ++ [(ii, jj)] else acc)
        | _, _ => Raise IndexError end) jjs acc = Ok ps /\
      forall x, In x ps <-> In x acc \/ fst x = ii /\ In (snd x) jjs /\ congruent sym (nth ii Sm []) (nth (snd x) L []).
  Proof using FL FS.
    clear XL XS nl ns inds_l inds_s. intros Hi. set (f := fun acc jj => _). revert acc. induction jjs as [|jj jjs IH]; intros acc Hj; cbn [rfold].
    - exists acc. split; [reflexivity|]. intros x. cbn. tauto.
    - pose proof (Forall2_length' _ _ _ FL) as E1. pose proof (Forall2_length' _ _ _ FS) as E2.
      assert (Hjj : jj < length L) by (apply Hj; left; reflexivity). unfold f at 1.
      destruct (nth_error smaller ii) as [sub|] eqn:Es; [|apply nth_error_None in Es; lia].
      destruct (nth_error larger jj) as [c|] eqn:Ec; [|apply nth_error_None in Ec; lia].
      assert (Cs : cluster sub (nth ii Sm [])). { pose proof (Forall2_nth cluster _ _ sub [] ii FS ltac:(lia)) as H. rewrite (nth_error_nth _ _ _ Es) in H. exact H. }
      assert (Cc : cluster c (nth jj L [])). { pose proof (Forall2_nth cluster _ _ c [] jj FL ltac:(lia)) as H. rewrite (nth_error_nth _ _ _ Ec) in H. exact H. }
      destruct (partners_ok sym sub _ Cs) as (ps & os & -> & Fp & R). cbn [bind].
      destruct (any_equal_ok ps os c _ Fp Cc) as (b & -> & Hb). cbn [bind]. rewrite (related_congruent sym _ os _ R) in Hb.
      destruct (IH (if b then acc ++ [(ii, jj)] else acc)) as (r & -> & Hr). { intros; apply Hj; right; assumption. }
      exists r. split; [reflexivity|]. intros [x y]. rewrite Hr. cbn [fst snd In]. destruct b.
      + rewrite in_app_iff. cbn [In]. split.
        * intros [[H|[E|[]]]|H]; [left; exact H| |right; tauto]. injection E as -> ->. right. split; [reflexivity|]. split; [left; reflexivity|]. apply Hb. reflexivity.
        * intros [H|(-> & [<-|H] & K)]; [tauto|left; right; left; reflexivity|right; auto].
      + split; [intros [H|H]; [tauto|right; tauto]|]. intros [H|(-> & [<-|H] & K)]; [tauto| |right; auto]. apply Hb in K. discriminate.
  Qed.
  Lemma pairs_block iis lo hi acc : (forall ii, In ii iis -> ii < length Sm) -> (forall jj, In jj (range lo hi) -> jj < length L) ->
    exists ps, rfold (fun acc ii => fold_pairs lo hi ii acc) iis acc = Ok ps /\
      forall x, In x ps <-> In x acc \/ In (fst x) iis /\ In (snd x) (range lo hi) /\ congruent sym (nth (fst x) Sm []) (nth (snd x) L []).
  Proof using FL FS.
    clear XL XS nl ns inds_l inds_s. intros Hi Hj. revert acc. induction iis as [|ii iis IH]; intros acc; cbn [rfold].
    - exists acc. split; [reflexivity|]. intros x. cbn. tauto.
    - unfold fold_pairs at 1. destruct (pairs_row ii (range lo hi) acc) as (r1 & -> & H1); [apply Hi; left; reflexivity|exact Hj|]. cbn [bind].
      destruct (IH (fun x Hx => Hi x (or_intror Hx)) r1) as (r2 & -> & H2). exists r2. split; [reflexivity|]. intros x. rewrite H2, H1. cbn [In]. split.
      + intros [[H|(E & H & K)]|(H & K)]; [tauto| |tauto]. right. rewrite <- E in K. auto.
      + intros [H|([E|H] & J & K)]; [tauto| |tauto]. left. right. rewrite E. auto.
  Qed.
  Lemma in_range lo hi x : In x (range lo hi) <-> lo <= x < hi.
  Proof using. clear. unfold range. rewrite in_seq. lia. Qed.

  Lemma map_between_ok : exists ps, map_between larger inds_l smaller inds_s sym = Ok ps /\
    forall i j, In (i, j) ps <-> i < length Sm /\ j < length L /\ congruent sym (nth i Sm []) (nth j L []) /\ length (nth i Sm []) = length (nth j L []).
  Proof.
    unfold map_between. destruct XL as [LL IL AL], XS as [LS IS AS]. rewrite LL, LS. replace (S nl - 1) with nl by lia. replace (S ns - 1) with ns by lia.
    set (step := fun acc order => _).
    assert (K : forall os acc, (forall o, In o os -> o < Nat.min nl ns) -> exists ps, rfold step os acc = Ok ps /\
      forall x, In x ps <-> In x acc \/ exists o, In o os /\ nth o inds_s 0 <= fst x < nth (S o) inds_s 0 /\ nth o inds_l 0 <= snd x < nth (S o) inds_l 0 /\
        congruent sym (nth (fst x) Sm []) (nth (snd x) L [])).
    { induction os as [|o os IH]; intros acc Ho; cbn [rfold].
      - exists acc. split; [reflexivity|]. intros x. split; [tauto|]. intros [H|(o & [] & _)]. exact H.
      - assert (Hoo : o < Nat.min nl ns) by (apply Ho; left; reflexivity). unfold step at 1.
        rewrite (nth_error_nth' inds_s 0) by lia. rewrite (nth_error_nth' inds_s 0) by lia.
        rewrite (nth_error_nth' inds_l 0) by lia. rewrite (nth_error_nth' inds_l 0) by lia.
        destruct (pairs_block (range (nth o inds_s 0) (nth (S o) inds_s 0)) (nth o inds_l 0) (nth (S o) inds_l 0) acc) as (r1 & E1 & H1).
        { intros ii H. apply in_range in H. apply (IS o); [lia|exact H]. }
        { intros jj H. apply in_range in H. apply (IL o); [lia|exact H]. }
        unfold fold_pairs in E1. rewrite E1. cbn [bind].
        destruct (IH r1 (fun x Hx => Ho x (or_intror Hx))) as (r2 & -> & H2). exists r2. split; [reflexivity|]. intros x. rewrite H2, H1, !in_range. split.
        + intros [[H|H]|(o' & Ho' & H)]; [tauto| |right; exists o'; split; [right; exact Ho'|exact H]]. right. exists o. split; [left; reflexivity|exact H].
        + intros [H|(o' & [<-|Ho'] & H)]; [tauto|tauto|]. right. exists o'. auto. }
    destruct (K (seq 0 (Nat.min nl ns)) []) as (ps & -> & H). { intros o Ho. apply in_seq in Ho. lia. }
    exists ps. split; [reflexivity|]. intros i j. rewrite H. cbn [fst snd In]. split.
    - intros [[]|(o & Ho & Hi & Hj & C)]. apply in_seq in Ho. destruct (IS o i ltac:(lia) Hi) as [I1 I2]. destruct (IL o j ltac:(lia) Hj) as [J1 J2].
      split; [exact I1|]. split; [exact J1|]. split; [exact C|]. congruence.
    - intros (Hi & Hj & C & E). right. destruct (AS i Hi) as (k & Hk & Ek). destruct (AL j Hj) as (k' & Hk' & Ek').
      destruct (IS k i Hk Ek) as [_ E1]. destruct (IL k' j Hk' Ek') as [_ E2]. assert (k = k') by lia. subst k'.
      exists k. split; [apply in_seq; lia|]. auto.
  Qed.
End Map.

(** ** Sums *)
Lemma qsum_S n f : (qsum (S n) f == qsum n f + f n)%Q.
Proof.
  unfold qsum. rewrite seq_S, map_app. cbn [Nat.add map]. generalize (map f (seq 0 n)). induction l as [|x l IH]; cbn [app fold_right]; [ring|]. rewrite IH. ring.
Qed.
Lemma qsum_zero n f : (forall k, k < n -> (f k == 0)%Q) -> (qsum n f == 0)%Q.
Proof. induction n as [|n IH]; intros H; [reflexivity|]. rewrite qsum_S, IH, (H n) by (intros; try apply H; lia). reflexivity. Qed.
Lemma qsum_one n f k : k < n -> (forall x, x < n -> x <> k -> (f x == 0)%Q) -> (qsum n f == f k)%Q.
Proof.
  induction n as [|n IH]; intros Hk H; [lia|]. rewrite qsum_S. destruct (Nat.eq_dec k n) as [->|Hkn].
  - rewrite qsum_zero; [ring|]. intros x Hx. apply H; lia.
  - rewrite IH, (H n); [ring|lia|lia|lia|]. intros; apply H; lia.
Qed.
Lemma qsum_pos n f : (forall k, k < n -> (0 <= f k)%Q) -> (0 <= qsum n f)%Q.
Proof.
  induction n as [|n IH]; intros H; [apply Qle_refl|]. rewrite qsum_S. rewrite <- (Qplus_0_r 0). apply Qplus_le_compat; [apply IH; intros; apply H; lia|apply H; lia].
Qed.
Lemma qsum_nonneg_zero n f : (forall k, k < n -> (0 <= f k)%Q) -> (qsum n f <= 0)%Q -> forall k, k < n -> (f k == 0)%Q.
Proof.
  induction n as [|n IH]; intros H Hs k Hk; [lia|]. rewrite qsum_S in Hs.
  assert (P : (0 <= qsum n f)%Q) by (apply qsum_pos; intros; apply H; lia). pose proof (H n ltac:(lia)) as Hn.
  assert (Z1 : (qsum n f <= 0)%Q). { apply (Qle_trans _ (qsum n f + f n)); [|exact Hs]. rewrite <- (Qplus_0_r (qsum n f)) at 1. apply Qplus_le_compat; [apply Qle_refl|exact Hn]. }
  destruct (Nat.eq_dec k n) as [->|Hkn].
  - apply Qle_antisym; [|exact Hn]. apply (Qle_trans _ (qsum n f + f n)); [|exact Hs]. rewrite <- (Qplus_0_l (f n)) at 1. apply Qplus_le_compat; [exact P|apply Qle_refl].
  - apply IH; [intros; apply H; lia|exact Z1|lia].
Qed.
Lemma inject_nat_pos N : (0 <= inject_Z (Z.of_nat N))%Q.
Proof. change 0%Q with (inject_Z 0). apply inject_le. lia. Qed.

(** ** Growing clusters *)
Notation nn := (linked (1, 0)%Z (0, 1)%Z).
Lemma has_right (l : list pt) : l <> [] -> exists p, In p l /\ forall q, In q l -> (fst q <= fst p)%Z.
Proof.
  induction l as [|a l IH]; [congruence|]. intros _. destruct l as [|b l].
  - exists a. split; [left; reflexivity|]. intros q [<-|[]]. lia.
  - destruct IH as (p & Hp & H); [discriminate|]. destruct (Z_le_gt_dec (fst a) (fst p)).
    + exists p. split; [right; exact Hp|]. intros q [<-|Hq]; [lia|]. apply H. exact Hq.
    + exists a. split; [left; reflexivity|]. intros q [<-|Hq]; [lia|]. apply H in Hq. lia.
Qed.
Lemma extend S d : connected nn S -> exists T, connected nn T /\ incl S T /\ length T = length S + d.
Proof.
  intros C. induction d as [|d (T & CT & IT & LT)]; [exists S; split; [exact C|]; split; [apply incl_refl|lia]|].
  destruct (has_right T (proj1 CT)) as (p & Hp & H). exists (T ++ [shift (1, 0)%Z p]). split; [|split].
  - apply (connected_add nn T p); [apply linked_sym|exact CT|exact Hp|left; reflexivity|]. intros Hi. apply H in Hi. cbn in Hi. lia.
  - intros x Hx. apply in_or_app. left. apply IT, Hx.
  - rewrite app_length. cbn. lia.
Qed.

Lemma cluster_open g l : cluster g l -> at_sites g l /\ NoDup l /\ g_n g = length l /\
  forall j k, j < length l -> k < length l -> ((ent (g_adj g) j k == 1)%Q <-> nn (nth j l (0, 0)%Z) (nth k l (0, 0)%Z)).
Proof.
  intros [R N _ _]. split; [apply rep_sites; exact R|]. split; [exact N|]. split; [apply (rep_n _ _ R)|]. intros j k Hj Hk.
  rewrite (rep_adj _ _ R j k Hj Hk). unfold pn.
  assert (E : forall a b, nn a b <-> (Z.abs (fst a - fst b) + Z.abs (snd a - snd b) = 1)%Z).
  { intros [a a'] [b b']. unfold linked, shift. cbn [fst snd]. split.
    - intros [E|[E|[E|E]]]; injection E; intros; lia.
    - intros E.
      assert (C : (b = a + 1 /\ b' = a' \/ a = b + 1 /\ a' = b' \/ b = a /\ b' = a' + 1 \/ a = b /\ a' = b' + 1)%Z) by lia.
      destruct C as [[C D]|[[C D]|[[C D]|[C D]]]]; [left|right; left|right; right; left|right; right; right]; f_equal; lia. }
  rewrite E. destruct (Z.eqb_spec (Z.abs (fst (nth j l (0, 0)%Z) - fst (nth k l (0, 0)%Z)) + Z.abs (snd (nth j l (0, 0)%Z) - snd (nth k l (0, 0)%Z)))%Z 1) as [H|H].
  - split; [intros _; exact H|reflexivity].
  - split; [intros Q; discriminate Q|contradiction].
Qed.

(** ** The table *)
Section Table.
  Context (full : list cluster_geom) (L : list (list pt)) (inds : list nat) (n : nat).
  Hypothesis (FL : Forall2 cluster full L) (XL : indexed inds L n) (AL : apart (congruent true) L).
  Hypothesis CL : forall a, a < length L -> connected nn (nth a L []).
  Notation N := (length full).

  (** A part of [c] looks like [a]. *)
  Definition fits (a c : nat) : Prop := exists T, connected nn T /\ incl T (nth c L []) /\ congruent true (nth a L []) T.

  Lemma contribution c g : c < length L -> nth_error full c = Some g ->
    exists subs SM sinds ps, reduced_subclusters g = Ok (subs, SM, sinds) /\ map_between full inds subs sinds true = Ok ps /\
      let ns := length subs in
      let R := pair_mat ns N ps in
      let SR := tab ns N (fun i b => qsum ns (fun j => entry SM i j * entry R j b)%Q) in
      let F := tab N N (fun a b => qsum ns (fun i => entry R i a * entry SR i b)%Q) in
      forall a, a < N -> 
        (forall b, b < N -> exists m, (entry F a b == inject_Z (Z.of_nat m))%Q /\ contains true nn (nth a L []) (nth b L []) m) \/
        ((forall b, b < N -> (entry F a b == 0)%Q) /\ ~ fits a c).
  Proof.
    intros Hc Eg. pose proof (Forall2_length' _ _ _ FL) as LF.
    assert (Cg : cluster g (nth c L [])). { pose proof (Forall2_nth cluster _ _ g [] c FL ltac:(lia)) as H. rewrite (nth_error_nth _ _ _ Eg) in H. exact H. }
    destruct (cluster_open g _ Cg) as (Hat & HP & Hn & Hadj).
    destruct (reduced_subclusters_ok g (nth c L []) Hat HP Hn Hadj) as (subs & SM & sinds & DL & E & [Fs Es LV AD ALL MAT]).
    assert (XS : indexed sinds (concat DL) (length DL)). { rewrite Es. apply indexed_sums. intros k d Hk Hd. apply (LV k d Hk Hd). }
    destruct (map_between_ok true full subs L (concat DL) inds sinds n (length DL) FL Fs XL XS) as (ps & Em & Hps).
    exists subs, SM, sinds, ps. split; [exact E|]. split; [exact Em|]. cbv zeta.
    set (ns := length subs). set (R := pair_mat ns N ps). set (SR := tab ns N _). set (F := tab N N _).
    pose proof (Forall2_length' _ _ _ Fs) as LS. fold ns in LS.
    assert (CD : forall i, i < ns -> connected nn (nth i (concat DL) []) /\ incl (nth i (concat DL) []) (nth c L [])).
    { intros i Hi. rewrite LS in Hi. destruct (concat_split DL i Hi) as (k & j & Hk & Hj & Ei). destruct (concat_at DL k j [] Hk Hj) as [_ Ni]. rewrite Ei, Ni.
      destruct (LV k _ Hk (nth_In _ [] Hj)) as (C1 & C2 & _). auto. }
    assert (PS : forall i b, i < ns -> b < N -> (In (i, b) ps <-> congruent true (nth i (concat DL) []) (nth b L []))).
    { intros i b Hi Hb. rewrite Hps. split; [tauto|]. intros K. split; [lia|]. split; [lia|]. split; [exact K|].
      apply (congruent_length true); [apply (CD i Hi)|apply (CL b); lia|exact K]. }
    assert (ER : forall i b, i < ns -> b < N -> (entry R i b == if existsb (fun p => (fst p =? i) && (snd p =? b)) ps then 1 else 0)%Q).
    { intros i b Hi Hb. unfold R, pair_mat. rewrite tab_entry by assumption. reflexivity. }
    assert (EB : forall i b, existsb (fun p => (fst p =? i) && (snd p =? b)) ps = true <-> In (i, b) ps).
    { intros i b. rewrite existsb_exists. split.
      - intros ([x y] & Hx & H). apply andb_true_iff in H as [H1 H2]. apply Nat.eqb_eq in H1, H2. cbn in H1, H2. subst. exact Hx.
      - intros H. exists (i, b). split; [exact H|]. cbn. rewrite !Nat.eqb_refl. reflexivity. }
    assert (R1 : forall i b, i < ns -> b < N -> congruent true (nth i (concat DL) []) (nth b L []) -> (entry R i b == 1)%Q).
    { intros i b Hi Hb K. rewrite ER by assumption. apply PS in K; [|assumption|assumption]. apply EB in K. rewrite K. reflexivity. }
    assert (R0 : forall i b, i < ns -> b < N -> ~ congruent true (nth i (concat DL) []) (nth b L []) -> (entry R i b == 0)%Q).
    { intros i b Hi Hb K. rewrite ER by assumption. destruct (existsb _ ps) eqn:X; [|reflexivity]. destruct K. apply PS; [assumption|assumption|]. apply EB. exact X. }
    assert (DEC : forall b, b < N -> (exists i, i < ns /\ congruent true (nth i (concat DL) []) (nth b L [])) \/ forall i, i < ns -> ~ congruent true (nth i (concat DL) []) (nth b L [])).
    { intros b Hb. destruct (existsb (fun i => existsb (fun p => (fst p =? i) && (snd p =? b)) ps) (seq 0 ns)) eqn:X.
      - left. apply existsb_exists in X as (i & Hi & X). apply in_seq in Hi. exists i. split; [lia|]. apply PS; [lia|exact Hb|]. apply EB. exact X.
      - right. intros i Hi K. assert (existsb (fun i => existsb (fun p => (fst p =? i) && (snd p =? b)) ps) (seq 0 ns) = true); [|congruence].
        apply existsb_exists. exists i. split; [apply in_seq; lia|]. apply EB, PS; assumption. }
    assert (UNI : forall b i i', i < ns -> i' < ns -> congruent true (nth i (concat DL) []) (nth b L []) -> i' <> i -> ~ congruent true (nth i' (concat DL) []) (nth b L [])).
    { intros b i i' Hi Hi' K Hne K'. apply Hne. apply AD; [lia|lia|]. apply (congruent_trans true _ (nth b L [])); [exact K'|apply congruent_sym; exact K]. }
    intros a Ha. destruct (DEC a Ha) as [(i & Hi & Ki)|None].
    - left. intros b Hb.
      assert (EF : (entry F a b == qsum ns (fun j => entry SM i j * entry R j b))%Q).
      { unfold F. rewrite tab_entry by assumption. rewrite (qsum_one ns _ i Hi).
        - rewrite (R1 i a Hi Ha Ki). unfold SR. rewrite tab_entry by assumption. ring.
        - intros x Hx Hxi. rewrite (R0 x a Hx Ha); [ring|]. apply (UNI a i x); assumption. }
      destruct (DEC b Hb) as [(j & Hj & Kj)|None].
      + destruct (MAT i j ltac:(lia) ltac:(lia)) as (m & Em' & Cm). exists m. split.
        * rewrite EF, (qsum_one ns _ j Hj).
          -- rewrite (R1 j b Hj Hb Kj), Em'. ring.
          -- intros x Hx Hxj. rewrite (R0 x b Hx Hb); [ring|]. apply (UNI b j x); assumption.
        * apply (contains_congruent true _ _ (nth i (concat DL) []) _ (nth j (concat DL) [])); [right; auto|exact Ki|exact Kj|exact Cm].
      + exists 0. split.
        * rewrite EF. apply qsum_zero. intros x Hx. rewrite (R0 x b Hx Hb); [ring|]. apply None. exact Hx.
        * apply (contains_congruent true _ _ (nth i (concat DL) []) _ (nth b L [])); [right; auto|exact Ki|apply congruent_refl|].
          exists []. split; [reflexivity|]. split; [intros x y Hx; lia|]. split; [intros o []|].
          intros o Co [Po _] Ko. exfalso. destruct (ALL o Co) as (j & Hj & Kj). { intros y Hy. apply (CD i Hi), Po, Hy. }
          apply (None j ltac:(lia)). apply (congruent_trans true _ o); [apply congruent_sym; exact Kj|exact Ko].
    - right. split.
      + intros b Hb. unfold F. rewrite tab_entry by assumption. apply qsum_zero. intros x Hx. rewrite (R0 x a Hx Ha); [ring|]. apply None. exact Hx.
      + intros (T & CT & IT & KT). destruct (ALL T CT IT) as (j & Hj & Kj). apply (None j ltac:(lia)).
        apply (congruent_trans true _ T); [apply congruent_sym; exact Kj|apply congruent_sym; exact KT].
  Qed.

  Definition row_done (M : table) (a : nat) : Prop :=
    forall b, b < N -> exists m, (entry M a b == inject_Z (Z.of_nat m))%Q /\ contains true nn (nth a L []) (nth b L []) m.
  Definition table_inv (done : list nat) (M : table) : Prop :=
    forall a, a < N -> row_done M a \/ (forall b, b < N -> (entry M a b == 0)%Q) /\ forall c, In c done -> ~ fits a c.

  Lemma update_ok done M c F : table_inv done M ->
    (forall a, a < N -> row_done F a \/ (forall b, b < N -> (entry F a b == 0)%Q) /\ ~ fits a c) ->
    table_inv (done ++ [c]) (tab N N (fun a b => (entry M a b + (if Qle_bool (qsum N (entry M a)) 0 then 1 else 0) * entry F a b)%Q)).
  Proof using.
    intros HM HF a Ha. set (M' := tab N N _).
    assert (E : forall b, b < N -> (entry M' a b == entry M a b + (if Qle_bool (qsum N (entry M a)) 0 then 1 else 0) * entry F a b)%Q).
    { intros b Hb. unfold M'. rewrite tab_entry by assumption. reflexivity. }
    destruct (HM a Ha) as [RM|[ZM NM]].
    - left. destruct (Qle_bool (qsum N (entry M a)) 0) eqn:Q.
      + apply Qle_bool_iff in Q.
        assert (Z : forall b, b < N -> (entry M a b == 0)%Q).
        { apply qsum_nonneg_zero; [|exact Q]. intros b Hb. destruct (RM b Hb) as (m & -> & _). apply inject_nat_pos. }
        destruct (HF a Ha) as [RF|[ZF _]]; intros b Hb.
        * destruct (RF b Hb) as (m & Em & Cm). exists m. split; [|exact Cm]. rewrite (E b Hb), (Z b Hb), Em. ring.
        * destruct (RM b Hb) as (m & Em & Cm). exists m. split; [|exact Cm]. rewrite (E b Hb), (ZF b Hb), Em. ring.
      + intros b Hb. destruct (RM b Hb) as (m & Em & Cm). exists m. split; [|exact Cm]. rewrite (E b Hb), Em. ring.
    - assert (Q : Qle_bool (qsum N (entry M a)) 0 = true).
      { apply Qle_bool_iff. rewrite qsum_zero; [apply Qle_refl|exact ZM]. }
      rewrite Q in E. destruct (HF a Ha) as [RF|[ZF NF]].
      + left. intros b Hb. destruct (RF b Hb) as (m & Em & Cm). exists m. split; [|exact Cm]. rewrite (E b Hb), (ZM b Hb), Em. ring.
      + right. split; [intros b Hb; rewrite (E b Hb), (ZM b Hb), (ZF b Hb); ring|]. intros x Hx. apply in_app_or in Hx as [Hx|[<-|[]]]; auto.
  Qed.
End Table.

Definition shaped (n : nat) (M : table) : Prop := length M = n /\ forall i, i < n -> length (nth i M []) = n.
Lemma tab_shaped n f : shaped n (tab n n f).
Proof.
  unfold shaped, tab. split; [rewrite map_length, seq_length; reflexivity|]. intros i Hi.
  rewrite (nth_indep _ [] (map (fun j => Qred (f 0 j)) (seq 0 n))) by (rewrite map_length, seq_length; exact Hi).
  rewrite (map_nth (fun i => map (fun j => Qred (f i j)) (seq 0 n))), map_length, seq_length. reflexivity.
Qed.
Lemma proper_part_shorter (S T : list pt) : NoDup S -> NoDup T -> proper_part T S -> length T < length S.
Proof.
  intros HS HT [I N]. pose proof (NoDup_incl_length HT I). destruct (Nat.eq_dec (length T) (length S)) as [E|]; [|lia].
  exfalso. apply N. apply NoDup_length_incl; [exact HT|lia|exact I].
Qed.

Lemma clusters_with_subclusters_ok n : 1 <= n ->
  exists cl ms M inds L, clusters_with_subclusters n (inj (1, 0)%Z) (inj (0, 1)%Z) true = Ok (cl, ms, M, inds) /\
    all_clusters n (inj (1, 0)%Z) (inj (0, 1)%Z) true = Ok (cl, ms, inds) /\ Forall2 cluster cl L /\
    (forall a b, a < length L -> b < length L -> exists m, (entry M a b == inject_Z (Z.of_nat m))%Q /\ contains true nn (nth a L []) (nth b L []) m) /\
    shaped (length L) M /\ (forall a b, a <= b -> b < length L -> (entry M a b == 0)%Q).
Proof.
  intros Hn. destruct (all_clusters_ok true (1, 0)%Z (0, 1)%Z n) as (cl & ms & inds & L & E & F & _ & LI & I0 & In_ & HI & AP & ALL); [right; auto|exact Hn|].
  unfold clusters_with_subclusters. rewrite E. cbn [bind]. rewrite LI. replace (S n - 2) with (n - 1) by lia. replace (S n - 1) with n by lia.
  rewrite (nth_error_nth' inds 0) by lia. rewrite (nth_error_nth' inds 0) by lia.
  set (M0 := tab (length cl) (length cl) (fun _ _ => 0%Q)). set (step := fun M index => _).
  pose proof (Forall2_length' _ _ _ F) as LF.
  assert (MONO : forall k, k <= n -> nth k inds 0 <= nth n inds 0) by (apply (mono_below (fun k => nth k inds 0)); intros k Hk; apply HI; exact Hk).
  assert (XL : indexed inds L n).
  { constructor; [exact LI| |].
    - intros k a Hk Ha. split; [|apply (HI k Hk); exact Ha]. pose proof (MONO (S k) ltac:(lia)). lia.
    - intros a Ha. apply (interval_find (fun k => nth k inds 0)); [exact I0|]. rewrite In_. exact Ha. }
  assert (CL : forall a, a < length L -> connected nn (nth a L [])).
  { intros a Ha. destruct (ix_all _ _ _ XL a Ha) as (k & Hk & Ea). apply (HI k Hk). exact Ea. }
  assert (K : exists M, rfold step (range (nth (n - 1) inds 0) (nth n inds 0)) M0 = Ok M /\ table_inv cl L (range (nth (n - 1) inds 0) (nth n inds 0)) M /\ shaped (length cl) M).
  { apply (rfold_pre step (fun pre M => table_inv cl L pre M /\ shaped (length cl) M)).
    - intros pre c M Hc [HM _]. apply in_range in Hc. assert (Hcl : c < length L) by lia.
      destruct (nth_error cl c) as [g|] eqn:Eg; [|apply nth_error_None in Eg; lia]. unfold step at 1. rewrite Eg.
      destruct (contribution cl L inds n F XL CL c g Hcl Eg) as (subs & SM & sinds & ps & -> & Em & HF). cbn [bind]. rewrite Em. cbn [bind].
      eexists. split; [reflexivity|]. split; [|apply tab_shaped]. apply update_ok; [exact HM|]. exact HF.
    - split; [|apply tab_shaped]. intros a Ha. right. split; [|intros c []]. intros b Hb. unfold M0. rewrite tab_entry by assumption. reflexivity. }
  destruct K as (M & -> & HM & SH). cbn [bind]. exists cl, ms, M, inds, L. split; [reflexivity|]. split; [reflexivity|]. split; [exact F|].
  assert (CNT : forall a b, a < length L -> b < length L -> exists m, (entry M a b == inject_Z (Z.of_nat m))%Q /\ contains true nn (nth a L []) (nth b L []) m).
  2:{ split; [exact CNT|]. split; [rewrite <- LF; exact SH|]. intros a b Hab Hb. destruct (CNT a b ltac:(lia) Hb) as (m & Em & os & Lo & _ & Ho & _).
    destruct os as [|o os]; [cbn in Lo; subst m; exact Em|]. exfalso. destruct (Ho o (or_introl eq_refl)) as (Co & Po & Ko).
    pose proof (proper_part_shorter _ _ (proj1 (proj2 (CL a ltac:(lia)))) (proj1 (proj2 Co)) Po) as SHORT.
    pose proof (congruent_length true _ _ (proj1 (proj2 Co)) (proj1 (proj2 (CL b Hb))) Ko) as EQ.
    destruct (ix_all _ _ _ XL a ltac:(lia)) as (ka & Hka & Ea). destruct (ix_all _ _ _ XL b Hb) as (kb & Hkb & Eb).
    destruct (proj2 (HI ka Hka) a Ea) as [_ La]. destruct (proj2 (HI kb Hkb) b Eb) as [_ Lb].
    assert (kb < ka) by lia. assert (nth (S kb) inds 0 <= nth ka inds 0).
    { apply (mono_below (fun k => nth k inds 0) ka); [intros k Hk; apply HI; lia|lia]. } lia. }
  intros a b Ha Hb. destruct (HM a ltac:(lia)) as [R|[_ NF]]; [apply R; lia|]. exfalso.
  (* every cluster is part of one of the largest *)
  assert (La : 1 <= length (nth a L []) <= n).
  { destruct (ix_all _ _ _ XL a Ha) as (k & Hk & Ea). destruct (HI k Hk) as [_ H]. destruct (H a Ea) as [_ ->]. lia. }
  destruct (extend (nth a L []) (n - length (nth a L [])) (CL a Ha)) as (T & CT & IT & LT).
  destruct (ALL T CT ltac:(lia)) as (c & Hc & Kc).
  assert (Lc : length (nth c L []) = n). { rewrite <- (congruent_length true T (nth c L [])); [lia|apply CT|apply (CL c Hc)|exact Kc]. }
  destruct (ix_all _ _ _ XL c Hc) as (k & Hk & Ec). destruct (proj2 (HI k Hk) c Ec) as [_ Lk]. assert (k = n - 1) by lia. subst k.
  apply (NF c). { apply in_range. replace (S (n - 1)) with n in Ec by lia. exact Ec. }
  apply congruent_motion in Kc as (f & Mf & Sf). exists (map f (nth a L [])). split; [|split].
  - apply (connected_map _ f (nth a L [])); [intros x y; apply (motion_linked true); [right; auto|exact Mf]|apply same_refl| |apply CL; exact Ha].
    apply NoDup_map_inj; [intros x y; apply (motion_inj true); exact Mf|apply (CL a Ha)].
  - intros x Hx. apply in_map_iff in Hx as (y & <- & Hy). apply Sf, in_map, IT, Hy.
  - apply congruent_motion. exists f. split; [exact Mf|apply same_refl].
Qed.
