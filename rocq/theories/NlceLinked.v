(** Linked cluster sums of sums over connected parts: proofs. *)
From Coq Require Import List Arith Lia ZArith QArith Reals Lra Bool.
From Verif Require Import Res Matrix ModelGeometry ModelNlce ModelNlceSum SpecCluster SpecNlce SpecThermal ThermalBase ClusterSets ClusterRep ClusterSym ClusterAll ClusterCount NlceSum NlceFacts SpecLinked.
Import ListNotations.
Local Open Scope nat_scope.
Notation nn := (linked (1, 0)%Z (0, 1)%Z).

(** ** Lists without related members *)
Definition spread {A} (R : list A -> list A -> Prop) (l : list (list A)) : Prop := SpecCluster.apart R l.
Lemma spread_cons {A} (R : list A -> list A -> Prop) x l : (forall a b, R a b -> R b a) -> (spread R (x :: l) <-> (forall y, In y l -> ~ R x y) /\ spread R l).
Proof.
  intros RS. split.
  - intros H. split.
    + intros y Hy Rxy. apply (In_nth _ _ []) in Hy as (k & Hk & <-). assert (0 = S k); [|discriminate]. apply H; cbn; try lia. exact Rxy.
    + intros a b Ha Hb Rab. assert (S a = S b); [|lia]. apply H; cbn; try lia. exact Rab.
  - intros (H1 & H2) [|a] [|b] Ha Hb Rab; cbn in *; [reflexivity|exfalso|exfalso|].
    + apply (H1 (nth b l [])); [apply nth_In; lia | exact Rab].
    + apply (H1 (nth a l [])); [apply nth_In; lia | apply RS; exact Rab].
    + f_equal. apply H2; [lia | lia | exact Rab].
Qed.
Lemma spread_filter {A} (R : list A -> list A -> Prop) f l : (forall a b, R a b -> R b a) -> spread R l -> spread R (filter f l).
Proof.
  intros RS. induction l as [|x l IH]; intros H; [exact H|]. apply spread_cons in H as (H1 & H2); [|exact RS]. cbn. destruct (f x); [|apply IH; exact H2].
  apply spread_cons; [exact RS|]. split; [|apply IH; exact H2]. intros y Hy. apply H1. apply filter_In in Hy. apply Hy.
Qed.
Lemma spread_app {A} (R : list A -> list A -> Prop) l m : (forall a b, R a b -> R b a) -> spread R l -> spread R m -> (forall x y, In x l -> In y m -> ~ R x y) -> spread R (l ++ m).
Proof.
  intros RS. induction l as [|x l IH]; intros H1 H2 H3; [exact H2|]. apply spread_cons in H1 as (H1 & H1'); [|exact RS]. cbn. apply spread_cons; [exact RS|]. split.
  - intros y Hy. apply in_app_or in Hy as [Hy|Hy]; [apply H1; exact Hy | apply H3; [left; reflexivity | exact Hy]].
  - apply IH; [exact H1' | exact H2|]. intros a b Ha Hb. apply H3; [right; exact Ha | exact Hb].
Qed.
Lemma spread_map {A B} (R : list B -> list B -> Prop) (f : A -> list B) l : (forall a b, R a b -> R b a) -> NoDup l -> (forall a b, In a l -> In b l -> R (f a) (f b) -> a = b) -> spread R (map f l).
Proof.
  intros RS. induction 1 as [|a l Ha ND IH]; intros H; [intros x y Hx; cbn in Hx; lia|]. cbn. apply spread_cons; [exact RS|]. split.
  - intros y Hy R1. apply in_map_iff in Hy as (b & <- & Hb). apply Ha. rewrite (H a b); [exact Hb | left; reflexivity | right; exact Hb | exact R1].
  - apply IH. intros x y Hx Hy. apply H; right; assumption.
Qed.
Lemma same_symm {A} (S T : list A) : same_set S T -> same_set T S. Proof. intros H p. symmetry. apply H. Qed.

(** ** Sums by classes *)
Local Open Scope R_scope.
Definition pick (b : nat) (x : list pt * nat) : bool := (snd x =? b)%nat.
Lemma by_class (f : nat -> R) n bs : (forall b, In b bs -> (b < n)%nat) -> total f bs = rsum n (fun b => INR (length (filter (fun c => (c =? b)%nat) bs)) * f b).
Proof.
  induction bs as [|c bs IH]; intros H; [rewrite rsum_zero; [reflexivity|]; intros; cbn; ring|].
  rewrite total_cons, IH by (intros; apply H; right; assumption).
  assert (D : f c = rsum n (fun b => if (c =? b)%nat then f b else 0)).
  { specialize (H c (or_introl eq_refl)). clear - H. induction n as [|n IH]; [lia|]. cbn [rsum]. destruct (Nat.eqb_spec c n) as [->|N].
    - rewrite rsum_zero; [ring|]. intros k Hk. rewrite (proj2 (Nat.eqb_neq n k)) by lia. reflexivity.
    - rewrite <- IH by lia. ring. }
  rewrite D, <- rsum_add. apply rsum_ext. intros b Hb. cbn [filter]. destruct (c =? b)%nat; [cbn [length]; rewrite S_INR; ring | ring].
Qed.
Lemma filter_combine {A} (os : list A) : forall bs b, length os = length bs -> length (filter (fun x => (snd x =? b)%nat) (combine os bs)) = length (filter (fun c => (c =? b)%nat) bs).
Proof. induction os as [|o os IH]; intros [|c bs] b L; cbn in L; try lia; [reflexivity|]. cbn. destruct (c =? b)%nat; cbn; rewrite IH by lia; reflexivity. Qed.

Section Classes.
  Variables (phi : list pt -> R) (L : list (list pt)) (S : list pt).
  Hypothesis inv : invariant nn phi.
  Hypothesis conL : forall a, (a < length L)%nat -> connected nn (nth a L []).
  Hypothesis apL : SpecCluster.apart (congruent true) L.
  Hypothesis all : forall T, connected nn T -> (length T <= length S)%nat -> exists a, (a < length L)%nat /\ congruent true T (nth a L []).
  Hypothesis conS : connected nn S.
  Lemma classes (os : list (list pt)) : (forall o, In o os -> connected nn o /\ incl o S) -> exists bs, Forall2 (fun o b => (b < length L)%nat /\ congruent true o (nth b L [])) os bs.
  Proof using all.
    induction os as [|o os IH]; intros H; [exists []; constructor|]. destruct IH as (bs & F); [intros; apply H; right; assumption|].
    destruct (H o (or_introl eq_refl)) as (C & I). destruct (all o C) as (b & Hb & Cb); [apply NoDup_incl_length; [apply C | exact I]|].
    exists (b :: bs). constructor; [split; assumption | exact F].
  Qed.
  Lemma class_sum os bs : Forall2 (fun o b => (b < length L)%nat /\ congruent true o (nth b L [])) os bs -> (forall o, In o os -> connected nn o) -> total phi os = total (fun b => phi (nth b L [])) bs.
  Proof using inv conL.
    induction 1 as [|o b os bs (Hb & C) F IH]; intros H; [reflexivity|]. rewrite !total_cons, IH by (intros; apply H; right; assumption). f_equal.
    apply inv; [apply H; left; reflexivity | apply conL, Hb | exact C].
  Qed.
  (** The proper parts. *)
  Lemma proper_sum os (count : nat -> nat) : spread same_set os -> (forall o, In o os -> connected nn o /\ proper_part o S) ->
    (forall o, connected nn o -> proper_part o S -> phi o <> 0 -> exists o', In o' os /\ same_set o o') ->
    (forall b, (b < length L)%nat -> contains true nn S (nth b L []) (count b)) ->
    total phi os = rsum (length L) (fun b => INR (count b) * phi (nth b L [])).
  Proof using inv conL apL all conS.
    intros SP PR ALL CT. destruct (classes os) as (bs & F); [intros o Ho; destruct (PR o Ho) as (? & ? & _); split; assumption|].
    rewrite (class_sum os bs F) by (intros o Ho; apply PR, Ho). pose proof (Forall2_length' _ _ _ F) as LN.
    assert (BB : forall b, In b bs -> (b < length L)%nat).
    { clear - F. induction F as [|o b os bs (Hb & _) F IH]; intros x Hx; [destruct Hx|]. destruct Hx as [<-|Hx]; auto. }
    rewrite (by_class _ (length L) bs BB). apply rsum_ext. intros b Hb. destruct (Req_dec (phi (nth b L [])) 0) as [Z|Z]; [rewrite Z; ring|]. f_equal. f_equal.
    rewrite <- (filter_combine os bs b LN). set (sel := map fst (filter (fun x : list pt * nat => (snd x =? b)%nat) (combine os bs))).
    rewrite <- (map_length fst). fold sel.
    assert (IS : forall o, In o sel <-> exists c, In (o, c) (combine os bs) /\ c = b).
    { intros o. unfold sel. rewrite in_map_iff. split.
      - intros ([o' c] & E & H). apply filter_In in H as (H1 & H2). cbn in E, H2. subst o'. apply Nat.eqb_eq in H2. exists c. split; assumption.
      - intros (c & H & ->). exists (o, b). split; [reflexivity|]. apply filter_In. split; [exact H | apply Nat.eqb_refl]. }
    assert (CF : forall o c, In (o, c) (combine os bs) -> (c < length L)%nat /\ congruent true o (nth c L [])).
    { clear - F. induction F as [|o b os bs H F IH]; intros x c Hx; [destruct Hx|]. cbn in Hx. destruct Hx as [E|Hx]; [injection E as <- <-; exact H | apply IH; exact Hx]. }
    assert (CO : forall o, In o os -> exists c, In (o, c) (combine os bs)).
    { clear - F. induction F as [|o b os bs H F IH]; intros x Hx; [destruct Hx|]. destruct Hx as [<-|Hx]; [exists b; left; reflexivity|]. destruct (IH x Hx) as (c & Hc). exists c. right. exact Hc. }
    apply (contains_unique true nn S (nth b L [])); [|apply CT, Hb].
    exists sel. split; [reflexivity|]. split; [|split].
    - change (spread same_set sel). unfold sel. clear - SP LN. revert bs LN. induction os as [|o os IH]; intros [|c bs] LN; cbn in LN; try lia; [exact SP|].
      apply spread_cons in SP as (S1 & S2); [|apply same_symm]. cbn. destruct (c =? b)%nat; [|apply IH; [exact S2 | lia]]. cbn. apply spread_cons; [apply same_symm|].
      split; [|apply IH; [exact S2 | lia]]. intros y Hy. apply S1. apply in_map_iff in Hy as ([o' c'] & E & H). apply filter_In in H as (H & _). cbn in E. subst o'. apply in_combine_l in H. exact H.
    - intros o Ho. apply IS in Ho as (c & Hc & ->). destruct (PR o (in_combine_l _ _ _ _ Hc)) as (P1 & P2). split; [exact P1|]. split; [exact P2|]. apply CF, Hc.
    - intros o C PP CG. assert (PZ : phi o <> 0) by (rewrite (inv o (nth b L []) C (conL b Hb) CG); exact Z).
      destruct (ALL o C PP PZ) as (o' & Ho' & SM). exists o'. split; [|exact SM]. apply IS. destruct (CO o' Ho') as (c & Hc). exists c. split; [exact Hc|].
      destruct (CF o' c Hc) as (Hcl & CC). apply (apL c b Hcl Hb). apply (congruent_trans _ _ o'); [apply congruent_sym; exact CC|].
      apply (congruent_trans _ _ o); [apply congruent_of_same, same_symm, SM | exact CG].
  Qed.
  Lemma incl_dec_pt (A B : list pt) : {incl A B} + {~ incl A B}.
  Proof using. clear. induction A as [|a A IH]; [left; intros x []|]. destruct (in_dec pt_dec a B) as [H|H].
    - destruct IH as [I|I]; [left; intros x [<-|Hx]; [exact H | apply I, Hx] | right; intros J; apply I; intros x Hx; apply J; right; exact Hx].
    - right. intros J. apply H, J. left. reflexivity.
  Defined.
  (** All parts. *)
  Lemma whole_sum x (count : nat -> nat) : part_sum nn phi S x -> (forall b, (b < length L)%nat -> contains true nn S (nth b L []) (count b)) ->
    x = phi S + rsum (length L) (fun b => INR (count b) * phi (nth b L [])).
  Proof using inv conL apL all conS.
    intros (os & -> & SP & H1 & H2) CT. change (spread same_set os) in SP.
    set (full := fun o : list pt => if incl_dec_pt S o then true else false).
    assert (SPL : total phi os = total phi (filter full os) + total phi (filter (fun o => negb (full o)) os)).
    { clear. induction os as [|o os IH]; [cbn; ring|]. cbn [filter]. rewrite total_cons, IH. destruct (full o); cbn [negb]; rewrite total_cons; ring. }
    rewrite SPL. f_equal.
    - assert (SF : forall o, In o (filter full os) -> same_set o S).
      { intros o Ho. apply filter_In in Ho as (Ho & Hf). unfold full in Hf. destruct (incl_dec_pt S o) as [I|]; [|discriminate]. destruct (H1 o Ho) as (_ & I'). intros p. split; [apply I' | apply I]. }
      assert (PF : forall o, In o (filter full os) -> phi o = phi S).
      { intros o Ho. apply inv; [apply filter_In in Ho as (Ho & _); apply H1, Ho | exact conS | apply congruent_of_same, SF, Ho]. }
      pose proof (spread_filter same_set full os (@same_symm pt) SP) as SPF.
      destruct (filter full os) as [|o [|o' l]] eqn:EF.
      + destruct (Req_dec (phi S) 0) as [->|NZ]; [reflexivity|]. exfalso. destruct (H2 S conS (incl_refl _) NZ) as (o & Ho & SM).
        assert (In o (filter full os)) as X; [|rewrite EF in X; destruct X]. apply filter_In. split; [exact Ho|]. unfold full. destruct (incl_dec_pt S o) as [|N]; [reflexivity|].
        exfalso. apply N. intros p Hp. apply SM, Hp.
      + rewrite total_cons. cbn. rewrite PF by (left; reflexivity). ring.
      + exfalso. apply spread_cons in SPF as (S1 & _); [|apply same_symm]. apply (S1 o'); [left; reflexivity|]. intros p. rewrite (SF o (or_introl eq_refl) p), (SF o' (or_intror (or_introl eq_refl)) p). reflexivity.
    - apply proper_sum; [apply spread_filter; [apply same_symm | exact SP]| | | exact CT].
      + intros o Ho. apply filter_In in Ho as (Ho & Hf). unfold full in Hf. destruct (incl_dec_pt S o) as [|N]; [discriminate|]. destruct (H1 o Ho) as (C & I). split; [exact C|]. split; assumption.
      + intros o C (P1 & P2) NZ. destruct (H2 o C P1 NZ) as (o' & Ho' & SM). exists o'. split; [|exact SM]. apply filter_In. split; [exact Ho'|]. unfold full. destruct (incl_dec_pt S o') as [I|]; [|reflexivity].
        exfalso. apply P2. intros p Hp. apply SM, I, Hp.
  Qed.
End Classes.

(** ** The expansion *)
Lemma at_sites_unique {Ph} (g : geometry Ph) S T : at_sites g S -> at_sites g T -> S = T.
Proof.
  intros (A & B) (C & D). rewrite A in C. rewrite B in D. clear A B. revert T C D. induction S as [|[x y] S IH]; intros [|[u v] T] C D; cbn in C, D; try discriminate; [reflexivity|].
  injection C as C1 C2. injection D as D1 D2. cbn in *. subst. f_equal. apply IH; assumption.
Qed.
Lemma sites_unique {Ph} (cl : list (geometry Ph)) L M : Forall2 at_sites cl L -> Forall2 at_sites cl M -> L = M.
Proof. intros F. revert M. induction F as [|g S cl L H F IH]; intros M G; inversion G; subst; [reflexivity|]. f_equal; [apply (at_sites_unique g); assumption | apply IH; assumption]. Qed.
Lemma contains_smaller sym adj S T N : (forall o, connected adj o -> congruent sym o T -> length o = length T) -> NoDup S -> contains sym adj S T N -> N <> 0%nat -> (length T < length S)%nat.
Proof.
  intros LE ND (os & LN & _ & H & _) NZ. destruct os as [|o os]; [cbn in LN; lia|]. destruct (H o (or_introl eq_refl)) as (C & (I1 & I2) & CG). rewrite <- (LE o C CG).
  destruct (Nat.lt_ge_cases (length o) (length S)) as [G|G]; [exact G|]. exfalso. apply I2. apply NoDup_length_incl; [apply C | exact G | exact I1].
Qed.
Theorem linked_sum n phi vals nsites cl ms M inds L : (1 <= n)%nat -> (0 < nsites)%nat -> clusters_with_subclusters n (inj (1, 0)%Z) (inj (0, 1)%Z) true = Ok (cl, ms, M, inds) ->
  Forall2 at_sites cl L -> invariant nn phi -> length vals = length cl -> (forall a, (a < length L)%nat -> part_sum nn phi (nth a L []) (nth a vals 0)) ->
  exists total orders w, nlce_exp_val vals (real_table M) (map INR ms) inds nsites = Ok (total, orders, w) /\
    (forall a, (a < length L)%nat -> nth a w 0 = phi (nth a L [])) /\
    total * INR nsites = rsum (length L) (fun a => INR (nth a ms 0%nat) * phi (nth a L [])) /\
    length orders = n /\ forall k, (k < n)%nat -> nth k orders 0 * INR nsites =
      rsum (nth (S k) inds 0%nat - nth k inds 0%nat) (fun j => INR (nth (nth k inds 0%nat + j) ms 0%nat) * phi (nth (nth k inds 0%nat + j) L [])).
Proof.
  intros Hn Hs EC F IV LV PS.
  destruct (expansion_of_clusters n vals nsites cl ms M inds Hn Hs EC LV) as (tot & orders & w & L' & count & EN & F' & CT & WV & TT & OT).
  rewrite (sites_unique cl L' L F' F) in *. clear F'.
  destruct (clusters_table_sites n Hn) as (cl1 & ms1 & M1 & inds1 & L1 & EC1 & EA & F1 & _). rewrite EC in EC1. injection EC1 as <- <- <- <-. clear F1 L1.
  destruct (all_clusters_sites true (1, 0)%Z (0, 1)%Z n ltac:(right; auto) Hn) as (cl2 & ms2 & inds2 & L2 & EA2 & F2 & OR & LI & I0 & IN & HI & AP & ALL).
  rewrite EA in EA2. injection EA2 as <- <- <-. rewrite (sites_unique cl L2 L F2 F) in *. clear F2.
  assert (FIND : forall a, (a < length L)%nat -> exists k, (k < n)%nat /\ (nth k inds 0 <= a < nth (S k) inds 0)%nat).
  { intros a Ha. rewrite <- IN in Ha. clear - Ha I0 HI. induction n as [|m IH]; [lia|]. destruct (Nat.lt_ge_cases a (nth m inds 0%nat)) as [G|G].
    - destruct IH as (k & Hk & B); [intros k Hk; apply HI; lia | exact G|]. exists k. split; [lia | exact B].
    - exists m. split; [lia|]. split; assumption. }
  assert (SZ : forall a, (a < length L)%nat -> connected nn (nth a L []) /\ (length (nth a L []) <= n)%nat).
  { intros a Ha. destruct (FIND a Ha) as (k & Hk & B). destruct (HI k Hk) as (_ & X). destruct (X a B) as (C & E). split; [exact C | lia]. }
  assert (EQ : forall a, (a < length L)%nat -> nth a vals 0 = phi (nth a L []) + rsum (length L) (fun b => INR (count a b) * phi (nth b L []))).
  { intros a Ha. apply (whole_sum phi L (nth a L []) IV); [intros; apply SZ; assumption | exact AP | | apply SZ, Ha | apply PS, Ha | intros b Hb; apply CT; assumption].
    intros T C LT. apply ALL; [exact C|]. destruct (SZ a Ha). lia. }
  assert (W : forall m a, (a < length L)%nat -> (length (nth a L []) <= m)%nat -> nth a w 0 = phi (nth a L [])).
  { induction m as [|m IH]; intros a Ha Hm.
    - exfalso. destruct (SZ a Ha) as ((N & _) & _). destruct (nth a L []); [congruence | cbn in Hm; lia].
    - pose proof (WV a Ha) as X. rewrite (EQ a Ha) in X.
      assert (Y : rsum (length L) (fun b => INR (count a b) * nth b w 0) = rsum (length L) (fun b => INR (count a b) * phi (nth b L []))).
      { apply rsum_ext. intros b Hb. destruct (Nat.eq_dec (count a b) 0) as [Z|Z]; [rewrite Z; cbn; ring|]. f_equal. apply IH; [exact Hb|].
        assert ((length (nth b L []) < length (nth a L []))%nat); [|lia].
        apply (contains_smaller true nn _ _ (count a b)); [|apply SZ, Ha | apply CT; assumption | exact Z].
        intros o C CG. apply (congruent_length true); [apply C | apply SZ, Hb | exact CG]. }
      rewrite Y in X. lra. }
  assert (WW : forall a, (a < length L)%nat -> nth a w 0 = phi (nth a L [])) by (intros a Ha; apply (W (length (nth a L []))); [exact Ha | lia]).
  exists tot, orders, w. split; [exact EN|]. split; [exact WW|]. split; [rewrite TT; apply rsum_ext; intros a Ha; rewrite WW by exact Ha; reflexivity|].
  destruct (expansion_orders vals (real_table M) (map INR ms) inds nsites tot orders w EN) as (LO & HO). rewrite LI in LO, HO. split; [lia|].
  intros k Hk. rewrite HO by lia. apply rsum_ext. intros j Hj.
  assert (Bj : (nth k inds 0 + j < length L)%nat).
  { assert (nth (S k) inds 0 <= length L)%nat; [|lia]. rewrite <- IN. clear - HI Hk. assert (X : forall d, (S k + d <= n)%nat -> (nth (S k) inds 0 <= nth (S k + d) inds 0)%nat).
    { induction d as [|d IH]; intros Hd; [rewrite Nat.add_0_r; lia|]. eapply Nat.le_trans; [apply IH; lia|]. rewrite Nat.add_succ_r. apply HI. lia. }
    replace n with (S k + (n - S k))%nat by lia. apply X. lia. }
  rewrite WW by exact Bj. f_equal. change 0 with (INR 0). apply (map_nth INR).
Qed.
