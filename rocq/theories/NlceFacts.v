(** The statements about clusters and linked cluster sums in terms of sites. *)
From Coq Require Import List Arith Lia ZArith QArith Qreals Reals Lra Sorting.
From Verif Require Import Res Matrix ModelGeometry ModelNlce ModelNlceSum SpecCluster SpecNlce GeoArith ClusterSets ClusterRep ClusterSym ClusterAll ClusterSub ClusterCount ClusterTable NlceSum.
Import ListNotations.
Local Open Scope nat_scope.

Lemma clusters_at cl L : Forall2 cluster cl L -> Forall2 at_sites cl L.
Proof. intros F. induction F as [|g l cl L H F IH]; constructor; [apply (cluster_open g l H)|exact IH]. Qed.
Lemma orders_at orders LL : Forall2 (Forall2 cluster) orders LL -> Forall2 (Forall2 at_sites) orders LL.
Proof. intros F. induction F as [|g l cl L H F IH]; constructor; [apply clusters_at; exact H|exact IH]. Qed.

Lemma all_clusters_sites sym lv1 lv2 n : step_symmetric sym lv1 lv2 -> 1 <= n ->
  exists cl ms inds L, all_clusters n (inj lv1) (inj lv2) sym = Ok (cl, ms, inds) /\
    Forall2 at_sites cl L /\ Forall2 (orientations sym) L ms /\
    length inds = S n /\ nth 0 inds 0 = 0 /\ nth n inds 0 = length L /\
    (forall k, k < n -> nth k inds 0 <= nth (S k) inds 0 /\
       forall a, nth k inds 0 <= a < nth (S k) inds 0 -> connected (linked lv1 lv2) (nth a L []) /\ length (nth a L []) = S k) /\
    apart (congruent sym) L /\
    (forall T, connected (linked lv1 lv2) T -> length T <= n -> exists a, a < length L /\ congruent sym T (nth a L [])).
Proof.
  intros H1 H2. destruct (all_clusters_ok sym lv1 lv2 n H1 H2) as (cl & ms & inds & L & E & F & R).
  exists cl, ms, inds, L. split; [exact E|]. split; [apply clusters_at; exact F|exact R].
Qed.

Section Parents.
  Context {Ph : Type} (parent : geometry Ph) (P : list pt).
  Hypothesis (Hat : at_sites parent P) (HP : NoDup P) (Hn : g_n parent = length P).

  Lemma all_subclusters_sites :
    (forall j k, j < length P -> k < length P -> (ent (g_adj parent) j k == 1 -> ent (g_adj parent) k j == 1)%Q) ->
    exists orders inds LL, all_subclusters parent = Ok (orders, inds) /\
      Forall2 (Forall2 at_sites) orders LL /\
      (forall k l, k < length LL -> In l (nth k LL []) -> connected (neighbours parent P) l /\ incl l P /\ length l = S k) /\
      apart same_set (concat LL) /\
      (forall T, connected (neighbours parent P) T -> incl T P -> exists a, a < length (concat LL) /\ same_set T (nth a (concat LL) [])) /\
      indices_ok (concat LL) inds.
  Proof.
    intros Hs. destruct (all_subclusters_ok parent P Hat HP Hn Hs) as (o & i & LL & E & F & R). exists o, i, LL. split; [exact E|].
    split; [apply orders_at; exact F|exact R].
  Qed.

  Lemma reduce_sites sym :
    (forall j k, j < length P -> k < length P -> (ent (g_adj parent) j k == 1 -> ent (g_adj parent) k j == 1)%Q) ->
    exists orders inds LL dist mults red DL, all_subclusters parent = Ok (orders, inds) /\ Forall2 (Forall2 at_sites) orders LL /\
      reduce_clusters sym orders = Ok (dist, mults, red) /\ Forall2 (Forall2 at_sites) dist DL /\ length DL = length LL /\
      apart (congruent sym) (concat DL) /\
      (forall k, k < length LL -> incl (nth k DL []) (nth k LL [])) /\
      length red = length (concat LL) /\
      (forall a, a < length (concat LL) -> nth a red 0 < length (concat DL) /\ congruent sym (nth a (concat LL) []) (nth (nth a red 0) (concat DL) [])) /\
      length (concat mults) = length (concat DL) /\
      (forall j, j < length (concat DL) -> nth j (concat mults) 0 = count_occ Nat.eq_dec red j).
  Proof.
    intros Hs. destruct (all_subclusters_ok parent P Hat HP Hn Hs) as (orders & inds & LL & E & F & HL & _).
    destruct (reduce_clusters_ok sym orders LL F) as (dist & mults & red & DL & E2 & RD).
    destruct (reduced_apart sym LL dist mults red DL RD) as (AD & _). { intros k l Hk Hl. destruct (HL k l Hk Hl) as (C & _ & L). split; [apply C|exact L]. }
    destruct RD as [F2 L2 V2 R2 C2 M2 U2].
    exists orders, inds, LL, dist, mults, red, DL. split; [exact E|]. split; [apply orders_at; exact F|]. split; [exact E2|]. split; [apply orders_at; exact F2|].
    split; [exact L2|]. split; [exact AD|]. split; [intros k Hk; apply (V2 k Hk)|]. auto.
  Qed.

  Lemma sums_nth L : forall s k, k <= length L -> nth k (sums s L) 0 = s + length (concat (firstn k L)).
  Proof using.
    clear. induction L as [|l L IH]; intros s [|k] Hk; cbn [length] in Hk; cbn [sums nth firstn concat length]; try lia.
    rewrite IH by lia. rewrite app_length. lia.
  Qed.

  Lemma reduced_subclusters_sites :
    (forall j k, j < length P -> k < length P -> ((ent (g_adj parent) j k == 1)%Q <-> linked (1, 0)%Z (0, 1)%Z (nth j P (0, 0)%Z) (nth k P (0, 0)%Z))) ->
    exists subs M inds DL, reduced_subclusters parent = Ok (subs, M, inds) /\
      Forall2 at_sites subs (concat DL) /\
      length inds = S (length DL) /\ (forall k, k <= length DL -> nth k inds 0 = length (concat (firstn k DL))) /\
      (forall k d, k < length DL -> In d (nth k DL []) -> connected (linked (1, 0)%Z (0, 1)%Z) d /\ incl d P /\ length d = S k) /\
      apart (congruent true) (concat DL) /\
      (forall T, connected (linked (1, 0)%Z (0, 1)%Z) T -> incl T P -> exists j, j < length (concat DL) /\ congruent true T (nth j (concat DL) [])) /\
      (forall i j, i < length (concat DL) -> j < length (concat DL) ->
        exists N, (entry M i j == inject_Z (Z.of_nat N))%Q /\ contains true (linked (1, 0)%Z (0, 1)%Z) (nth i (concat DL) []) (nth j (concat DL) []) N).
  Proof.
    intros Ha. destruct (reduced_subclusters_ok parent P Hat HP Hn Ha) as (subs & M & inds & DL & E & [R1 R2 R3 R4 R5 R6]).
    exists subs, M, inds, DL. split; [exact E|]. split; [apply clusters_at; exact R1|]. subst inds. split; [apply sums_length|].
    split; [|auto]. intros k Hk. rewrite sums_nth by exact Hk. reflexivity.
  Qed.
End Parents.

Lemma clusters_table_sites n : 1 <= n ->
  exists cl ms M inds L, clusters_with_subclusters n (inj (1, 0)%Z) (inj (0, 1)%Z) true = Ok (cl, ms, M, inds) /\
    all_clusters n (inj (1, 0)%Z) (inj (0, 1)%Z) true = Ok (cl, ms, inds) /\ Forall2 at_sites cl L /\
    (forall a b, a < length L -> b < length L -> exists m, (entry M a b == inject_Z (Z.of_nat m))%Q /\
       contains true (linked (1, 0)%Z (0, 1)%Z) (nth a L []) (nth b L []) m) /\
    length M = length L /\ (forall i, i < length L -> length (nth i M []) = length L) /\
    (forall a b, a <= b -> b < length L -> (entry M a b == 0)%Q).
Proof.
  intros Hn. destruct (clusters_with_subclusters_ok n Hn) as (cl & ms & M & inds & L & E1 & E2 & F & C & [S1 S2] & T).
  exists cl, ms, M, inds, L. split; [exact E1|]. split; [exact E2|]. split; [apply clusters_at; exact F|]. auto.
Qed.

(** ** The expansion with the table of the clusters *)
Definition real_table (M : table) : list (list R) := map (map Q2R) M.
Lemma real_entry M i j : ment (real_table M) i j = Q2R (entry M i j).
Proof.
  unfold ment, real_table, entry. assert (E : nth i (map (map Q2R) M) [] = map Q2R (nth i M [])).
  { change (@nil R) with (map Q2R []). apply map_nth. }
  rewrite E. replace 0%R with (Q2R 0) by (unfold Q2R; cbn; lra). apply map_nth.
Qed.
Lemma Q2R_nat m : Q2R (inject_Z (Z.of_nat m)) = INR m.
Proof. unfold Q2R. cbn. rewrite INR_IZR_INZ. field. Qed.

Lemma expansion_of_clusters n vals nsites cl ms M inds : 1 <= n -> 0 < nsites ->
  clusters_with_subclusters n (inj (1, 0)%Z) (inj (0, 1)%Z) true = Ok (cl, ms, M, inds) -> length vals = length cl ->
  exists total orders w L (count : nat -> nat -> nat),
    nlce_exp_val vals (real_table M) (map INR ms) inds nsites = Ok (total, orders, w) /\ Forall2 at_sites cl L /\
    (forall a b, a < length L -> b < length L -> contains true (linked (1, 0)%Z (0, 1)%Z) (nth a L []) (nth b L []) (count a b)) /\
    (forall a, a < length L -> (nth a vals 0 = nth a w 0 + rsum (length L) (fun b => INR (count a b) * nth b w 0))%R) /\
    (total * INR nsites = rsum (length L) (fun a => INR (nth a ms 0%nat) * nth a w 0%R))%R /\
    fold_right Rplus 0%R orders = total.
Proof.
  intros Hn Hs E Lv. destruct (clusters_with_subclusters_ok n Hn) as (cl' & ms' & M' & inds' & L & E' & EA & F & C & [S1 S2] & T).
  rewrite E in E'. injection E' as <- <- <- <-.
  destruct (all_clusters_ok true (1, 0)%Z (0, 1)%Z n) as (cl' & ms' & inds' & L' & E' & F' & OR & LI & I0 & In_ & HI & AP & ALL); [right; auto|exact Hn|].
  rewrite EA in E'. injection E' as <- <- <-.
  pose proof (Forall2_length' _ _ _ F) as LF. pose proof (Forall2_length' _ _ _ F') as LF'. pose proof (Forall2_length' _ _ _ OR) as LM.
  assert (CL : forall a b, exists m, a < length L -> b < length L -> (entry M a b == inject_Z (Z.of_nat m))%Q /\ contains true nn (nth a L []) (nth b L []) m).
  { intros a b. destruct (Nat.lt_ge_cases a (length L)) as [Ha|Ha]; [|exists 0; intros; lia]. destruct (Nat.lt_ge_cases b (length L)) as [Hb|Hb]; [|exists 0; intros; lia].
    destruct (C a b Ha Hb) as (m & Hm). exists m. auto. }
  set (count := fun a b => Z.to_nat (Qnum (Qred (entry M a b)))).
  assert (HC : forall a b, a < length L -> b < length L -> (entry M a b == inject_Z (Z.of_nat (count a b)))%Q /\ contains true nn (nth a L []) (nth b L []) (count a b)).
  { intros a b Ha Hb. destruct (C a b Ha Hb) as (m & Em & Cm). assert (X : count a b = m).
    { unfold count. rewrite (Qred_to_int _ _ Em). cbn. apply Nat2Z.id. } rewrite X. auto. }
  assert (Hpos : (0 < length vals)%nat).
  { rewrite Lv, LF'. destruct (ALL [(0, 0)%Z]) as (a & Ha & _); [apply connected_one|cbn; lia|lia]. }
  assert (Hlow : strictly_lower (real_table M) ).
  { intros i j Hij. rewrite real_entry. destruct (Nat.lt_ge_cases j (length L)) as [Hj|Hj].
    - rewrite (Qeq_eqR _ _ (T i j Hij Hj)). unfold Q2R. cbn. lra.
    - unfold entry. destruct (Nat.lt_ge_cases i (length L)) as [Hi|Hi].
      + rewrite (nth_overflow (nth i M [])) by (rewrite S2 by exact Hi; exact Hj). unfold Q2R. cbn. lra.
      + rewrite (nth_overflow M) by lia. destruct j; unfold Q2R; cbn; lra. }
  destruct (nlce_exp_val_ok vals (real_table M) (map INR ms) inds nsites Hpos Hs) as (total & orders & w & EN & Lw & Lo & HW & HT & HO & HS).
  { unfold real_table. rewrite map_length. lia. }
  { intros i Hi. unfold real_table. rewrite (nth_indep _ [] (map Q2R [])) by (rewrite map_length; lia). rewrite (map_nth (map Q2R)), map_length. rewrite S2 by lia. lia. }
  { rewrite map_length. lia. }
  exists total, orders, w, L, count. split; [exact EN|]. split; [apply clusters_at; exact F|].
  split; [intros a b Ha Hb; apply HC; assumption|]. split; [|split].
  - intros a Ha. rewrite (weights_invert _ _ _ _ Hlow HW a) by lia. f_equal. rewrite Lv, LF. apply rsum_ext. intros b Hb. f_equal.
    rewrite real_entry, (Qeq_eqR _ _ (proj1 (HC a b Ha Hb))). apply Q2R_nat.
  - rewrite HT, Lv, LF. apply rsum_ext. intros a Ha. f_equal. change 0%R with (INR 0). apply (map_nth INR).
  - apply HS.
    + lia.
    + exact I0.
    + rewrite LI. replace (S n - 1) with n by lia. rewrite In_. lia.
    + intros k Hk. apply (HI k). lia.
Qed.

(** ** The parent of an expansion *)
Lemma expansion_of_parent vals sc p inds nsites : let n := length vals in
  strictly_lower sc -> n <= length sc -> (forall i, i < n -> length (nth i sc []) = n) -> 0 < nsites -> p < n ->
  exists total orders w, nlce_exp_val vals sc (set_at p 1%R (nth p sc [])) inds nsites = Ok (total, orders, w) /\
  (total * INR nsites = nth p vals 0)%R.
Proof.
  intros n Hl Hr Hc Hs Hp.
  assert (Lm : length (set_at p 1%R (nth p sc [])) = n) by (rewrite set_at_length; apply Hc; exact Hp).
  destruct (nlce_exp_val_ok vals sc (set_at p 1%R (nth p sc [])) inds nsites ltac:(fold n; lia) Hs Hr Hc Lm) as (total & orders & w & E & Lw & _ & HW & HT & _).
  exists total, orders, w. split; [exact E|]. fold n in HW, HT, Lw. rewrite HT, (weights_invert sc vals w n Hl HW p Hp).
  assert (D : forall u k, k < n -> (rsum n (fun j => if Nat.eq_dec j k then u j else 0) = u k)%R).
  { clear. intros u k Hk. induction n as [|n IH]; [lia|]. cbn [rsum]. destruct (Nat.eq_dec n k) as [->|X].
    - rewrite rsum_zero; [ring|]. intros j Hj. destruct (Nat.eq_dec j k); [lia|reflexivity].
    - rewrite IH by lia. ring. }
  rewrite <- (D (fun j => nth j w 0%R) p Hp), <- rsum_add. apply rsum_ext. intros j Hj. rewrite set_at_nth by (rewrite Hc; lia).
  destruct (Nat.eq_dec j p) as [->|X]; [|unfold ment; ring]. rewrite (Hl p p (le_n _)). ring.
Qed.

Lemma expansion_weights vals sc mult inds nsites : let n := length vals in
  0 < n -> 0 < nsites -> n <= length sc -> (forall i, i < n -> length (nth i sc []) = n) -> length mult = n -> strictly_lower sc ->
  exists total orders w, nlce_exp_val vals sc mult inds nsites = Ok (total, orders, w) /\ length w = n /\
    (forall i, i < n -> (nth i vals 0 = nth i w 0 + rsum n (fun j => ment sc i j * nth j w 0))%R) /\
    (forall u, (forall i, i < n -> (nth i vals 0 = u i + rsum n (fun j => ment sc i j * u j))%R) -> forall i, i < n -> u i = nth i w 0%R) /\
    (total * INR nsites = rsum n (fun j => nth j mult 0 * nth j w 0))%R /\
    (2 <= length inds -> nth 0 inds 0 = 0 -> nth (length inds - 1) inds 0 = n ->
     (forall k, k < length inds - 1 -> nth k inds 0 <= nth (S k) inds 0) -> fold_right Rplus 0%R orders = total).
Proof.
  intros n H1 H2 H3 H4 H5 H6. destruct (nlce_exp_val_ok vals sc mult inds nsites H1 H2 H3 H4 H5) as (t & o & w & E & Lw & _ & HW & HT & _ & HS).
  exists t, o, w. pose proof (weights_invert sc vals w n H6 HW) as HI. split; [exact E|]. split; [exact Lw|]. split; [exact HI|]. split; [|split; [exact HT|exact HS]].
  intros u Hu i Hi. symmetry. apply (weights_unique sc n (fun i => nth i vals 0%R) (fun i => nth i w 0%R) u H6 HI Hu i Hi).
Qed.
Lemma expansion_orders vals sc mult inds nsites total orders w : nlce_exp_val vals sc mult inds nsites = Ok (total, orders, w) ->
  length orders = length inds - 1 /\
  forall k, k < length inds - 1 -> (nth k orders 0 * INR nsites =
    rsum (nth (S k) inds O - nth k inds O) (fun j => nth (nth k inds O + j) mult 0 * nth (nth k inds O + j) w 0))%R.
Proof.
  unfold nlce_exp_val. destruct (nlce_weights sc vals) as [w'|]; [|discriminate]. cbn [bind]. destruct (negb _); [discriminate|].
  destruct (Nat.eqb_spec nsites 0) as [|NZ]; [discriminate|]. destruct (_ =? 0); [discriminate|]. intros E. injection E as <- <- <-.
  split; [rewrite map_length, seq_length; reflexivity|]. intros k Hk. set (ord := fun ii => (_ / _)%R).
  rewrite (nth_indep _ 0%R (ord O)) by (rewrite map_length, seq_length; exact Hk). rewrite map_nth, seq_nth by exact Hk. unfold ord. cbn [Nat.add].
  rewrite dot_slice. field. apply not_0_INR. exact NZ.
Qed.
Lemma euler_weighted y : (0 < y)%R -> forall n, exists ws, length ws = n /\ (forall j, j < n -> (0 <= nth j ws 0 <= 1)%R) /\
  forall xs, length xs = n -> fst (euler_resum y xs) = dot ws xs /\ fst (euler_resum y xs) = fold_right Rplus 0%R (snd (euler_resum y xs)).
Proof.
  intros Hy n. destruct (euler_weights y Hy n) as (ws & L & B & H). exists ws. split; [exact L|]. split; [exact B|]. intros xs Lx.
  split; [apply H; exact Lx|reflexivity].
Qed.

(** ** Axes *)
Lemma squeezed_rev s : squeezed (rev s) = rev (squeezed s).
Proof.
  unfold squeezed. induction s as [|a s IH]; [reflexivity|]. cbn [rev filter]. rewrite filter_app, IH. cbn [filter]. destruct (negb (a =? 1)); cbn [rev]; [reflexivity|apply app_nil_r].
Qed.
Lemma squeezed_none s : ~ In 1 s -> squeezed s = s.
Proof.
  unfold squeezed. induction s as [|a s IH]; intros H; [reflexivity|]. cbn [filter]. destruct (Nat.eqb_spec a 1) as [->|]; [exfalso; apply H; left; reflexivity|].
  cbn [negb]. rewrite IH; [reflexivity|]. intros X. apply H. right. exact X.
Qed.
Lemma squeezed_ones k : squeezed (repeat 1 k) = []. Proof. unfold squeezed. induction k; [reflexivity|exact IHk]. Qed.
Lemma squeezed_in s : ~ In 1 (squeezed s).
Proof. unfold squeezed. rewrite filter_In. intros [_ H]. discriminate. Qed.
Lemma squeezed_nil s : squeezed s = [] -> s = repeat 1 (length s).
Proof.
  unfold squeezed. induction s as [|a s IH]; [reflexivity|]. cbn [filter length repeat]. destruct (Nat.eqb_spec a 1) as [->|]; cbn [negb]; [|discriminate].
  intros H. rewrite <- IH by exact H. reflexivity.
Qed.
Lemma squeeze_cases u : (exists t k, u = t ++ repeat 1 k /\ ~ In 1 t) \/
  exists p, p < length (squeezed u) /\ p < length u /\ nth p u 0 = 1 /\ nth p (squeezed u) 0 <> 1.
Proof.
  induction u as [|a u IH].
  - left. exists [], 0. split; [reflexivity|intros []].
  - destruct (Nat.eq_dec a 1) as [->|Ha].
    + destruct (squeezed u) as [|b v] eqn:E.
      * left. exists [], (S (length u)). split; [cbn; f_equal; apply squeezed_nil; exact E|intros []].
      * right. exists 0. unfold squeezed in *. cbn [filter Nat.eqb negb]. rewrite E. cbn. repeat split; try lia.
        intros ->. apply (squeezed_in u). unfold squeezed. rewrite E. left. reflexivity.
    + assert (X : squeezed (a :: u) = a :: squeezed u). { unfold squeezed. cbn [filter]. destruct (Nat.eqb_spec a 1); [lia|reflexivity]. }
      destruct IH as [(t & k & -> & N)|(p & H1 & H2 & H3 & H4)].
      * left. exists (a :: t), k. split; [reflexivity|]. intros [Y|Y]; [lia|auto].
      * right. exists (S p). rewrite X. cbn [length nth]. repeat split; try lia; assumption.
Qed.
Lemma broadcast_prefix t k : broadcast_rev (t ++ repeat 1 k) t = Some (t ++ repeat 1 k).
Proof. induction t as [|a t IH]; cbn [app broadcast_rev]; [destruct k; reflexivity|]. rewrite IH, Nat.eqb_refl. reflexivity. Qed.
Lemma broadcast_same u : broadcast_rev u u = Some u.
Proof. pose proof (broadcast_prefix u 0) as H. cbn [repeat] in H. rewrite app_nil_r in H. exact H. Qed.
Lemma broadcast_right x : forall y r p, broadcast_rev x y = Some r -> p < length y -> nth p y 0 <> 1 -> nth p r 0 = nth p y 0 /\ p < length r.
Proof.
  induction x as [|a x IH]; intros y r p E Hp H1; [cbn in E; injection E as <-; auto|].
  destruct y as [|b y]; [cbn in Hp; lia|]. cbn [broadcast_rev] in E. destruct (broadcast_rev x y) as [q|] eqn:Q; [|discriminate].
  assert (exists c, r = c :: q /\ (b <> 1 -> c = b)) as (c & -> & Hc).
  { destruct (Nat.eqb_spec a b) as [->|]; [injection E as <-; eauto|]. destruct (Nat.eqb_spec a 1); [injection E as <-; eauto|].
    destruct (Nat.eqb_spec b 1); [injection E as <-; exists a; split; [reflexivity|lia]|discriminate]. }
  destruct p as [|p]; cbn [nth length] in *; [split; [auto|lia]|]. destruct (IH y q p Q ltac:(lia) H1). split; [assumption|lia].
Qed.
Lemma broadcast_comm x : forall y, broadcast_rev x y = broadcast_rev y x.
Proof.
  induction x as [|a x IH]; intros [|b y]; try reflexivity. cbn [broadcast_rev]. rewrite IH. destruct (broadcast_rev y x); [|reflexivity].
  destruct (Nat.eqb_spec a b) as [->|X]; [rewrite Nat.eqb_refl; reflexivity|]. destruct (Nat.eqb_spec b a); [lia|].
  destruct (Nat.eqb_spec a 1), (Nat.eqb_spec b 1); try reflexivity. lia.
Qed.
Lemma shape_eqb_eq s : forall t, shape_eqb s t = true <-> s = t.
Proof.
  induction s as [|a s IH]; intros [|b t]; cbn; try (split; [discriminate|discriminate]); [tauto|].
  rewrite Bool.andb_true_iff, Nat.eqb_eq, IH. split; [intros [-> ->]; reflexivity|intros H; injection H; auto].
Qed.
Lemma weights_shape_ok s : weights_shape s = Ok tt <-> exists k t, s = repeat 1 k ++ t /\ ~ In 1 t.
Proof.
  unfold weights_shape. change (squeezed (1 :: s)) with (squeezed s). unfold broadcast. rewrite <- squeezed_rev.
  assert (RR : forall k, rev (repeat 1 k) = repeat 1 k).
  { induction k as [|k IH]; [reflexivity|]. cbn [repeat rev]. rewrite IH. clear. induction k as [|k IH]; [reflexivity|]. cbn [repeat app]. rewrite IH. reflexivity. }
  destruct (squeeze_cases (rev s)) as [(t & k & E & N)|(p & H1 & H2 & H3 & H4)].
  - assert (Es : s = repeat 1 k ++ rev t). { rewrite <- (rev_involutive s), E, rev_app_distr, RR. reflexivity. }
    assert (Q : squeezed (rev s) = t). { rewrite E. unfold squeezed. rewrite filter_app. fold (squeezed t) (squeezed (repeat 1 k)). rewrite squeezed_ones, app_nil_r. apply squeezed_none. exact N. }
    rewrite Q, E, broadcast_prefix. cbn [option_map]. rewrite rev_involutive, broadcast_same. cbn [option_map]. rewrite <- E, rev_involutive.
    rewrite (proj2 (shape_eqb_eq s s) eq_refl). split; [|reflexivity]. intros _. exists k, (rev t). split; [exact Es|]. rewrite <- in_rev. exact N.
  - split.
    + destruct (broadcast_rev (rev s) (squeezed (rev s))) as [r|] eqn:B; cbn [option_map]; [|discriminate]. rewrite rev_involutive.
      destruct (broadcast_right _ _ _ p B H1 H4) as [R1 R2].
      destruct (broadcast_rev r (rev s)) as [r'|] eqn:B'; cbn [option_map]; [|discriminate]. rewrite broadcast_comm in B'.
      destruct (broadcast_right _ _ _ p B' R2) as [R1' R2']; [congruence|].
      destruct (shape_eqb (rev r') s) eqn:S; [|discriminate]. apply shape_eqb_eq in S. exfalso. rewrite <- S, rev_involutive in H3. congruence.
    + intros (k & t & -> & N). exfalso. rewrite rev_app_distr, RR in *.
      assert (Q : squeezed (rev t ++ repeat 1 k) = rev t). { unfold squeezed. rewrite filter_app. fold (squeezed (rev t)) (squeezed (repeat 1 k)). rewrite squeezed_ones, app_nil_r. apply squeezed_none. rewrite <- in_rev. exact N. }
      rewrite Q in *. rewrite app_nth1 in H3 by exact H1. apply H4. exact H3.
Qed.
