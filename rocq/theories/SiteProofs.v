(** Orbits of a site permutation as found by [site_cycles]. *)
From Coq Require Import List Arith Lia QArith Qabs ZArith Bool Permutation.
From Verif Require Import Res SpecPerm Matrix ModelGeometry ModelSites.
Import ListNotations.
Local Open Scope nat_scope.

Lemma nats_eqb_spec a b : nats_eqb a b = true <-> a = b.
Proof.
  revert b. induction a as [|x a IH]; intros [|y b]; simpl; split; intros H; try congruence; try discriminate.
  - apply andb_true_iff in H as (H1 & H2). apply Nat.eqb_eq in H1. apply IH in H2. congruence.
  - injection H as -> ->. rewrite Nat.eqb_refl. simpl. apply IH. reflexivity.
Qed.

Lemma rmap_ext {A B} (f g : A -> res B) l : (forall x, In x l -> f x = g x) -> rmap f l = rmap g l.
Proof.
  induction l as [|a l IH]; simpl; intros H; [reflexivity|].
  rewrite H by (left; reflexivity). rewrite IH by (intros; apply H; right; assumption). reflexivity.
Qed.

Lemma rmap_ok {A B} (f : A -> res B) l bs :
  rmap f l = Ok bs <-> Forall2 (fun a b => f a = Ok b) l bs.
Proof.
  revert bs. induction l as [|a l IH]; intros bs; simpl; split; intros H.
  - injection H as <-. constructor.
  - inversion H. reflexivity.
  - apply bind_ok in H as (b & Hb & H). apply bind_ok in H as (bs' & Hbs & H). injection H as <-.
    constructor; [assumption|apply IH; assumption].
  - inversion H as [|? b ? bs' Hb Hbs]; subst. apply IH in Hbs. rewrite Hb. simpl. rewrite Hbs. reflexivity.
Qed.

Lemma rmap_bind_pure {A B C} (f : A -> res B) (h : B -> C) l :
  rmap (fun a => b <- f a ;; Ok (h b)) l = (bs <- rmap f l ;; Ok (map h bs)).
Proof.
  induction l as [|a l IH]; simpl; [reflexivity|].
  destruct (f a) as [b|e]; simpl; [|reflexivity]. rewrite IH.
  destruct (rmap f l) as [bs|e]; simpl; reflexivity.
Qed.

Lemma Forall2_len {A B} (P : A -> B -> Prop) l1 l2 : Forall2 P l1 l2 -> length l1 = length l2.
Proof. induction 1; simpl; congruence. Qed.

Lemma Forall2_nth' {A B} (P : A -> B -> Prop) l1 l2 d1 d2 : Forall2 P l1 l2 ->
  forall i, i < length l1 -> P (nth i l1 d1) (nth i l2 d2).
Proof.
  induction 1 as [|a b l1 l2 H _ IH]; intros i Hi; simpl in *; [lia|].
  destruct i; [assumption|]. apply IH. lia.
Qed.

Lemma rmap_length {A B} (f : A -> res B) l bs : rmap f l = Ok bs -> length bs = length l.
Proof. intros H. apply rmap_ok, Forall2_len in H. congruence. Qed.

Lemma reduced_coords_length L cs rs : reduced_coords L cs = Ok rs -> length rs = length cs.
Proof.
  unfold reduced_coords. destruct L as [l|]; [|congruence].
  intros H. apply bind_ok in H as (r & Hr & H). injection H as <-.
  rewrite map_length. apply (rmap_length _ _ _ Hr).
Qed.

Lemma first_match_range tol v ws k j : first_match tol v ws k = Some j -> k <= j < k + length ws.
Proof.
  revert k. induction ws as [|w ws IH]; intros k; simpl; [discriminate|].
  destruct (within tol v w); [intros [= <-]; lia|]. intros H. apply IH in H. lia.
Qed.

Lemma first_match_spec tol v ws k j : first_match tol v ws k = Some j ->
  within tol v (nth (j - k) ws vzero) = true /\ forall i, i < j - k -> within tol v (nth i ws vzero) = false.
Proof.
  revert k. induction ws as [|w ws IH]; intros k; simpl; [discriminate|].
  destruct (within tol v w) eqn:E.
  - intros [= <-]. rewrite Nat.sub_diag. split; [assumption|lia].
  - intros H. pose proof (first_match_range _ _ _ _ _ H). apply IH in H as (H1 & H2).
    replace (j - k) with (S (j - S k)) by lia. split; [assumption|].
    intros [|i] Hi; [assumption|]. apply H2. lia.
Qed.

Lemma first_match_some tol v ws k i : i < length ws -> within tol v (nth i ws vzero) = true ->
  exists j, first_match tol v ws k = Some j /\ j <= k + i.
Proof.
  revert k i. induction ws as [|w ws IH]; intros k i Hi Hw; simpl in *; [lia|].
  destruct (within tol v w) eqn:E; [exists k; split; [reflexivity|lia]|].
  destruct i as [|i]; [congruence|]. destruct (IH (S k) i) as (j & Hj & Hle); [lia|assumption|].
  exists j. split; [assumption|lia].
Qed.

Section Step.
  Variables (L : option lattice) (coords : list vec) (f : vec -> vec) (tol : Q).
  Let n := length coords.
  Let step := transformed_sites L coords f tol.

  (** Acting on any list of labels, the step relabels by the site map. *)
  Lemma step_relabels sites : length sites = n ->
    step sites = (s <- step (seq 0 n) ;; Ok (map (fun j => nth j sites O) s)).
  Proof.
    intros Hl. unfold step, transformed_sites. rewrite seq_length, Hl.
    destruct (reduced_coords L coords) as [red|e] eqn:E1; [|reflexivity]. cbn [bind].
    destruct (reduced_coords L (map f coords)) as [tred|e] eqn:E2; [|reflexivity]. cbn [bind].
    rewrite <- rmap_bind_pure. apply rmap_ext. intros i Hi. apply in_seq in Hi.
    destruct (nth_error tred i) as [v|]; [|reflexivity].
    destruct (first_match tol v red 0) as [j|] eqn:Ej; [|reflexivity].
    apply first_match_range in Ej. rewrite (reduced_coords_length _ _ _ E1) in Ej. fold n in Ej.
    rewrite (nth_error_nth' (seq 0 n) 0) by (rewrite seq_length; lia).
    rewrite (nth_error_nth' sites 0) by lia. rewrite seq_nth by lia. reflexivity.
  Qed.

  Lemma step_range s : step (seq 0 n) = Ok s -> length s = n /\ forall i, i < n -> nth i s O < n.
  Proof.
    intros H. unfold step, transformed_sites in H.
    apply bind_ok in H as (red & E1 & H). apply bind_ok in H as (tred & E2 & H).
    pose proof (rmap_length _ _ _ H) as Hl. rewrite !seq_length in Hl. split; [assumption|].
    intros i Hi. apply rmap_ok in H. rewrite seq_length in H.
    pose proof (Forall2_nth' _ _ _ 0 0 H i ltac:(rewrite seq_length; assumption)) as G. cbv beta in G.
    rewrite seq_nth in G by assumption. simpl in G.
    destruct (nth_error tred i) as [v|]; [|discriminate].
    destruct (first_match tol v red 0) as [j|] eqn:Ej; [|discriminate].
    apply first_match_range in Ej. rewrite (reduced_coords_length _ _ _ E1) in Ej. fold n in Ej.
    rewrite (nth_error_nth' (seq 0 n) 0) in G by (rewrite seq_length; lia).
    rewrite seq_nth in G by lia. injection G as <-. lia.
  Qed.
End Step.

Section Loop.
  Variables (n : nat) (step : list nat -> res (list nat)) (s : list nat).
  Let sigma (i : nat) := nth i s O.
  Hypothesis Hs : length s = n.
  Hypothesis Hrange : forall i, i < n -> sigma i < n.
  Hypothesis Hstep : forall l, length l = n -> step l = Ok (map (fun j => nth j l O) s).

  Definition column (k : nat) : list nat := map (iter sigma k) (seq 0 n).

  Lemma iter_range k i : i < n -> iter sigma k i < n.
  Proof. intros Hi. induction k; simpl; auto. Qed.

  Lemma iter_swap k i : iter sigma k (sigma i) = sigma (iter sigma k i).
  Proof. induction k; simpl; congruence. Qed.

  Lemma column_length k : length (column k) = n.
  Proof. unfold column. rewrite map_length. apply seq_length. Qed.

  Lemma column_nth k i : i < n -> nth i (column k) O = iter sigma k i.
  Proof.
    intros Hi. unfold column. rewrite (nth_indep _ O (iter sigma k 0)) by (rewrite map_length, seq_length; assumption).
    rewrite map_nth, seq_nth by assumption. reflexivity.
  Qed.

  Lemma column_0 : column 0 = seq 0 n.
  Proof. unfold column. simpl. apply map_id. Qed.

  Lemma column_S k : step (column k) = Ok (column (S k)).
  Proof.
    rewrite Hstep by apply column_length. f_equal.
    apply nth_ext with (d := O) (d' := O); [rewrite map_length, column_length; congruence|].
    rewrite map_length. intros i Hi. rewrite column_nth by lia.
    rewrite (nth_indep _ O ((fun j => nth j (column k) O) O)) by (rewrite map_length; assumption).
    rewrite (map_nth (fun j => nth j (column k) O)). fold (sigma i).
    rewrite column_nth by (apply Hrange; lia). simpl. apply iter_swap.
  Qed.

  Definition current (k : nat) : list nat := match k with O => repeat O n | S _ => column k end.

  Lemma close_ok fuel k :
    exists m, close_sites step (seq 0 n) fuel (map column (rev (seq 0 (S k)))) (current k) =
      Ok (map column (rev (seq 0 (S m)))) /\ k <= m <= k + fuel /\
      (m = k + fuel \/ current m = seq 0 n) /\ forall j, k <= j < m -> current j <> seq 0 n.
  Proof.
    revert k. induction fuel as [|fuel IH]; intros k.
    - exists k. split; [reflexivity|]. split; [lia|]. split; [left; lia|]. intros; lia.
    - cbn [close_sites]. destruct (nats_eqb (current k) (seq 0 n)) eqn:E.
      + exists k. split; [reflexivity|]. split; [lia|]. split; [right; apply nats_eqb_spec; assumption|]. intros; lia.
      + assert (Hne : current k <> seq 0 n).
        { intros C. apply nats_eqb_spec in C. congruence. }
        assert (R : forall q, rev (seq 0 (S q)) = q :: rev (seq 0 q)).
        { intros q. rewrite seq_S, rev_app_distr. reflexivity. }
        rewrite (R k). cbn [map]. rewrite column_S. cbn [bind].
        destruct (IH (S k)) as (m & Hm & Hle & Hor & Hmin).
        exists m. rewrite (R (S k)), (R k) in Hm. cbn [map] in Hm. split; [exact Hm|].
        split; [lia|]. split; [destruct Hor; [left; lia|right; assumption]|].
        intros j Hj. destruct (Nat.eq_dec j k) as [->|]; [assumption|]. apply Hmin. lia.
  Qed.

  Lemma close_error fuel cols cur e :
    close_sites step (seq 0 n) fuel cols cur = Raise e -> cols <> [] -> (forall c, In c cols -> length c = n) -> False.
  Proof.
    revert cols cur. induction fuel as [|fuel IH]; intros cols cur H Hne Hlen; simpl in H; [discriminate|].
    destruct (nats_eqb cur (seq 0 n)); [discriminate|]. destruct cols as [|c t]; [contradiction|].
    rewrite Hstep in H by (apply Hlen; left; reflexivity). simpl in H.
    apply IH in H; [assumption|discriminate|]. intros x [<-|Hx]; [rewrite map_length; assumption|apply Hlen, Hx].
  Qed.

  (** The order of the permutation. *)
  Definition closes (k : nat) : Prop := forall i, i < n -> iter sigma k i = i.

  Lemma column_closes k : column k = seq 0 n <-> closes k.
  Proof.
    split.
    - intros H i Hi. rewrite <- (column_nth k i Hi), H. apply seq_nth. assumption.
    - intros H. unfold column. rewrite <- (map_id (seq 0 n)) at 2. apply map_ext_in.
      intros i Hi. apply in_seq in Hi. apply H. lia.
  Qed.

  Section Cycles.
    Variable m : nat.
    Hypothesis Hm : 1 <= m.
    Hypothesis Hclose : closes m.

    Lemma sigma_inj i j : i < n -> j < n -> sigma i = sigma j -> i = j.
    Proof.
      intros Hi Hj H. rewrite <- (Hclose i Hi), <- (Hclose j Hj).
      destruct m as [|q]; [lia|]. cbn [iter]. rewrite <- !iter_swap, H. reflexivity.
    Qed.

    Lemma iter_inj k i j : i < n -> j < n -> iter sigma k i = iter sigma k j -> i = j.
    Proof.
      induction k as [|k IH]; simpl; intros Hi Hj H; [assumption|].
      apply IH; auto. apply sigma_inj; auto using iter_range.
    Qed.

    Definition orbit (a p : nat) : list nat := map (fun k => iter sigma k a) (seq 0 p).

    Definition is_period (a p : nat) : Prop :=
      1 <= p /\ iter sigma p a = a /\ forall k, 1 <= k < p -> iter sigma k a <> a.

    Lemma period_exists a : a < n -> exists p, p <= m /\ is_period a p.
    Proof.
      intros Ha.
      assert (S : forall b, (exists p, 1 <= p <= b /\ iter sigma p a = a /\ forall k, 1 <= k < p -> iter sigma k a <> a) \/
                            (forall k, 1 <= k <= b -> iter sigma k a <> a)).
      { induction b as [|b IH]; [right; lia|]. destruct IH as [(p & Hp & H1 & H2)|IH].
        - left. exists p. split; [lia|]. auto.
        - destruct (Nat.eq_dec (iter sigma (S b) a) a) as [E|E].
          + left. exists (S b). split; [lia|]. split; [assumption|]. intros k Hk. apply IH. lia.
          + right. intros k Hk. destruct (Nat.eq_dec k (S b)) as [->|]; [assumption|]. apply IH. lia. }
      destruct (S m) as [(p & Hp & H1 & H2)|H].
      - exists p. split; [lia|]. split; [lia|]. auto.
      - exfalso. apply (H m); [lia|]. apply Hclose. assumption.
    Qed.

    Lemma orbit_nodup a p : a < n -> is_period a p -> NoDup (orbit a p).
    Proof.
      intros Ha (H1 & H2 & H3). unfold orbit.
      assert (K : forall i j, i < j -> j < p -> iter sigma i a <> iter sigma j a).
      { intros i j Hij Hj E. replace j with (i + (j - i)) in E by lia. rewrite iter_add in E.
        apply iter_inj in E; [|assumption|apply iter_range; assumption].
        apply (H3 (j - i)); [lia|]. symmetry. assumption. }
      assert (G : forall l, NoDup l -> (forall x, In x l -> x < p) -> NoDup (map (fun k => iter sigma k a) l)).
      { induction 1 as [|x l Hx Hl IH]; intros Hb; simpl; constructor.
        - rewrite in_map_iff. intros (y & Ey & Hy).
          assert (x < p) by (apply Hb; left; reflexivity). assert (y < p) by (apply Hb; right; assumption).
          destruct (lt_eq_lt_dec x y) as [[Hlt| ->]|Hlt]; [|contradiction|].
          + apply (K x y Hlt); auto.
          + apply (K y x Hlt); auto.
        - apply IH. intros; apply Hb; right; assumption. }
      apply G; [apply seq_NoDup|]. intros x Hx. apply in_seq in Hx. lia.
    Qed.

    Lemma orbit_In a p x : In x (orbit a p) <-> exists k, k < p /\ x = iter sigma k a.
    Proof.
      unfold orbit. rewrite in_map_iff. split.
      - intros (k & <- & Hk). apply in_seq in Hk. exists k. split; [lia|reflexivity].
      - intros (k & Hk & ->). exists k. split; [reflexivity|]. apply in_seq. lia.
    Qed.

    Lemma orbit_all a p k : is_period a p -> In (iter sigma k a) (orbit a p).
    Proof.
      intros (H1 & H2 & H3). induction k as [|k IH].
      - apply orbit_In. exists O. split; [lia|reflexivity].
      - apply orbit_In in IH as (q & Hq & E). apply orbit_In. simpl. rewrite E.
        destruct (Nat.eq_dec (S q) p) as [Ep|Ep].
        + exists O. split; [lia|]. subst p. exact H2.
        + exists (S q). split; [lia|reflexivity].
    Qed.

    (** Back from a point of an orbit to its start. *)
    Lemma orbit_back a p x : is_period a p -> In x (orbit a p) -> exists k, iter sigma k x = a.
    Proof.
      intros (H1 & H2 & H3) Hx. apply orbit_In in Hx as (k & Hk & ->).
      exists (p - k). rewrite <- iter_add. replace (p - k + k) with p by lia. assumption.
    Qed.

    Lemma existsb_In x l : existsb (Nat.eqb x) l = true <-> In x l.
    Proof.
      rewrite existsb_exists. split.
      - intros (y & Hy & E). apply Nat.eqb_eq in E. congruence.
      - intros H. exists x. split; [assumption|apply Nat.eqb_refl].
    Qed.

    Lemma keep_first_new seen l r : NoDup l -> (forall x, In x l -> ~ In x seen) ->
      keep_first seen (l ++ r) = l ++ keep_first (rev l ++ seen) r.
    Proof.
      revert seen. induction l as [|a l IH]; intros seen Hnd Hseen; [reflexivity|].
      inversion Hnd as [|? ? Ha Hl]; subst. cbn [app keep_first].
      destruct (existsb (Nat.eqb a) seen) eqn:E.
      - apply existsb_In in E. exfalso. apply (Hseen a); [left; reflexivity|assumption].
      - rewrite IH; [|assumption|].
        + cbn [rev]. rewrite <- app_assoc. reflexivity.
        + intros x Hx [<-|Hs']; [contradiction|]. apply (Hseen x); [right; assumption|assumption].
    Qed.

    Lemma keep_first_seen seen r : (forall x, In x r -> In x seen) -> keep_first seen r = [].
    Proof.
      induction r as [|a r IH]; intros H; simpl; [reflexivity|].
      rewrite (proj2 (existsb_In a seen)) by (apply H; left; reflexivity).
      apply IH. intros x Hx. apply H. right. assumption.
    Qed.

    Lemma row_orbit a : a < n -> exists p, is_period a p /\
      keep_first [] (map (fun c => nth a c O) (map column (seq 0 (S m)))) = orbit a p.
    Proof.
      intros Ha. destruct (period_exists a Ha) as (p & Hp & Hper). exists p. split; [assumption|].
      rewrite map_map.
      assert (E : map (fun k => nth a (column k) O) (seq 0 (S m)) = orbit a p ++ map (fun k => iter sigma k a) (seq p (S m - p))).
      { unfold orbit. rewrite <- map_app.
        replace (seq 0 p ++ seq p (S m - p)) with (seq 0 (S m)) by (rewrite <- seq_app; f_equal; lia).
        apply map_ext. intros k. apply column_nth. assumption. }
      rewrite E, keep_first_new; [|apply orbit_nodup; assumption|intros x _ []].
      rewrite keep_first_seen; [apply app_nil_r|].
      intros x Hx. apply in_map_iff in Hx as (k & <- & _). rewrite app_nil_r. apply -> in_rev. apply orbit_all. assumption.
    Qed.

    Definition orbits_upto (k : nat) (cs : list (list nat)) : Prop :=
      Forall (fun c => exists a p, a < n /\ is_period a p /\ c = orbit a p) cs /\
      NoDup (concat cs) /\ forall x, x < k -> In x (concat cs).

    Lemma NoDup_app' (l1 l2 : list nat) : NoDup l1 -> NoDup l2 -> (forall x, In x l1 -> In x l2 -> False) -> NoDup (l1 ++ l2).
    Proof.
      induction l1 as [|a l1 IH]; simpl; intros H1 H2 H; [assumption|].
      inversion H1; subst. constructor.
      - rewrite in_app_iff. intros [C|C]; [contradiction|]. apply (H a); [left; reflexivity|assumption].
      - apply IH; auto. intros x Hx. apply H. right. assumption.
    Qed.

    Lemma collect_ok k cs : k <= n ->
      fold_left (fun cs ii =>
        if existsb (Nat.eqb ii) (concat cs) then cs
        else cs ++ [keep_first [] (map (fun c => nth ii c O) (map column (seq 0 (S m))))]) (seq 0 k) [] = cs ->
      orbits_upto k cs.
    Proof.
      revert cs. induction k as [|k IH]; intros cs Hk H.
      - simpl in H. subst. split; [constructor|]. split; [constructor|]. intros; lia.
      - rewrite (seq_S k 0), fold_left_app in H. cbn [fold_left] in H. cbn [plus] in H.
        set (cs0 := fold_left _ (seq 0 k) []) in H.
        destruct (IH cs0 ltac:(lia) eq_refl) as (H1 & H2 & H3).
        destruct (existsb (Nat.eqb k) (concat cs0)) eqn:E; subst cs.
        + split; [assumption|]. split; [assumption|]. intros x Hx.
          destruct (Nat.eq_dec x k) as [->|]; [apply existsb_In; assumption|apply H3; lia].
        + destruct (row_orbit k ltac:(lia)) as (p & Hper & Er). rewrite Er.
          assert (Hkn : ~ In k (concat cs0)) by (intros C; apply existsb_In in C; congruence).
          split; [|split].
          * apply Forall_app. split; [assumption|]. constructor; [|constructor].
            exists k, p. split; [lia|]. auto.
          * rewrite concat_app. cbn [concat]. rewrite app_nil_r.
            apply NoDup_app'; [assumption|apply orbit_nodup; [lia|assumption]|].
            intros x Hx1 Hx2. apply Hkn. destruct (orbit_back k p x Hper Hx2) as (q & Hq).
            apply in_concat in Hx1 as (c & Hc & Hxc). apply in_concat. exists c. split; [assumption|].
            rewrite Forall_forall in H1. destruct (H1 c Hc) as (a & p' & Ha & Hper' & ->).
            apply orbit_In in Hxc as (r & _ & ->). rewrite <- iter_add in Hq. rewrite <- Hq. apply orbit_all. assumption.
          * intros x Hx. rewrite concat_app. cbn [concat]. rewrite app_nil_r. apply in_app_iff.
            destruct (Nat.eq_dec x k) as [->|]; [right; apply (orbit_all k p 0 Hper)|left; apply H3; lia].
    Qed.

    Lemma follow_orbit first a : forall p s0, NoDup (map (fun k => iter sigma k a) (seq s0 p)) ->
      forall x, In x (map (fun k => iter sigma k a) (seq s0 p)) ->
        follow first (map (fun k => iter sigma k a) (seq s0 p)) x =
        if x =? iter sigma (s0 + p - 1) a then first else sigma x.
    Proof.
      induction p as [|p IH]; intros s0 Hnd; [intros x []|].
      intros x Hx. cbn [seq map] in Hnd, Hx |- *. inversion Hnd as [|? ? Hn Hnd']; subst.
      cbn [follow]. destruct (Nat.eqb_spec x (iter sigma s0 a)) as [->|Hne].
      - destruct p as [|p]; cbn [seq map].
        + replace (s0 + 1 - 1) with s0 by lia. rewrite Nat.eqb_refl. reflexivity.
        + destruct (Nat.eqb_spec (iter sigma s0 a) (iter sigma (s0 + S (S p) - 1) a)) as [E|E]; [|reflexivity].
          exfalso. apply Hn. rewrite E. apply in_map_iff. exists (s0 + S (S p) - 1). split; [reflexivity|]. apply in_seq. lia.
      - destruct Hx as [Hx|Hx]; [congruence|].
        rewrite (IH (S s0) Hnd') by assumption. replace (S s0 + p - 1) with (s0 + S p - 1) by lia. reflexivity.
    Qed.

    Lemma next_orbit a p x : a < n -> is_period a p -> In x (orbit a p) -> next_in_cycle (orbit a p) x = sigma x.
    Proof.
      intros Ha Hper Hx. pose proof (orbit_nodup a p Ha Hper) as Hnd. destruct Hper as (H1 & H2 & H3).
      unfold orbit in *. destruct p as [|p]; [lia|]. cbn [seq map next_in_cycle].
      pose proof (follow_orbit a a (S p) 0 Hnd) as G.
      cbn [seq map] in G, Hx |- *. cbn [iter] in G, Hx |- *. rewrite G by assumption.
      destruct (Nat.eqb_spec x (iter sigma (0 + S p - 1) a)) as [->|]; [|reflexivity].
      replace (0 + S p - 1) with p by lia. symmetry. exact H2.
    Qed.

    Lemma cycles_perm_orbits cs x : orbits_upto n cs -> In x (concat cs) -> cycles_perm cs x = sigma x.
    Proof.
      intros (H1 & _ & _). induction cs as [|c cs IH]; cbn [concat cycles_perm]; [intros []|].
      intros Hx. inversion H1 as [|? ? (a & p & Ha & Hper & ->) Hf]; subst.
      destruct (existsb (Nat.eqb x) (orbit a p)) eqn:E.
      - apply existsb_In in E. apply next_orbit; assumption.
      - apply in_app_iff in Hx as [Hx|Hx]; [apply existsb_In in Hx; congruence|]. apply IH; assumption.
    Qed.

    Lemma collect_final : let cs := collect_cycles n (map column (seq 0 (S m))) in
      Permutation (concat cs) (seq 0 n) /\ (forall x, x < n -> cycles_perm cs x = sigma x) /\ ~ In [] cs.
    Proof.
      intros cs. destruct (collect_ok n cs (le_n n) eq_refl) as (H1 & H2 & H3).
      assert (Hb : forall x, In x (concat cs) -> x < n).
      { intros x Hx. apply in_concat in Hx as (c & Hc & Hx). rewrite Forall_forall in H1.
        destruct (H1 c Hc) as (a & p & Ha & Hper & ->). apply orbit_In in Hx as (k & _ & ->). apply iter_range. assumption. }
      split; [|split].
      - apply NoDup_Permutation; [assumption|apply seq_NoDup|]. intros x. rewrite in_seq. split; [intros Hx; apply Hb in Hx; lia|intros Hx; apply H3; lia].
      - intros x Hx. apply cycles_perm_orbits; [split; [|split]; assumption|apply H3; assumption].
      - intros Hnil. rewrite Forall_forall in H1. destruct (H1 [] Hnil) as (a & p & _ & (Hp & _) & E).
        destruct p; [lia|discriminate E].
    Qed.
  End Cycles.
End Loop.
