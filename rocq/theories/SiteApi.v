(** What [find_site_cycles] returns, in terms of coordinates. *)
From Coq Require Import List Arith Lia QArith Qabs ZArith Bool Permutation Lqa.
From Verif Require Import Res SpecPerm Matrix ModelGeometry SpecGeometry GeoReduce ModelSites SpecSites SiteProofs.
Import ListNotations.
Local Open Scope Q_scope.

Lemma within_spec tol v w : within tol v w = true <-> Qabs (fst v - fst w) < tol /\ Qabs (snd v - snd w) < tol.
Proof.
  unfold within. rewrite !Qlt_alt.
  destruct (Qcompare (Qabs (fst v - fst w)) tol), (Qcompare (Qabs (snd v - snd w)) tol);
    split; intros H; try discriminate; try (destruct H; discriminate); auto.
Qed.

Lemma Qabs_eq x y : x == y -> Qabs x == Qabs y.
Proof. intros ->. reflexivity. Qed.

Lemma reduce_shape p1 p2 md v r n1 n2 : reduce_vector p1 p2 md v = Ok (r, n1, n2) ->
  same_point r (moved v (- inject_Z n1) p1 (- inject_Z n2) p2).
Proof.
  unfold reduce_vector. intros H.
  destruct md; try discriminate; apply bind_ok in H as (ab & _ & H); apply bind_ok in H as (m1 & _ & H);
    apply bind_ok in H as (m2 & _ & H); injection H as <- <- <-; apply vsub_vscale.
Qed.

Lemma reduced_total L cs : usable L -> exists rs, reduced_coords L cs = Ok rs.
Proof.
  intros HL. unfold reduced_coords. destruct L as [l|]; [|eexists; reflexivity].
  assert (T : exists rs, rmap (reduce_vector (lt_p1 l) (lt_p2 l) Centered) cs = Ok rs).
  { induction cs as [|c cs (rs & IH)]; [eexists; reflexivity|].
    destruct (reduce_ok (lt_p1 l) (lt_p2 l) Centered c HL ltac:(discriminate)) as (r & n1 & n2 & Hr & _).
    cbn [rmap]. rewrite Hr. cbn [bind]. rewrite IH. eexists; reflexivity. }
  destruct T as (rs & ->). eexists; reflexivity.
Qed.

Section Api.
  Variables (L : option lattice) (coords : list vec) (f : vec -> vec) (tol : Q).
  Let n := length coords.
  Notation at_site i := (nth i coords vzero).

  Lemma reduced_nth cs rs i : reduced_coords L cs = Ok rs -> (i < length cs)%nat ->
    match L with
    | None => nth i rs vzero = nth i cs vzero
    | Some l => exists n1 n2, reduce_vector (lt_p1 l) (lt_p2 l) Centered (nth i cs vzero) = Ok (nth i rs vzero, n1, n2)
    end.
  Proof.
    unfold reduced_coords. destruct L as [l|]; intros H Hi; [|congruence].
    apply bind_ok in H as (xs & Hx & H). injection H as <-.
    apply rmap_ok in Hx. pose proof (Forall2_nth' _ _ _ vzero (vzero, 0%Z, 0%Z) Hx i Hi) as G. cbv beta in G.
    rewrite (nth_indep (map _ xs) vzero (fst (fst (vzero, 0%Z, 0%Z)))) by (rewrite map_length, <- (Forall2_len _ _ _ Hx); assumption).
    rewrite (map_nth (fun r : vec * Z * Z => fst (fst r))).
    destruct (nth i xs (vzero, 0%Z, 0%Z)) as [[r n1] n2]. exists n1, n2. exact G.
  Qed.

  Lemma near_reduced v w v' w' : 
    match L with
    | None => v' = v /\ w' = w
    | Some l => (exists n1 n2, reduce_vector (lt_p1 l) (lt_p2 l) Centered v = Ok (v', n1, n2)) /\
                (exists n1 n2, reduce_vector (lt_p1 l) (lt_p2 l) Centered w = Ok (w', n1, n2))
    end -> within tol v' w' = true -> near L tol v w.
  Proof.
    intros H Hw. apply within_spec in Hw as (H1 & H2). unfold near. destruct L as [l|].
    - destruct H as ((a1 & a2 & Ea) & (b1 & b2 & Eb)).
      apply reduce_shape in Ea as (A1 & A2). apply reduce_shape in Eb as (B1 & B2).
      exists (a1 - b1)%Z, (a2 - b2)%Z. unfold moved in *. cbn [fst snd] in *.
      split.
      + setoid_replace (fst v - (fst w + inject_Z (a1 - b1) * fst (lt_p1 l) + inject_Z (a2 - b2) * fst (lt_p2 l)))
          with (fst v' - fst w'); [assumption|].
        rewrite A1, B1. unfold Z.sub. rewrite !inject_Z_plus, !inject_Z_opp. ring.
      + setoid_replace (snd v - (snd w + inject_Z (a1 - b1) * snd (lt_p1 l) + inject_Z (a2 - b2) * snd (lt_p2 l)))
          with (snd v' - snd w'); [assumption|].
        rewrite A2, B2. unfold Z.sub. rewrite !inject_Z_plus, !inject_Z_opp. ring.
    - destruct H as (-> & ->). split; assumption.
  Qed.

  Lemma map_at i : (i < n)%nat -> nth i (map f coords) vzero = f (at_site i).
  Proof.
    intros Hi. rewrite (nth_indep _ vzero (f vzero)) by (rewrite map_length; exact Hi). apply map_nth.
  Qed.

  (** The image found is near the transformed site. *)
  Lemma image_near s i : transformed_sites L coords f tol (seq 0 n) = Ok s -> (i < n)%nat ->
    near L tol (f (at_site i)) (at_site (nth i s O)).
  Proof.
    intros H Hi. destruct (step_range L coords f tol s H) as (_ & Hr). specialize (Hr i Hi).
    unfold transformed_sites in H. apply bind_ok in H as (red & E1 & H). apply bind_ok in H as (tred & E2 & H).
    apply rmap_ok in H. rewrite seq_length in H.
    pose proof (Forall2_nth' _ _ _ O O H i ltac:(rewrite seq_length; assumption)) as G. cbv beta in G.
    rewrite seq_nth in G by assumption. simpl in G.
    destruct (nth_error tred i) as [v|] eqn:Ev; [|discriminate].
    apply nth_error_nth with (d := vzero) in Ev.
    destruct (first_match tol v red 0) as [j|] eqn:Ej; [|discriminate].
    pose proof (first_match_range _ _ _ _ _ Ej) as Hj. rewrite (reduced_coords_length _ _ _ E1) in Hj. fold n in Hj.
    apply first_match_spec in Ej as (Ew & _). rewrite Nat.sub_0_r in Ew.
    rewrite (nth_error_nth' (seq 0 n) O) in G by (rewrite seq_length; lia).
    rewrite seq_nth in G by lia. injection G as E. simpl in E. rewrite <- E.
    pose proof (reduced_nth _ _ j E1 ltac:(fold n; lia)) as R1.
    pose proof (reduced_nth _ _ i E2 ltac:(rewrite map_length; assumption)) as R2.
    rewrite map_at in R2 by assumption.
    apply (near_reduced _ _ v (nth j red vzero)); [|assumption].
    subst v. destruct L as [l|]; [split; assumption|split; assumption].
  Qed.

  Theorem site_cycles_ok cs m : site_cycles L coords f tol = Ok (cs, m) -> (2 <= n)%nat ->
    Permutation (concat cs) (seq 0 n) /\ ~ In [] cs /\
    (forall i, (i < n)%nat -> (cycles_perm cs i < n)%nat /\ near L tol (f (at_site i)) (at_site (cycles_perm cs i))) /\
    (1 <= m <= n)%nat /\ (forall i, (i < n)%nat -> iter (cycles_perm cs) m i = i) /\
    forall k, (1 <= k < m)%nat -> exists i, (i < n)%nat /\ iter (cycles_perm cs) k i <> i.
  Proof.
    intros H Hn. unfold site_cycles in H. fold n in H.
    apply bind_ok in H as (cols & Hc & H).
    destruct (transformed_sites L coords f tol (seq 0 n)) as [s|e] eqn:Es.
    2:{ exfalso. replace (n + 1)%nat with (S n) in Hc by lia. cbn [close_sites] in Hc.
        assert (nats_eqb (repeat O n) (seq 0 n) = false) as Hz.
        { destruct n as [|[|q]]; [lia|lia|reflexivity]. }
        rewrite Hz, Es in Hc. discriminate. }
    destruct (step_range L coords f tol s Es) as (Hs & Hr).
    assert (Hstep : forall l, length l = n -> transformed_sites L coords f tol l = Ok (map (fun j => nth j l O) s)).
    { intros l Hl. rewrite (step_relabels L coords f tol l Hl). fold n. rewrite Es. reflexivity. }
    destruct (close_ok n (transformed_sites L coords f tol) s Hs Hr Hstep (n + 1) 0) as (m' & Em & Hle & Hor & Hmin).
    cbn [seq rev app map] in Em. rewrite (column_0 n s) in Em. cbn [current] in Em. rewrite Em in Hc. injection Hc as <-.
    assert (Hlen : (length (map (column n s) (rev (seq 1 m') ++ [0%nat])) - 1 = m')%nat).
    { rewrite map_length, app_length, rev_length, seq_length. simpl. lia. }
    rewrite Hlen in H. destruct (m' =? n + 1)%nat eqn:Emn; [discriminate|]. apply Nat.eqb_neq in Emn.
    injection H as Hcs Hm. subst m'.
    destruct Hor as [Hor|Hor]; [lia|].
    assert (Hm1 : (1 <= m)%nat).
    { destruct m; [|lia]. exfalso. cbn [current] in Hor. destruct n as [|[|q]]; [lia|lia|]. cbn in Hor. discriminate. }
    assert (Hcl : closes n s m).
    { apply (column_closes n s Hs). destruct m; [lia|]. exact Hor. }
    assert (Hrev : rev (map (column n s) (rev (seq 1 m) ++ [0%nat])) = map (column n s) (seq 0 (S m))).
    { rewrite <- map_rev, rev_app_distr, rev_involutive. reflexivity. }
    rewrite Hrev in Hcs.
    destruct (collect_final n s Hs Hr m Hm1 Hcl) as (P1 & P2 & P3). cbv zeta in P1, P2, P3. rewrite Hcs in P1, P2, P3.
    assert (It : forall k i, (i < n)%nat -> iter (cycles_perm cs) k i = iter (fun i => nth i s O) k i).
    { induction k as [|k IH]; intros i Hi; [reflexivity|]. cbn [iter]. rewrite (IH i Hi). apply P2.
      apply (iter_range n s Hr). assumption. }
    split; [exact P1|]. split; [exact P3|]. split.
    { intros i Hi. rewrite P2 by assumption. split; [apply Hr; assumption|]. apply image_near; assumption. }
    split; [lia|]. split.
    { intros i Hi. rewrite It by assumption. apply Hcl. assumption. }
    intros k Hk.
    assert (Hnc : ~ closes n s k).
    { intros C. apply (Hmin k); [lia|]. apply (column_closes n s Hs) in C. destruct k; [lia|]. exact C. }
    destruct (forallb (fun i => iter (fun i => nth i s O) k i =? i)%nat (seq 0 n)) eqn:E.
    - exfalso. apply Hnc. intros i Hi. rewrite forallb_forall in E. specialize (E i ltac:(apply in_seq; lia)).
      apply Nat.eqb_eq in E. exact E.
    - assert (Hex : exists i, In i (seq 0 n) /\ (iter (fun i => nth i s O) k i =? i)%nat = false).
      { clear - E. induction (seq 0 n) as [|a l IH]; [discriminate|]. simpl in E.
        destruct (iter (fun i => nth i s O) k a =? a)%nat eqn:Ea.
        - destruct (IH E) as (i & Hi & Ei). exists i. split; [right; assumption|assumption].
        - exists a. split; [left; reflexivity|assumption]. }
      destruct Hex as (i & Hi & Ei). apply in_seq in Hi. exists i. split; [lia|]. rewrite It by lia.
      apply Nat.eqb_neq. assumption.
  Qed.

  (** ** Exact symmetries are found. *)
  Variable pi : nat -> nat.
  Hypothesis Hpi : forall i, (i < n)%nat -> (pi i < n)%nat /\ on_site L (f (at_site i)) (at_site (pi i)).
  Hypothesis Hapart : forall i j, (i < n)%nat -> (j < n)%nat -> near L tol (at_site i) (at_site j) -> i = j.
  Hypothesis Htol : 0 < tol.
  Hypothesis HL : usable L.

  Lemma image_exact : transformed_sites L coords f tol (seq 0 n) = Ok (map pi (seq 0 n)).
  Proof.
    unfold transformed_sites.
    destruct (reduced_total L coords HL) as (red & E1). destruct (reduced_total L (map f coords) HL) as (tred & E2).
    rewrite E1, E2. cbn [bind]. rewrite seq_length.
    pose proof (reduced_coords_length _ _ _ E1) as L1. pose proof (reduced_coords_length _ _ _ E2) as L2.
    rewrite map_length in L2. fold n in L1, L2.
    transitivity (rmap (fun i => Ok (pi i)) (seq 0 n)).
    2:{ clear. induction (seq 0 n) as [|a l IH]; [reflexivity|]. cbn [rmap bind map]. rewrite IH. reflexivity. }
    apply rmap_ext. intros i Hi. apply in_seq in Hi. assert (Hi' : (i < n)%nat) by lia.
    rewrite (nth_error_nth' tred vzero) by lia.
    pose proof (reduced_nth _ _ i E2 ltac:(rewrite map_length; assumption)) as R2. rewrite map_at in R2 by assumption.
    destruct (Hpi i Hi') as (Hpr & Hon).
    pose proof (reduced_nth _ _ (pi i) E1 Hpr) as R1.
    assert (Hsame : same_point (nth i tred vzero) (nth (pi i) red vzero)).
    { unfold usable, on_site in *. destruct L as [l|].
      - destruct (reduce_canonical (lt_p1 l) (lt_p2 l) Centered (f (at_site i)) (at_site (pi i)) HL ltac:(discriminate) Hon)
          as (r & r' & a & b & a' & b' & Ha & Hb & Hs).
        destruct R1 as (? & ? & R1). destruct R2 as (? & ? & R2).
        rewrite R1 in Hb. rewrite R2 in Ha. injection Ha as <- <- <-. injection Hb as <- <- <-. exact Hs.
      - rewrite R1, R2. exact Hon. }
    assert (Hw : within tol (nth i tred vzero) (nth (pi i) red vzero) = true).
    { apply within_spec. destruct Hsame as (S1 & S2). rewrite S1, S2.
      setoid_replace (fst (nth (pi i) red vzero) - fst (nth (pi i) red vzero)) with 0 by ring.
      setoid_replace (snd (nth (pi i) red vzero) - snd (nth (pi i) red vzero)) with 0 by ring.
      split; exact Htol. }
    destruct (first_match_some tol (nth i tred vzero) red 0 (pi i) ltac:(lia) Hw) as (j & Hj & Hle).
    rewrite Hj. pose proof (first_match_range _ _ _ _ _ Hj) as Hjr.
    rewrite (nth_error_nth' (seq 0 n) O) by (rewrite seq_length; lia). rewrite seq_nth by lia. cbn [plus]. f_equal.
    symmetry. apply (Hapart (pi i) j); [assumption|lia|].
    apply first_match_spec in Hj as (Hjw & _). rewrite Nat.sub_0_r in Hjw.
    pose proof (reduced_nth _ _ j E1 ltac:(lia)) as R3.
    apply (near_reduced _ _ (nth (pi i) red vzero) (nth j red vzero)).
    - destruct L as [l|]; split; assumption.
    - apply within_spec in Hjw as (H1 & H2). apply within_spec. destruct Hsame as (S1 & S2). rewrite <- S1, <- S2. split; assumption.
  Qed.

  Lemma nth_pi i : (i < n)%nat -> nth i (map pi (seq 0 n)) O = pi i.
  Proof.
    intros Hi. rewrite (nth_indep _ O (pi O)) by (rewrite map_length, seq_length; assumption).
    rewrite map_nth, seq_nth by assumption. reflexivity.
  Qed.

  Lemma iter_pi k i : (i < n)%nat -> iter (fun i => nth i (map pi (seq 0 n)) O) k i = iter pi k i /\ (iter pi k i < n)%nat.
  Proof.
    intros Hi. induction k as [|k (IH & IHn)]; [split; [reflexivity|assumption]|].
    cbn [iter]. rewrite IH, nth_pi by assumption. split; [reflexivity|]. apply Hpi. assumption.
  Qed.

  (** Success exactly when some power of at most the number of sites is the
      identity; then the cycles are those of the permutation. *)
  Theorem site_cycles_exact : (2 <= n)%nat ->
    (forall k, (1 <= k <= n)%nat -> (forall i, (i < n)%nat -> iter pi k i = i) ->
       exists cs m, site_cycles L coords f tol = Ok (cs, m) /\ (m <= k)%nat /\
         forall i, (i < n)%nat -> cycles_perm cs i = pi i) /\
    ((forall k, (1 <= k <= n)%nat -> exists i, (i < n)%nat /\ iter pi k i <> i) ->
       site_cycles L coords f tol = Raise GenericException).
  Proof.
    intros Hn. set (s := map pi (seq 0 n)).
    assert (Es : transformed_sites L coords f tol (seq 0 n) = Ok s) by apply image_exact.
    destruct (step_range L coords f tol s Es) as (Hs & Hr).
    assert (Hstep : forall l, length l = n -> transformed_sites L coords f tol l = Ok (map (fun j => nth j l O) s)).
    { intros l Hl. rewrite (step_relabels L coords f tol l Hl). fold n. rewrite Es. reflexivity. }
    destruct (close_ok n (transformed_sites L coords f tol) s Hs Hr Hstep (n + 1) 0) as (m & Em & Hle & Hor & Hmin).
    cbn [seq rev app map] in Em. rewrite (column_0 n s) in Em. cbn [current] in Em.
    assert (Hlen : (length (map (column n s) (rev (seq 1 m) ++ [0%nat])) - 1 = m)%nat).
    { rewrite map_length, app_length, rev_length, seq_length. simpl. lia. }
    assert (Hrev : rev (map (column n s) (rev (seq 1 m) ++ [0%nat])) = map (column n s) (seq 0 (S m))).
    { rewrite <- map_rev, rev_app_distr, rev_involutive. reflexivity. }
    assert (Hsc : site_cycles L coords f tol = if (m =? n + 1)%nat then Raise GenericException
                  else Ok (collect_cycles n (map (column n s) (seq 0 (S m))), m)).
    { unfold site_cycles. fold n. cbv zeta. rewrite Em. cbn [bind]. rewrite Hlen, Hrev. reflexivity. }
    split.
    - intros k Hk Hcl.
      assert (Hck : current n s k = seq 0 n).
      { destruct k; [lia|]. cbn [current]. apply (column_closes n s Hs). intros i Hi. etransitivity; [exact (proj1 (iter_pi (S k) i Hi))|]. apply Hcl. assumption. }
      assert (Hmk : (m <= k)%nat).
      { destruct (le_lt_dec m k); [assumption|]. exfalso. apply (Hmin k); [lia|assumption]. }
      assert (Hm1 : (1 <= m)%nat).
      { destruct m; [|lia]. exfalso. destruct Hor as [Hor|Hor]; [lia|]. cbn [current] in Hor. destruct n as [|[|q]]; [lia|lia|]. cbn in Hor. discriminate. }
      assert (Hcm : closes n s m).
      { apply (column_closes n s Hs). destruct Hor as [Hor|Hor]; [lia|]. destruct m; [lia|]. exact Hor. }
      rewrite Hsc. rewrite (proj2 (Nat.eqb_neq m (n + 1))) by lia.
      eexists _, m. split; [reflexivity|]. split; [assumption|].
      intros i Hi. destruct (collect_final n s Hs Hr m Hm1 Hcm) as (_ & P2 & _). rewrite P2 by assumption.
      apply nth_pi. assumption.
    - intros Hno. rewrite Hsc.
      destruct (Nat.eqb_spec m (n + 1)) as [|Hne]; [reflexivity|]. exfalso.
      destruct Hor as [Hor|Hor]; [lia|].
      assert (Hm1 : (1 <= m)%nat).
      { destruct m; [|lia]. exfalso. cbn [current] in Hor. destruct n as [|[|q]]; [lia|lia|]. cbn in Hor. discriminate. }
      destruct (Hno m ltac:(lia)) as (i & Hi & Hd). apply Hd.
      assert (Hcm : closes n s m) by (apply (column_closes n s Hs); destruct m; [lia|exact Hor]).
      etransitivity; [symmetry; exact (proj1 (iter_pi m i Hi))|]. apply Hcm. assumption.
  Qed.
End Api.

(** A single site is never looked at. *)
Lemma single_site L v f tol : site_cycles L [v] f tol = Ok ([[0%nat]], 0%nat).
Proof. reflexivity. Qed.

(** If no image is found for some site the call raises. *)
Lemma no_image_raises L coords f tol i : usable L -> (2 <= length coords)%nat -> (i < length coords)%nat ->
  (forall j, (j < length coords)%nat -> ~ near L tol (f (nth i coords vzero)) (nth j coords vzero)) ->
  site_cycles L coords f tol = Raise GenericException.
Proof.
  intros HL Hn Hi Hno. destruct (site_cycles L coords f tol) as [[cs m]|e] eqn:E.
  - exfalso. destruct (site_cycles_ok L coords f tol cs m E Hn) as (_ & _ & H & _).
    destruct (H i Hi) as (Hlt & Hnear). apply (Hno _ Hlt Hnear).
  - unfold site_cycles in E.
    assert (Hts : exists e', transformed_sites L coords f tol (seq 0 (length coords)) = Raise e' /\ e' = GenericException).
    { destruct (transformed_sites L coords f tol (seq 0 (length coords))) as [s|e'] eqn:Es.
      - exfalso. pose proof (image_near L coords f tol s i Es Hi) as Hne.
        destruct (step_range L coords f tol s Es) as (_ & Hr). apply (Hno _ (Hr i Hi) Hne).
      - exists e'. split; [reflexivity|]. unfold transformed_sites in Es.
        destruct (reduced_total L coords HL) as (red & E1). destruct (reduced_total L (map f coords) HL) as (tred & E2).
        rewrite E1, E2 in Es. cbn [bind] in Es. rewrite seq_length in Es.
        pose proof (reduced_coords_length _ _ _ E1) as L1. pose proof (reduced_coords_length _ _ _ E2) as L2.
        rewrite map_length in L2.
        assert (G : forall l, (forall x, In x l -> (x < length coords)%nat) -> forall e,
          rmap (fun ii => match nth_error tred ii with
            | None => Raise IndexError
            | Some v => match first_match tol v red 0 with
              | None => Raise GenericException
              | Some j => match nth_error (seq 0 (length coords)) j with None => Raise IndexError | Some s => Ok s end
              end end) l = Raise e -> e = GenericException).
        { induction l as [|a l IH]; intros Hl e0 He; [discriminate|]. cbn [rmap] in He.
          rewrite (nth_error_nth' tred vzero) in He by (rewrite L2; apply Hl; left; reflexivity).
          destruct (first_match tol (nth a tred vzero) red 0) as [j|] eqn:Ej; [|cbn in He; congruence].
          apply first_match_range in Ej. rewrite (nth_error_nth' (seq 0 (length coords)) O) in He by (rewrite seq_length; lia).
          cbn [bind] in He.
          match type of He with bind ?r _ = _ => destruct r eqn:Er end; [discriminate|].
          cbn [bind] in He. injection He as ->. apply (IH ltac:(intros; apply Hl; right; assumption) e0 eq_refl). }
        apply (G (seq 0 (length coords))); [|exact Es]. intros x Hx. apply in_seq in Hx. lia. }
    destruct Hts as (e' & Es & ->).
    replace (length coords + 1)%nat with (S (length coords)) in E by lia. cbv zeta in E. cbn [close_sites] in E.
    assert (Hz : nats_eqb (repeat O (length coords)) (seq 0 (length coords)) = false).
    { destruct (length coords) as [|[|q]]; [lia|lia|reflexivity]. }
    rewrite Hz, Es in E. cbn [bind] in E. congruence.
Qed.
