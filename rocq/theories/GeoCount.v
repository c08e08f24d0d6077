(** How many sites the cell of a periodic lattice has. *)
From Coq Require Import List Arith Lia QArith Qround Qabs ZArith Znumtheory Bool Lqa Setoid Morphisms Sorting Psatz.
From Verif Require Import Res Matrix ModelGeometry SpecGeometry GeoArith GeoReduce GeoSites GeoSites2 GeoDist GeoSquare SpecCells.
Import ListNotations.
Local Open Scope Q_scope.
Arguments Qred : simpl never.
Arguments round14 : simpl never.

(** * Integer pairs modulo two integer pairs *)
Section Cosets.
  Variables n m i j : Z.
  Hypothesis HD : (n * j - m * i <> 0)%Z.

  Definition coset (r s : Z * Z) : Prop :=
    exists k l, (fst s = fst r + k * n + l * i /\ snd s = snd r + k * m + l * j)%Z.

  Lemma coset_sym r s : coset r s -> coset s r.
  Proof using. intros (k & l & A & B). exists (- k)%Z, (- l)%Z. rewrite A, B. split; ring. Qed.
  Lemma coset_trans r s t : coset r s -> coset s t -> coset r t.
  Proof using. intros (k & l & A & B) (k' & l' & C & D). exists (k + k')%Z, (l + l')%Z. rewrite C, D, A, B. split; ring. Qed.

  Definition pairs (a b : Z) : list (Z * Z) := flat_map (fun x => map (fun y => (x, y)) (zrange 0 b)) (zrange 0 a).
  Lemma pairs_In a b r : In r (pairs a b) <-> (0 <= fst r < a /\ 0 <= snd r < b)%Z.
  Proof using.
    unfold pairs. rewrite in_flat_map. split.
    - intros (x & Hx & H). apply in_map_iff in H as (y & <- & Hy). apply zrange_In in Hx. apply zrange_In in Hy. auto.
    - intros [Hx Hy]. exists (fst r). split; [apply zrange_In; assumption|]. apply in_map_iff. exists (snd r).
      split; [destruct r; reflexivity|apply zrange_In; assumption].
  Qed.
  Lemma zrange_NoDup lo hi : NoDup (zrange lo hi).
  Proof using. unfold zrange. apply FinFun.Injective_map_NoDup; [intros x y H; lia|apply seq_NoDup]. Qed.
  Lemma NoDup_app {A} (l l' : list A) : NoDup l -> NoDup l' -> (forall x, In x l -> ~ In x l') -> NoDup (l ++ l').
  Proof using.
    intros H1 H2 H. induction H1; [assumption|]. cbn [app]. constructor.
    - rewrite in_app_iff. intros [?|?]; [auto|]. apply (H x); [left; reflexivity|assumption].
    - apply IHNoDup. intros. apply H. right. assumption.
  Qed.
  Lemma pairs_NoDup a b : NoDup (pairs a b).
  Proof using.
    unfold pairs. pose proof (zrange_NoDup 0 a) as H. induction H as [|x l Hx _ IH]; cbn [flat_map]; [constructor|].
    apply NoDup_app; [|assumption|].
    - apply FinFun.Injective_map_NoDup; [intros u v E; congruence|apply zrange_NoDup].
    - intros r H1 H2. apply in_map_iff in H1 as (y & <- & _). apply in_flat_map in H2 as (z & Hz & H2).
      apply in_map_iff in H2 as (w & E & _). congruence.
  Qed.
  Lemma pairs_length a b : (0 <= a)%Z -> (0 <= b)%Z -> length (pairs a b) = Z.to_nat (a * b).
  Proof using.
    intros Ha Hb. unfold pairs.
    assert (forall l, length (flat_map (fun x => map (fun y => (x, y)) (zrange 0 b)) l) = (length l * Z.to_nat b)%nat) as ->.
    { induction l; cbn [flat_map length]; [reflexivity|]. rewrite app_length, IHl, map_length, zrange_length. lia. }
    rewrite zrange_length, Z2Nat.inj_mul by assumption. f_equal. f_equal. lia.
  Qed.

  Lemma cosets : exists R, length R = Z.to_nat (Z.abs (n * j - m * i)) /\ NoDup R /\
    (forall a, exists r, In r R /\ coset a r) /\
    (forall r s, In r R -> In s R -> coset r s -> r = s).
  Proof using HD.
    destruct (Z.gcd_divide_l m j) as [m' Hm]. destruct (Z.gcd_divide_r m j) as [j' Hj].
    pose proof (Z.gcd_nonneg m j) as G0.
    set (g := Z.gcd m j) in *.
    assert (G : (0 < g)%Z) by (destruct (Z.eq_dec g 0) as [E|]; [|lia]; rewrite E in *; exfalso; apply HD; rewrite Hm, Hj; ring).
    destruct (Z.gcd_bezout m j g eq_refl) as (x & y & Bz).
    assert (C : rel_prime m' j').
    { apply bezout_rel_prime. apply (Bezout_intro m' j' 1 x y). rewrite Hm, Hj in Bz. nia. }
    set (e := (n * j' - m' * i)%Z).
    assert (De : (n * j - m * i = e * g)%Z) by (unfold e; rewrite Hm at 1; rewrite Hj at 1; ring).
    assert (E0 : (e <> 0)%Z) by (intros E; apply HD; rewrite De, E; ring).
    assert (N : (0 < Z.abs e)%Z) by lia.
    exists (pairs (Z.abs e) g). split; [rewrite pairs_length by lia; f_equal; rewrite De, Z.abs_mul; f_equal; lia|].
    split; [apply pairs_NoDup|]. split.
    - intros [a b]. set (q := (- (b / g))%Z). set (a1 := (a + q * (x * n + y * i))%Z).
      set (s := (- (Z.sgn e * (a1 / Z.abs e)))%Z).
      exists (a1 mod Z.abs e, b mod g)%Z. split.
      + apply pairs_In. cbn [fst snd]. split; apply Z.mod_pos_bound; assumption.
      + exists (q * x + s * j')%Z, (q * y - s * m')%Z. cbn [fst snd]. rewrite !Z.mod_eq by lia. split.
        * unfold s. replace (Z.abs e) with (Z.sgn e * e)%Z at 1 by (clear; destruct e; cbn [Z.sgn Z.abs]; lia).
          unfold a1. replace (a + (q * x + - (Z.sgn e * ((a + q * (x * n + y * i)) / Z.abs e)) * j') * n + (q * y - - (Z.sgn e * ((a + q * (x * n + y * i)) / Z.abs e)) * m') * i)%Z
            with (a + q * (x * n + y * i) - Z.sgn e * ((a + q * (x * n + y * i)) / Z.abs e) * (n * j' - m' * i))%Z by ring.
          fold e. ring.
        * replace (b + (q * x + s * j') * m + (q * y - s * m') * j)%Z with (b + q * (x * m + y * j) + s * (j' * m - m' * j))%Z by ring.
          rewrite Bz. replace (j' * m - m' * j)%Z with 0%Z by (rewrite Hm at 1; rewrite Hj at 1; ring). unfold q. ring.
    - intros [a b] [a' b'] H1 H2 (k & l & A & B). apply pairs_In in H1. apply pairs_In in H2. cbn [fst snd] in *.
      assert (K : (b' - b = g * (k * m' + l * j'))%Z) by (rewrite B; rewrite Hm at 1; rewrite Hj at 1; ring).
      assert (K0 : (k * m' + l * j' = 0)%Z) by nia.
      assert (Eb : b' = b) by nia.
      assert (Dv : (j' | k * m')%Z) by (exists (- l)%Z; lia).
      assert (Dk : (j' | k)%Z) by (apply (Gauss j' m' k); [rewrite Z.mul_comm; assumption|apply rel_prime_sym; assumption]).
      destruct Dk as [t Ht].
      assert (Em : (a' - a = t * e)%Z \/ (j' = 0)%Z).
      { destruct (Z.eq_dec j' 0) as [|J]; [right; assumption|left].
        assert (l = - t * m')%Z by (subst k; apply (Z.mul_reg_r _ _ j'); [assumption|]; lia).
        rewrite A. subst k l. unfold e. ring. }
      destruct Em as [Em|Em].
      + assert (t = 0)%Z by (destruct (Z.eq_dec t 0); [assumption|exfalso]; nia). subst t.
        f_equal; lia.
      + (* j' = 0: then m' is 1 or -1 and k = 0 *)
        subst j'. assert (k = 0)%Z by lia. subst k.
        assert (Z.abs m' = 1)%Z as M1.
        { apply rel_prime_sym in C. apply Zgcd_1_rel_prime in C. rewrite Z.gcd_0_l in C. assumption. }
        assert (a' - a = l * i)%Z by lia.
        assert (Z.abs e = Z.abs i)%Z by (unfold e; rewrite Z.mul_0_r; rewrite Z.sub_0_l, Z.abs_opp, Z.abs_mul, M1; ring).
        assert (l = 0)%Z by (destruct (Z.eq_dec l 0); [assumption|exfalso]; nia). subst l. f_equal; lia.
  Qed.
End Cosets.

(** * Lists of points without repetitions *)
Definition distinct (l : list point) : Prop :=
  forall k k' u w, nth_error l k = Some u -> nth_error l k' = Some w -> same_point u w -> k = k'.

Lemma distinct_cons u l : distinct (u :: l) -> distinct l /\ ~ InP u l.
Proof.
  intros H. split.
  - intros k k' a b A B E. assert (S k = S k') by (apply (H (S k) (S k') a b); assumption). lia.
  - intros (w & Hw & E). apply In_nth_error in Hw as [k Hk]. pose proof (H O (S k) u w eq_refl Hk E). discriminate.
Qed.

Lemma insert_length u l : sorted_points l -> ~ InP u l -> length (insert_unique u l) = S (length l).
Proof.
  induction l as [|w t IH]; intros S H; cbn [insert_unique]; [reflexivity|].
  destruct (vec_cmp_spec u w) as [E|_|_].
  - exfalso. apply H. exists w. split; [left; reflexivity|assumption].
  - reflexivity.
  - cbn [length]. rewrite IH; [reflexivity|inversion S; assumption|].
    intros (z & Hz & E). apply H. exists z. split; [right; assumption|assumption].
Qed.

Lemma unique_length l : distinct l -> length (np_unique l) = length l.
Proof.
  induction l as [|u l IH]; intros H; [reflexivity|]. apply distinct_cons in H as [H N].
  change (np_unique (u :: l)) with (insert_unique u (np_unique l)). cbn [length]. rewrite insert_length.
  - f_equal. apply IH. assumption.
  - apply np_unique_spec.
  - intros I. apply N. apply np_unique_spec. assumption.
Qed.

Lemma round_apart x y : (1 # 100000000000000) < Qabs (x - y) -> ~ round14 x == round14 y.
Proof.
  intros H E. pose proof (round14_bounds x) as [A B]. pose proof (round14_bounds y) as [C D].
  unfold eps14 in *. assert (Qabs (x - y) <= 1 # 100000000000000); [|lra].
  apply Qabs_Qle_condition. lra.
Qed.

Lemma apart_round s t : (1 # 100000000000000) < Qabs (fst s - fst t) \/ (1 # 100000000000000) < Qabs (snd s - snd t) ->
  same_point (round_point s) (round_point t) -> False.
Proof.
  destruct s as [a b], t as [c d]. unfold round_point, same_point. cbn [fst snd]. intros [H|H] [E F].
  - exact (round_apart _ _ H E).
  - exact (round_apart _ _ H F).
Qed.

Lemma det_comm v1 v2 p1 p2 n m i j : same_point p1 (moved (0, 0) (inject_Z n) v1 (inject_Z m) v2) ->
  same_point p2 (moved (0, 0) (inject_Z i) v1 (inject_Z j) v2) ->
  det p1 p2 == inject_Z (n * j - m * i) * det v1 v2.
Proof.
  intros [a1 a2] [b1 b2]. unfold moved in *. cbn [fst snd] in *. unfold det. rewrite a1, a2, b1, b2.
  unfold Z.sub. rewrite inject_Z_plus, inject_Z_opp, !inject_Z_mult. ring.
Qed.

Section Count.
  Variables (v1 v2 : vec) (basis : list vec) (p1 p2 : vec) (ph1 ph2 : Q) (L : lattice) (n m i j : Z).
  Hypothesis HL : new_lattice v1 v2 basis p1 p2 ph1 ph2 = Ok L.
  Hypothesis P1 : same_point p1 (moved (0, 0) (inject_Z n) v1 (inject_Z m) v2).
  Hypothesis P2 : same_point p2 (moved (0, 0) (inject_Z i) v1 (inject_Z j) v2).
  Hypothesis L1 : long p1.
  Hypothesis L2 : long p2.
  Hypothesis PB : proper_basis v1 v2 basis.
  Hypothesis TA : told_apart v1 v2 basis.

  Definition site_of (r : Z * Z) (u : point) : point := moved u (inject_Z (fst r)) v1 (inject_Z (snd r)) v2.

  Lemma site_of_site r u : In u basis -> lattice_site v1 v2 basis (site_of r u).
  Proof using. intros H. exists (fst r), (snd r), u. split; [assumption|apply same_refl]. Qed.

  Lemma site_equiv r s u : coset n m i j r s -> equivalent p1 p2 (site_of r u) (site_of s u).
  Proof using P1 P2.
    clear - P1 P2. intros (k & l & A & B). exists k, l. unfold site_of. rewrite A, B. destruct P1 as [a1 a2], P2 as [b1 b2].
    unfold moved in *. cbn [fst snd] in *. rewrite !inject_Z_plus, !inject_Z_mult.
    split; cbn [fst snd]; rewrite ?a1, ?a2, ?b1, ?b2; ring.
  Qed.

  Lemma lattice_moved s w : lattice_site v1 v2 basis s -> equivalent p1 p2 s w -> lattice_site v1 v2 basis w.
  Proof using P1 P2.
    clear - P1 P2. intros (a & b & u & Hu & s1 & s2) (k & l & w1 & w2). exists (a + k * n + l * i)%Z, (b + k * m + l * j)%Z, u.
    split; [assumption|]. destruct P1 as [a1 a2], P2 as [b1 b2].
    unfold moved in *. cbn [fst snd] in *. rewrite !inject_Z_plus, !inject_Z_mult.
    split; cbn [fst snd]; rewrite ?w1, ?w2, ?s1, ?s2, ?a1, ?a2, ?b1, ?b2; ring.
  Qed.

  Lemma ind_coords a b : ~ det v1 v2 == 0 -> same_point (moved (0, 0) a v1 b v2) (0, 0) -> a == 0 /\ b == 0.
  Proof using.
    clear. intros D [A B]. unfold moved, det in *. cbn [fst snd] in *. split.
    - apply (Qmult_inj_r _ _ _ D). setoid_replace (a * (fst v1 * snd v2 - snd v1 * fst v2)) with
        ((0 + a * fst v1 + b * fst v2) * snd v2 - (0 + a * snd v1 + b * snd v2) * fst v2) by ring. rewrite A, B. ring.
    - apply (Qmult_inj_r _ _ _ D). setoid_replace (b * (fst v1 * snd v2 - snd v1 * fst v2)) with
        ((0 + a * snd v1 + b * snd v2) * fst v1 - (0 + a * fst v1 + b * fst v2) * snd v1) by ring. rewrite A, B. ring.
  Qed.

  Lemma equiv_site r s k l u w : nth_error basis k = Some u -> nth_error basis l = Some w ->
    equivalent p1 p2 (site_of r u) (site_of s w) -> k = l /\ coset n m i j r s.
  Proof using HL P1 P2 PB.
    intros Hk Hl (x & y & E). destruct (new_lattice_inv _ _ _ _ _ _ _ _ HL) as (Lv1 & Lv2 & Gv & _).
    assert (D : ~ det v1 v2 == 0) by (apply Gv; assumption).
    clear - Hk Hl E P1 P2 PB D.
    assert (Ekl : k = l).
    { apply (PB k l u w Hk Hl). exists (fst r + x * n + y * i - fst s)%Z, (snd r + x * m + y * j - snd s)%Z.
      destruct E as [e1 e2], P1 as [a1 a2], P2 as [b1 b2]. unfold site_of, moved in *. cbn [fst snd] in *.
      unfold Z.sub. rewrite !inject_Z_plus, !inject_Z_opp, !inject_Z_mult. rewrite a1, b1 in e1. rewrite a2, b2 in e2.
      split; cbn [fst snd]; lra. }
    split; [assumption|]. subst l. assert (u = w) by congruence. subst w.
    exists x, y.
    destruct (ind_coords (inject_Z (fst r + x * n + y * i - fst s)) (inject_Z (snd r + x * m + y * j - snd s)) D) as [A B].
    - destruct E as [e1 e2], P1 as [a1 a2], P2 as [b1 b2]. unfold site_of, moved in *. cbn [fst snd] in *.
      unfold Z.sub. rewrite !inject_Z_plus, !inject_Z_opp, !inject_Z_mult. rewrite a1, b1 in e1. rewrite a2, b2 in e2.
      split; cbn [fst snd]; lra.
    - apply (proj1 (inject_Z_injective _ 0)) in A. apply (proj1 (inject_Z_injective _ 0)) in B. clear - A B. lia.
  Qed.

  Theorem count_sites : exists sites, unique_sites L = Ok sites /\
    length sites = (Z.to_nat (Z.abs (n * j - m * i)) * length basis)%nat.
  Proof using HL P1 P2 L1 L2 PB TA.
    destruct (unique_sites_ok _ _ _ _ _ _ _ _ HL) as (sites & ES & S & A & B); [exists n, m; assumption|exists i, j; assumption|assumption|assumption|].
    exists sites. split; [assumption|].
    destruct (new_lattice_inv _ _ _ _ _ _ _ _ HL) as (Lv1 & Lv2 & Gv & Hd & _).
    assert (Gp : generators p1 p2) by (split; [auto|split; auto]).
    assert (HD : (n * j - m * i <> 0)%Z).
    { intros E. apply (Hd L1 L2). rewrite (det_comm _ _ _ _ _ _ _ _ P1 P2), E. change (inject_Z 0) with 0. ring. }
    destruct (cosets n m i j HD) as (R & LR & ND & CR1 & CR2).
    set (f := fun u => map (fun r => round_point (red Positive p1 p2 (site_of r u))) R).
    set (T := flat_map f basis).
    assert (LT : length T = (Z.to_nat (Z.abs (n * j - m * i)) * length basis)%nat).
    { unfold T. clear - LR. induction basis as [|u l IH]; cbn [flat_map length]; [lia|]. rewrite app_length, IH. unfold f. rewrite map_length, LR. lia. }
    rewrite <- LT.
    assert (DT : distinct T).
    { assert (LP : (0 < length R)%nat) by lia.
      assert (FL : forall a, In a basis -> length (f a) = length R) by (intros; unfold f; apply map_length).
      assert (TL : length T = (length basis * length R)%nat) by (rewrite LT, LR; apply Nat.mul_comm).
      assert (TN : forall k t, nth_error T k = Some t -> exists u r,
        nth_error basis (k / length R) = Some u /\ nth_error R (k mod length R) = Some r /\
        t = round_point (red Positive p1 p2 (site_of r u))).
      { intros k t Hk. assert (Lk : (k < length basis * length R)%nat) by (rewrite <- TL; apply nth_error_Some; congruence).
        assert (k / length R < length basis)%nat as Q1 by (apply Nat.div_lt_upper_bound; lia).
        assert (k mod length R < length R)%nat as Q2 by (apply Nat.mod_upper_bound; lia).
        destruct (nth_error basis (k / length R)) as [u|] eqn:Eu; [|apply nth_error_None in Eu; lia].
        destruct (nth_error R (k mod length R)) as [r|] eqn:Er; [|apply nth_error_None in Er; lia].
        exists u, r. split; [reflexivity|]. split; [reflexivity|].
        rewrite <- (nth_error_nth T k (0, 0) Hk). unfold T.
        rewrite (flat_map_nth f (length R) basis k (0, 0) (0, 0) FL LP Lk).
        etransitivity; [apply (f_equal (fun u => nth (k mod length R) (f u) (0, 0)) (nth_error_nth basis _ (0, 0) Eu))|]. unfold f.
        rewrite (nth_indep _ (0, 0) (round_point (red Positive p1 p2 (site_of (0, 0)%Z u)))) by (rewrite map_length; assumption).
        rewrite (map_nth (fun r => round_point (red Positive p1 p2 (site_of r u)))).
        rewrite (nth_error_nth R _ (0, 0)%Z Er). reflexivity. }
      intros k k' t t' Hk Hk' E. destruct (TN k t Hk) as (u & r & U1 & U2 & ->). destruct (TN k' t' Hk') as (u' & r' & W1 & W2 & ->).
      set (s := red Positive p1 p2 (site_of r u)) in *. set (s' := red Positive p1 p2 (site_of r' u')) in *.
      assert (LS : lattice_site v1 v2 basis s) by (apply (lattice_moved (site_of r u)); [apply site_of_site; apply nth_error_In in U1; assumption|apply red_equiv]).
      assert (LS' : lattice_site v1 v2 basis s') by (apply (lattice_moved (site_of r' u')); [apply site_of_site; apply nth_error_In in W1; assumption|apply red_equiv]).
      assert (SS : same_point s s').
      { destruct (Qeq_dec (fst s) (fst s')) as [Q1|Q1].
        - destruct (Qeq_dec (snd s) (snd s')) as [Q2|Q2]; [split; assumption|].
          exfalso. apply (apart_round s s'); [|assumption]. apply TA; [assumption|assumption|intros [_ ?]; contradiction].
        - exfalso. apply (apart_round s s'); [|assumption]. apply TA; [assumption|assumption|intros [? _]; contradiction]. }
      assert (EQ : equivalent p1 p2 (site_of r u) (site_of r' u')).
      { apply (equiv_trans _ _ _ s); [apply red_equiv|]. apply (equiv_trans _ _ _ s'); [apply equiv_same; assumption|]. apply equiv_sym, red_equiv. }
      destruct (equiv_site r r' _ _ u u' U1 W1 EQ) as [K C].
      assert (r = r') by (apply CR2; [apply nth_error_In in U2; assumption|apply nth_error_In in W2; assumption|assumption]).
      subst r'. assert (M : (k mod length R = k' mod length R)%nat).
      { apply (proj1 (NoDup_nth_error R) ND); [apply Nat.mod_upper_bound; lia|congruence]. }
      rewrite (Nat.div_mod k (length R)), (Nat.div_mod k' (length R)) by lia. rewrite K, M. reflexivity. }
    rewrite <- (unique_length T DT). apply (Forall2_len same_point). apply sorted_ext; [assumption|apply np_unique_spec|].
    intros x. destruct (np_unique_spec T) as [_ I]. rewrite (I x). split.
    - intros (t & Ht & E). destruct (B t Ht) as (s & (a & b & u & Hu & Es) & Et).
      destruct (CR1 (a, b)) as (r & Hr & C).
      exists (round_point (red Positive p1 p2 (site_of r u))). split.
      + unfold T. apply in_flat_map. exists u. split; [assumption|]. unfold f. apply in_map_iff. exists r. split; [reflexivity|assumption].
      + apply (same_trans _ _ _ E), (same_trans _ _ _ Et), round_same, red_same; [assumption|discriminate|].
        apply (equiv_trans _ _ _ (site_of (a, b) u)); [apply equiv_same; exact Es|]. apply site_equiv. assumption.
    - intros (t & Ht & E). unfold T in Ht. apply in_flat_map in Ht as (u & Hu & Ht). unfold f in Ht. apply in_map_iff in Ht as (r & <- & Hr).
      destruct (A (site_of r u) (site_of_site r u Hu)) as (t & Ht & E'). exists t. split; [assumption|]. apply (same_trans _ _ _ E E').
  Qed.
End Count.
