(** Lattice construction and the list of sites. *)
From Coq Require Import List Arith Lia QArith Qround Qabs ZArith Bool Lqa Setoid Morphisms Sorting Psatz.
From Verif Require Import Res Matrix ModelGeometry SpecGeometry GeoArith GeoReduce.
Import ListNotations.
Local Open Scope Q_scope.
Arguments Qred : simpl never.
Arguments root_rounds_to_0 : simpl never.
Arguments round14 : simpl never.

(** * Box coverage *)
Lemma zrange_In lo hi z : In z (zrange lo hi) <-> (lo <= z < hi)%Z.
Proof.
  unfold zrange. rewrite in_map_iff. split.
  - intros (k & <- & Hk). apply in_seq in Hk. lia.
  - intros H. exists (Z.to_nat (z - lo)). split; [lia|]. apply in_seq. lia.
Qed.

Definition blo (n i : Z) : Z := (Z.min 0 n + Z.min 0 i)%Z.
Definition bhi (n i : Z) : Z := (Z.max 0 n + Z.max 0 i)%Z.

Lemma box_In n i z : (n <> 0 \/ i <> 0)%Z -> In z (box n i) <-> (blo n i <= z < bhi n i)%Z.
Proof.
  intros H. unfold box.
  assert (Z.min (Z.min 0 n) (Z.min i (n + i)) = blo n i) as -> by (unfold blo; lia).
  assert (Z.max (Z.max 0 n) (Z.max i (n + i)) = bhi n i) as -> by (unfold bhi; lia).
  destruct (zrange (blo n i) (bhi n i)) eqn:E.
  - exfalso. assert (In (blo n i) (zrange (blo n i) (bhi n i))) by (apply zrange_In; unfold blo, bhi; lia).
    rewrite E in H0. destruct H0.
  - rewrite <- E. apply zrange_In.
Qed.

Lemma scaled_bounds (s : Q) (n : Z) : 0 <= s <= 1 ->
  inject_Z (Z.min 0 n) <= s * inject_Z n <= inject_Z (Z.max 0 n).
Proof.
  intros [A B]. destruct (Z.le_gt_cases 0 n) as [H|H].
  - rewrite Z.min_l, Z.max_r by lia. rewrite Zle_Qle in H. change (inject_Z 0) with 0 in *. split; nra.
  - rewrite Z.min_r, Z.max_l by lia. apply Z.lt_le_incl in H. rewrite Zle_Qle in H.
    change (inject_Z 0) with 0 in *. split; nra.
Qed.

(** The fraction is kept below 1 for positive coefficients and above 0 for
    negative ones. *)
Definition good_frac (n : Z) (s : Q) : Prop := (0 < n)%Z /\ s < 1 \/ (n < 0)%Z /\ 0 < s.

Lemma scaled_strict (s : Q) (n : Z) : 0 <= s <= 1 -> good_frac n s -> s * inject_Z n < inject_Z (Z.max 0 n).
Proof.
  intros [A B] [[H C]|[H C]]; rewrite Zlt_Qlt in H; change (inject_Z 0) with 0 in *.
  - rewrite Z.max_r by (rewrite Zle_Qle; change (inject_Z 0) with 0; lra). nra.
  - rewrite Z.max_l by (rewrite Zle_Qle; change (inject_Z 0) with 0; lra). change (inject_Z 0) with 0. nra.
Qed.

Lemma frac_choice (n : Z) (s0 : Q) : (n <> 0)%Z ->
  exists k : Z, 0 <= s0 + inject_Z k <= 1 /\ good_frac n (s0 + inject_Z k).
Proof.
  intros H. destruct (Z.lt_trichotomy n 0) as [N|[N|N]]; [|lia|].
  - exists (1 + Qfloor (- s0))%Z. destruct (floor_bounds (- s0)). rewrite inject_Z_plus. change (inject_Z 1) with 1.
    split; [lra|right; split; [assumption|lra]].
  - exists (- Qfloor s0)%Z. destruct (floor_bounds s0). rewrite inject_Z_opp.
    split; [lra|left; split; [assumption|lra]].
Qed.

Lemma box_one (n i a : Z) (s t : Q) : 0 <= s <= 1 -> 0 <= t <= 1 -> good_frac n s \/ good_frac i t ->
  inject_Z a == s * inject_Z n + t * inject_Z i -> In a (box n i).
Proof.
  intros Hs Ht G E. apply box_In.
  - destruct G as [[[? _]|[? _]]|[[? _]|[? _]]]; lia.
  - pose proof (scaled_bounds s n Hs). pose proof (scaled_bounds t i Ht). unfold blo, bhi.
    rewrite Zle_Qle, Zlt_Qlt, !inject_Z_plus. split; [lra|].
    destruct G as [G|G]; [pose proof (scaled_strict s n Hs G)|pose proof (scaled_strict t i Ht G)]; lra.
Qed.

Lemma box_cover (n m i j a b : Z) : (n * j - m * i <> 0)%Z ->
  exists k l : Z, In (a + k * n + l * i)%Z (box n i) /\ In (b + k * m + l * j)%Z (box m j).
Proof.
  intros HD.
  set (D := inject_Z (n * j - m * i)). assert (HDQ : ~ D == 0).
  { unfold D. change 0 with (inject_Z 0). rewrite inject_Z_injective. assumption. }
  set (s0 := inject_Z (a * j - b * i) / D). set (t0 := inject_Z (b * n - a * m) / D).
  assert (Ea : inject_Z a == s0 * inject_Z n + t0 * inject_Z i).
  { apply (Qmult_inj_r _ _ D HDQ). unfold s0, t0. field_simplify; [|assumption].
    unfold D, Z.sub. rewrite ?inject_Z_plus, ?inject_Z_opp, ?inject_Z_mult. field. }
  assert (Eb : inject_Z b == s0 * inject_Z m + t0 * inject_Z j).
  { apply (Qmult_inj_r _ _ D HDQ). unfold s0, t0. field_simplify; [|assumption].
    unfold D, Z.sub. rewrite ?inject_Z_plus, ?inject_Z_opp, ?inject_Z_mult. field. }
  assert (P : forall k l x y, inject_Z x == s0 * inject_Z n + t0 * inject_Z i ->
     inject_Z y == s0 * inject_Z m + t0 * inject_Z j ->
     inject_Z (x + k * n + l * i) == (s0 + inject_Z k) * inject_Z n + (t0 + inject_Z l) * inject_Z i /\
     inject_Z (y + k * m + l * j) == (s0 + inject_Z k) * inject_Z m + (t0 + inject_Z l) * inject_Z j).
  { intros k l x y Hx Hy. rewrite !inject_Z_plus, !inject_Z_mult, Hx, Hy. split; ring. }
  assert (C : ((n <> 0 /\ j <> 0) \/ (i <> 0 /\ m <> 0))%Z).
  { destruct (Z.eq_dec n 0) as [->|]; [right|destruct (Z.eq_dec j 0) as [->|]; [right|left]]; split; intros; subst; lia. }
  destruct C as [[Hn Hj]|[Hi Hm]].
  - destruct (frac_choice n s0 Hn) as (k & K1 & K2). destruct (frac_choice j t0 Hj) as (l & L1 & L2).
    exists k, l. destruct (P k l a b Ea Eb) as [Pa Pb]. split.
    + eapply box_one; [exact K1|exact L1|left; exact K2|exact Pa].
    + eapply box_one; [exact K1|exact L1|right; exact L2|exact Pb].
  - destruct (frac_choice m s0 Hm) as (k & K1 & K2). destruct (frac_choice i t0 Hi) as (l & L1 & L2).
    exists k, l. destruct (P k l a b Ea Eb) as [Pa Pb]. split.
    + eapply box_one; [exact K1|exact L1|right; exact L2|exact Pa].
    + eapply box_one; [exact K1|exact L1|left; exact K2|exact Pb].
Qed.

(** * Sorted lists without repetitions *)
Definition before (v w : point) : Prop := fst v < fst w \/ fst v == fst w /\ snd v < snd w.

Lemma vec_cmp_spec v w : CompareSpec (same_point v w) (before v w) (before w v) (vec_cmp v w).
Proof.
  unfold vec_cmp, before, same_point.
  destruct (Qcompare (fst v) (fst w)) eqn:E.
  - apply Qeq_alt in E. destruct (Qcompare (snd v) (snd w)) eqn:F; constructor.
    + apply Qeq_alt in F. auto.
    + apply Qlt_alt in F. auto.
    + apply Qgt_alt in F. right. split; [symmetry|]; assumption.
  - constructor. apply Qlt_alt in E. auto.
  - constructor. apply Qgt_alt in E. auto.
Qed.

Lemma before_trans u v w : before u v -> before v w -> before u w.
Proof. unfold before. intros [A|[A A']] [B|[B B']]; [left|left|left|right; split]; lra. Qed.
Lemma before_same_l u v w : same_point u v -> before v w -> before u w.
Proof. intros [E F] [A|[A A']]; [left|right; split]; rewrite ?E, ?F; assumption. Qed.
Lemma before_same_r u v w : same_point v w -> before u v -> before u w.
Proof. intros [E F] [A|[A A']]; [left|right; split]; rewrite <- ?E, <- ?F; assumption. Qed.
Lemma before_not_same u v : before u v -> ~ same_point u v.
Proof. intros [A|[A A']] [E F]; lra. Qed.
Lemma before_irrefl v : ~ before v v.
Proof. intros H. apply (before_not_same v v H), same_refl. Qed.

Definition sorted_points (l : list point) : Prop := StronglySorted before l.
Definition InP (v : point) (l : list point) : Prop := exists w, In w l /\ same_point v w.

Lemma insert_unique_spec v l : sorted_points l ->
  sorted_points (insert_unique v l) /\ forall x, InP x (insert_unique v l) <-> same_point x v \/ InP x l.
Proof.
  induction l as [|w t IH]; intros H; cbn [insert_unique].
  - split; [constructor; constructor|]. intros x. split.
    + intros (y & [<-|[]] & E). auto.
    + intros [E|(y & [] & _)]. exists v. split; [left; reflexivity|assumption].
  - inversion H as [|? ? Ht Hw]; subst. destruct (vec_cmp_spec v w) as [E|E|E].
    + split; [assumption|]. intros x. split; [auto|]. intros [G|G]; [|assumption].
      exists w. split; [left; reflexivity|]. apply (same_trans _ _ _ G E).
    + split.
      * constructor; [assumption|]. constructor; [assumption|].
        rewrite Forall_forall in *. intros y Hy. apply (before_trans _ w); auto.
      * intros x. split.
        -- intros (y & [<-|Hy] & F); [auto|]. right. exists y. auto.
        -- intros [F|(y & Hy & F)]; [exists v; split; [left; reflexivity|assumption]|].
           exists y. split; [right; assumption|assumption].
    + destruct (IH Ht) as [IH1 IH2]. split.
      * constructor; [assumption|]. rewrite Forall_forall in *. intros y Hy.
        assert (InP y (insert_unique v t)) as Q by (exists y; split; [assumption|apply same_refl]).
        apply IH2 in Q. destruct Q as [Q|(z & Hz & Q)].
        -- apply (before_same_r _ v); [apply same_sym; assumption|assumption].
        -- apply (before_same_r _ z); [apply same_sym; assumption|auto].
      * intros x. split.
        -- intros (y & [<-|Hy] & F).
           ++ right. exists w. split; [left; reflexivity|assumption].
           ++ assert (InP x (insert_unique v t)) as Q by (exists y; auto).
              apply IH2 in Q. destruct Q as [Q|(z & Hz & Q)]; [auto|]. right. exists z. split; [right; assumption|assumption].
        -- intros [F|(z & [<-|Hz] & F)].
           ++ assert (InP x (insert_unique v t)) as (y & Hy & Q) by (apply IH2; auto).
              exists y. split; [right; assumption|assumption].
           ++ exists w. split; [left; reflexivity|assumption].
           ++ assert (InP x (insert_unique v t)) as (y & Hy & Q) by (apply IH2; right; exists z; auto).
              exists y. split; [right; assumption|assumption].
Qed.

Lemma np_unique_spec l : sorted_points (np_unique l) /\ forall x, InP x (np_unique l) <-> InP x l.
Proof.
  induction l as [|v l [IH1 IH2]]; cbn [np_unique fold_right].
  - split; [constructor|reflexivity].
  - destruct (insert_unique_spec v (np_unique l) IH1) as [A B]. split; [exact A|].
    intros x. rewrite (B x), IH2. split.
    + intros [E|(y & Hy & E)]; [exists v; split; [left; reflexivity|assumption]|].
      exists y. split; [right; assumption|assumption].
    + intros (y & [<-|Hy] & E); [auto|]. right. exists y. auto.
Qed.

(** Two sorted lists with the same points agree position by position. *)
Lemma sorted_ext l l' : sorted_points l -> sorted_points l' -> (forall x, InP x l <-> InP x l') ->
  Forall2 same_point l l'.
Proof.
  revert l'. induction l as [|v t IH]; intros [|v' t'] S S' H.
  - constructor.
  - exfalso. assert (InP v' []) as (y & [] & _). apply H. exists v'. split; [left; reflexivity|apply same_refl].
  - exfalso. assert (InP v []) as (y & [] & _). apply H. exists v. split; [left; reflexivity|apply same_refl].
  - inversion S as [|? ? St Hv]; inversion S' as [|? ? St' Hv']; subst. rewrite Forall_forall in *.
    assert (E : same_point v v').
    { assert (InP v (v' :: t')) as (y & Hy & E1) by (apply H; exists v; split; [left; reflexivity|apply same_refl]).
      assert (InP v' (v :: t)) as (z & Hz & E2) by (apply H; exists v'; split; [left; reflexivity|apply same_refl]).
      destruct Hy as [<-|Hy]; [assumption|]. destruct Hz as [<-|Hz]; [apply same_sym; assumption|]. exfalso.
      apply (before_irrefl v). apply (before_trans _ z); [auto|].
      apply (before_same_l _ v'); [apply same_sym; assumption|].
      apply (before_same_r _ y); [apply same_sym; assumption|auto]. }
    constructor; [assumption|]. apply IH; [assumption|assumption|].
    intros x. specialize (H x). split; intros (y & Hy & F).
    + assert (InP x (v' :: t')) as (z & [<-|Hz] & G).
      { apply H. exists y. split; [right; assumption|assumption]. }
      * exfalso. apply (before_not_same v y (Hv y Hy)). apply (same_trans _ v'); [assumption|].
        apply (same_trans _ x); [apply same_sym|]; assumption.
      * exists z. auto.
    + assert (InP x (v :: t)) as (z & [<-|Hz] & G).
      { apply H. exists y. split; [right; assumption|assumption]. }
      * exfalso. apply (before_not_same v' y (Hv' y Hy)). apply (same_trans _ v); [apply same_sym; assumption|].
        apply (same_trans _ x); [apply same_sym|]; assumption.
      * exists z. auto.
Qed.

(** * Accepted lattices *)
Lemma round14_0 : round14 0 == 0.
Proof. apply (round14_int 0). Qed.

Lemma latt_valid v1 v2 : validate_latt_vects v1 v2 = true ->
  long v1 /\ long v2 /\ ~ det v1 v2 == 0 /\ generators v1 v2.
Proof.
  unfold validate_latt_vects. rewrite negb_true_iff, !orb_false_iff. intros [[A B] C].
  apply long_test in A. apply long_test in B. apply Qeq_bool_neq in C.
  assert (D : ~ det v1 v2 == 0).
  { intros E. apply C. change (vdet v1 v2) with (det v1 v2). rewrite E. apply round14_0. }
  repeat split; auto.
Qed.

Lemma new_lattice_inv v1 v2 basis p1 p2 ph1 ph2 L : new_lattice v1 v2 basis p1 p2 ph1 ph2 = Ok L ->
  long v1 /\ long v2 /\ generators v1 v2 /\
  (long p1 -> long p2 -> ~ det p1 p2 == 0) /\
  exists rs, reciprocal_vects p1 p2 = Ok rs /\ L = Lat v1 v2 basis p1 p2 (fst rs) (snd rs) ph1 ph2.
Proof.
  unfold new_lattice. intros H. apply bind_ok in H as (_ & _ & H). apply bind_ok in H as (rs & Hrs & H).
  apply bind_ok in H as (ok & Hok & H). destruct ok; [|discriminate]. injection H as <-.
  unfold validate_lattice in Hok.
  destruct (validate_latt_vects v1 v2) eqn:V; [|discriminate]. destruct (validate_periodicity_vects p1 p2) eqn:W; [|discriminate].
  destruct (latt_valid v1 v2 V) as (A & B & C & D). do 3 (split; [assumption|]). split; [|eauto].
  intros L1 L2 E. unfold validate_periodicity_vects in W.
  rewrite (proj2 (long_test p1) L1), (proj2 (long_test p2) L2) in W. cbn [negb andb] in W.
  rewrite negb_true_iff in W. apply Qeq_bool_neq in W. apply W. change (vdet p1 p2) with (det p1 p2). rewrite E.
  apply round14_0.
Qed.
