(** Triangular and hexagonal lattices. *)
From Coq Require Import List Arith Lia QArith Qround Qabs ZArith Bool Lqa Setoid Morphisms Sorting Psatz.
From Verif Require Import Res Matrix ModelGeometry SpecGeometry GeoArith GeoReduce GeoSites GeoSites2 GeoDist GeoSquare SpecCells GeoCount GeoNear.
Import ListNotations.
Local Open Scope Q_scope.
Arguments Qred : simpl never.
Arguments root_rounds_to_0 : simpl never.
Arguments root_rounds_to_1 : simpl never.
Arguments round14 : simpl never.

Definition on_grid (h : Q) (v : point) (X k : Z) : Prop := same_point v (grid_point h X k).

Section Height.
  Variable h : Q.
  Hypothesis Hh : triangle_height h.

  Lemma h_bounds : (866 # 1000) < h < (867 # 1000).
  Proof using Hh.
    destruct Hh as [A B]. apply Qabs_Qle_condition in B. split.
    - destruct (Qlt_le_dec (866 # 1000) h) as [|C]; [assumption|exfalso]. nra.
    - destruct (Qlt_le_dec h (867 # 1000)) as [|C]; [assumption|exfalso]. nra.
  Qed.

  Lemma zq_bound z k : inject_Z z <= inject_Z k -> (z <= k)%Z.
  Proof using. rewrite <- Zle_Qle. auto. Qed.

  Lemma step_of_length A B e : Qabs e <= 1 # 100000000000000 ->
    unit_length (inject_Z A * (1 # 2), inject_Z B * h + e) -> unit_step A B.
  Proof using Hh.
    intros He U. pose proof h_bounds as [H1 H2]. destruct Hh as [_ H3].
    apply Qabs_Qle_condition in H3. apply Qabs_Qle_condition in He. unfold unit_length, sq_norm in U. cbn [fst snd] in U.
    apply Qabs_Qle_condition in U. destruct He as [He1 He2], U as [U1 U2], H3 as [H3 H4].
    assert (Bb : (-1 <= B <= 1)%Z).
    { split.
      - destruct (Z.le_gt_cases (-1) B) as [|C]; [assumption|exfalso].
        assert (inject_Z B <= inject_Z (-2)) as D by (rewrite <- Zle_Qle; lia). change (inject_Z (-2)) with (-(2)) in D.
        set (b := inject_Z B) in *. set (a := inject_Z A) in *.
        assert (Y : b * h + e <= -(17 # 10)) by nra.
        assert ((17 # 10) * (17 # 10) <= (b * h + e) * (b * h + e)) by nra.
        assert (0 <= a * (1 # 2) * (a * (1 # 2))) by nra. lra.
      - destruct (Z.le_gt_cases B 1) as [|C]; [assumption|exfalso].
        assert (inject_Z 2 <= inject_Z B) as D by (rewrite <- Zle_Qle; lia). change (inject_Z 2) with 2 in D.
        set (b := inject_Z B) in *. set (a := inject_Z A) in *.
        assert (Y : (17 # 10) <= b * h + e) by nra.
        assert ((17 # 10) * (17 # 10) <= (b * h + e) * (b * h + e)) by nra.
        assert (0 <= a * (1 # 2) * (a * (1 # 2))) by nra. lra. }
    assert (Ab : (-2 <= A <= 2)%Z).
    { split.
      - destruct (Z.le_gt_cases (-2) A) as [|C]; [assumption|exfalso].
        assert (inject_Z A <= inject_Z (-3)) as D by (rewrite <- Zle_Qle; lia). change (inject_Z (-3)) with (-(3)) in D.
        set (y := inject_Z B * h + e) in *. set (a := inject_Z A) in *. assert (0 <= y * y) by nra.
        assert ((3 # 2) * (3 # 2) <= a * (1 # 2) * (a * (1 # 2))) by nra. lra.
      - destruct (Z.le_gt_cases A 2) as [|C]; [assumption|exfalso].
        assert (inject_Z 3 <= inject_Z A) as D by (rewrite <- Zle_Qle; lia). change (inject_Z 3) with 3 in D.
        set (y := inject_Z B * h + e) in *. set (a := inject_Z A) in *. assert (0 <= y * y) by nra.
        assert ((3 # 2) * (3 # 2) <= a * (1 # 2) * (a * (1 # 2))) by nra. lra. }
    assert (B = -1 \/ B = 0 \/ B = 1)%Z as [-> |[-> | ->]] by lia;
      assert (A = -2 \/ A = -1 \/ A = 0 \/ A = 1 \/ A = 2)%Z as [-> |[-> |[-> |[-> | ->]]]] by lia;
      unfold unit_step; try lia; exfalso;
      change (inject_Z 0) with 0 in *; change (inject_Z 1) with 1 in *; change (inject_Z 2) with 2 in *;
      change (inject_Z (-1)) with (-(1)) in *; change (inject_Z (-2)) with (-(2)) in *; nra.
  Qed.

  Lemma length_of_step A B e : Qabs e <= 51 # 10000000000000000 -> unit_step A B ->
    (B = 0%Z -> e == 0) ->
    Qabs (sq_norm (inject_Z A * (1 # 2), inject_Z B * h + e) - 1) <= 99 # 10000000000000000.
  Proof using Hh.
    intros He U E0. pose proof h_bounds as [H1 H2]. destruct Hh as [_ H3].
    apply Qabs_Qle_condition in H3. apply Qabs_Qle_condition in He. destruct He as [He1 He2], H3 as [H3 H4].
    apply Qabs_Qle_condition. unfold sq_norm. cbn [fst snd].
    destruct U as [[[-> | ->] ->]|[[-> | ->] [-> | ->]]];
      change (inject_Z 0) with 0 in *; change (inject_Z 1) with 1 in *; change (inject_Z 2) with 2 in *;
      change (inject_Z (-1)) with (-(1)) in *; change (inject_Z (-2)) with (-(2)) in *;
      try (rewrite (E0 eq_refl)); split; nra.
  Qed.

  Lemma half_decimal X : decimal14 (inject_Z X * (1 # 2)).
  Proof using.
    exists (X * 50000000000000)%Z. rewrite inject_Z_mult. change (inject_Z 50000000000000) with (50000000000000 # 1). ring.
  Qed.

  Lemma grid_round v X k : on_grid h v X k -> stands h (round_point v) X k.
  Proof using.
    intros [A B]. destruct v as [x y]. unfold stands, round_point, grid_point in *. cbn [fst snd] in *. split.
    - rewrite A. apply decimal_round, half_decimal.
    - rewrite B. pose proof (round14_bounds (inject_Z k * h)) as [C D]. unfold eps14, half_unit in *.
      apply Qabs_Qle_condition. lra.
  Qed.

  Lemma stands_unique s X k X' k' : stands h s X k -> stands h s X' k' -> X = X' /\ k = k'.
  Proof using Hh.
    intros [A B] [C D]. unfold grid_point in *. cbn [fst snd] in *. pose proof h_bounds as [H1 H2].
    apply Qabs_Qle_condition in B. apply Qabs_Qle_condition in D. unfold half_unit in *. split.
    - rewrite A in C. apply inject_Z_injective. lra.
    - assert (E : -(1 # 2) < inject_Z (k - k') < (1 # 2)).
      { unfold Z.sub. rewrite inject_Z_plus, inject_Z_opp. nra. }
      destruct E as [E1 E2].
      assert (- 1 < k - k')%Z by (rewrite Zlt_Qlt; change (inject_Z (-1)) with (-(1)); lra).
      assert (k - k' < 1)%Z by (rewrite Zlt_Qlt; change (inject_Z 1) with 1; lra). lia.
  Qed.

  Lemma stands_same s t X k : same_point s t -> stands h s X k -> stands h t X k.
  Proof using. clear Hh. intros [A B] [C D]. split; [rewrite <- A; assumption|rewrite <- B; assumption]. Qed.

  Lemma grid_same v X k X' k' : on_grid h v X k -> on_grid h v X' k' -> X = X' /\ k = k'.
  Proof using Hh. intros A B. apply (stands_unique (round_point v)); apply grid_round; assumption. Qed.
End Height.

Section Grid.
  Context {Ph : Type} (lattice_phases : lattice -> nat -> (nat -> nat -> Q) -> (nat -> nat -> Q) -> mat Ph)
    (validate_phases : nat -> mat Ph -> bool).
  Variables (h : Q) (v1 v2 : vec) (basis : list vec) (p1 p2 : vec) (ph1 ph2 : Q) (o1 o2 : bool) (g : geometry Ph).
  Variables (A1 B1 A2 B2 n m i j : Z).
  Hypothesis Hh : triangle_height h.
  Hypothesis Hg : create_lattice_geom lattice_phases validate_phases v1 v2 basis p1 p2 ph1 ph2 o1 o2 = Ok g.
  Hypothesis V1 : on_grid h v1 A1 B1.
  Hypothesis V2 : on_grid h v2 A2 B2.
  Hypothesis VB : forall u, In u basis -> exists X k, on_grid h u X k.
  Hypothesis PB : proper_basis v1 v2 basis.
  Hypothesis E1 : same_point p1 (moved (0, 0) (inject_Z n) v1 (inject_Z m) v2).
  Hypothesis E2 : same_point p2 (moved (0, 0) (inject_Z i) v1 (inject_Z j) v2).
  Hypothesis L1 : long p1.
  Hypothesis L2 : long p2.

  Let P1 := (n * A1 + m * A2)%Z.
  Let Q1 := (n * B1 + m * B2)%Z.
  Let P2 := (i * A1 + j * A2)%Z.
  Let Q2 := (i * B1 + j * B2)%Z.

  Lemma grid_moved v X k w : on_grid h v X k -> forall c d, same_point w (moved v (inject_Z c) v1 (inject_Z d) v2) ->
    on_grid h w (X + c * A1 + d * A2) (k + c * B1 + d * B2).
  Proof using V1 V2.
    clear - V1 V2. intros [a1 a2] c d [w1 w2]. destruct V1 as [b1 b2], V2 as [c1 c2].
    unfold on_grid, grid_point, same_point, moved in *. cbn [fst snd] in *.
    rewrite !inject_Z_plus, !inject_Z_mult. rewrite w1, w2, a1, a2, b1, b2, c1, c2. split; ring.
  Qed.

  Lemma p1_grid : on_grid h p1 P1 Q1.
  Proof using V1 V2 E1.
    clear - V1 V2 E1. pose proof (grid_moved (0, 0) 0 0 p1) as H.
    assert (Z0 : on_grid h (0, 0) 0 0) by (split; cbn [fst snd grid_point]; change (inject_Z 0) with 0; ring).
    exact (H Z0 n m E1).
  Qed.
  Lemma p2_grid : on_grid h p2 P2 Q2.
  Proof using V1 V2 E2.
    clear - V1 V2 E2. pose proof (grid_moved (0, 0) 0 0 p2) as H.
    assert (Z0 : on_grid h (0, 0) 0 0) by (split; cbn [fst snd grid_point]; change (inject_Z 0) with 0; ring).
    exact (H Z0 i j E2).
  Qed.

  Lemma site_grid s : lattice_site v1 v2 basis s -> exists X k, on_grid h s X k.
  Proof using V1 V2 VB.
    clear - V1 V2 VB. intros (a & b & u & Hu & E). destruct (VB u Hu) as (X & k & U).
    exists (X + a * A1 + b * A2)%Z, (k + a * B1 + b * B2)%Z. exact (grid_moved u X k s U a b E).
  Qed.

  Lemma grid_apart : told_apart v1 v2 basis.
  Proof using V1 V2 VB Hh.
    intros s t Hs Ht N. destruct (site_grid s Hs) as (X & k & S). destruct (site_grid t Ht) as (X' & k' & T).
    clear - Hh S T N. pose proof (h_bounds h Hh) as [H1 H2].
    unfold on_grid, grid_point, same_point in *. cbn [fst snd] in *. destruct S as [s1 s2], T as [t1 t2].
    destruct (Z.eq_dec X X') as [Ex|Ex].
    - destruct (Z.eq_dec k k') as [Ek|Ek].
      + exfalso. apply N. subst. split; [rewrite s1, t1|rewrite s2, t2]; reflexivity.
      + right. rewrite s2, t2.
        setoid_replace (inject_Z k * h - inject_Z k' * h) with (inject_Z (k - k') * h) by (unfold Z.sub; rewrite inject_Z_plus, inject_Z_opp; ring).
        rewrite Qabs_Qmult, (Qabs_pos h) by lra.
        assert (1 <= Qabs (inject_Z (k - k'))).
        { change 1 with (inject_Z 1). change (Qabs (inject_Z (k - k'))) with (inject_Z (Z.abs (k - k'))). rewrite <- Zle_Qle. lia. }
        nra.
    - left. rewrite s1, t1.
      setoid_replace (inject_Z X * (1 # 2) - inject_Z X' * (1 # 2)) with (inject_Z (X - X') * (1 # 2)) by (unfold Z.sub; rewrite inject_Z_plus, inject_Z_opp; ring).
      rewrite Qabs_Qmult. change (Qabs (1 # 2)) with (1 # 2).
      assert (1 <= Qabs (inject_Z (X - X'))).
      { change 1 with (inject_Z 1). change (Qabs (inject_Z (X - X'))) with (inject_Z (Z.abs (X - X'))). rewrite <- Zle_Qle. lia. }
      lra.
  Qed.

  Lemma grid_count : g_n g = (Z.to_nat (Z.abs (n * j - m * i)) * length basis)%nat.
  Proof using All.
    destruct (built_facts lattice_phases validate_phases _ _ _ _ _ _ _ _ _ _ Hg L1 L2) as (helper & sites & L & Hh' & Hs & _ & _ & _ & N & _).
    destruct (count_sites v1 v2 basis p1 p2 ph1 ph2 helper n m i j Hh' E1 E2 L1 L2 PB grid_apart) as (sites' & Hs' & C).
    congruence.
  Qed.

  Lemma grid_shift s X k t : on_grid h s X k -> forall c d, same_point t (moved s (inject_Z c) p1 (inject_Z d) p2) ->
    on_grid h t (X + c * P1 + d * P2) (k + c * Q1 + d * Q2).
  Proof using V1 V2 E1 E2.
    pose proof p1_grid as [b1 b2]. pose proof p2_grid as [c1 c2].
    clear - b1 b2 c1 c2. intros [a1 a2] c d [w1 w2].
    unfold on_grid, grid_point, same_point, moved in *. cbn [fst snd] in *.
    rewrite !inject_Z_plus, !inject_Z_mult. rewrite w1, w2, a1, a2, b1, b2, c1, c2.
    split; ring.
  Qed.

  Lemma spot_nth sites k : g_x g = map fst sites -> g_y g = map snd sites -> spot g k = nth k sites (0, 0).
  Proof using.
    clear. intros Ex Ey. unfold spot. rewrite Ex, Ey.
    rewrite (map_nth fst sites (0, 0) k : nth k (map fst sites) 0 = _), (map_nth snd sites (0, 0) k : nth k (map snd sites) 0 = _).
    symmetry. apply surjective_pairing.
  Qed.

  (** Each site is a rounded point of the lattice, and every point of the
      lattice is one of the sites up to periods. *)
  Lemma grid_sites :
    (forall k, (k < g_n g)%nat -> exists X K, stands h (spot g k) X K /\ snd (spot g k) == round14 (inject_Z K * h) /\
       lattice_site v1 v2 basis (grid_point h X K) /\
       forall a b, coordinates p1 p2 (grid_point h X K) a b -> cell Positive a = 0%Z /\ cell Positive b = 0%Z) /\
    (forall X K, lattice_site v1 v2 basis (grid_point h X K) -> exists k c d, (k < g_n g)%nat /\
       stands h (spot g k) (X + c * P1 + d * P2) (K + c * Q1 + d * Q2)) /\
    (forall k l X K c d, (k < g_n g)%nat -> (l < g_n g)%nat -> stands h (spot g k) X K ->
       stands h (spot g l) (X + c * P1 + d * P2) (K + c * Q1 + d * Q2) -> k = l) /\
    (forall k l, (k < l)%nat -> (l < g_n g)%nat -> before (spot g k) (spot g l)).
  Proof using All.
    destruct (built_facts lattice_phases validate_phases _ _ _ _ _ _ _ _ _ _ Hg L1 L2) as (helper & sites & L & HH & Hs & _ & Ex & Ey & N & _).
    destruct (new_lattice_inv _ _ _ _ _ _ _ _ HH) as (Lv1 & Lv2 & Gv & Hd & _).
    assert (Gp : generators p1 p2) by (split; [auto|split; auto]).
    destruct (unique_sites_ok _ _ _ _ _ _ _ _ HH) as (sites' & Hs' & SR & A & B); [exists n, m; assumption|exists i, j; assumption|assumption|assumption|].
    assert (sites' = sites) by congruence. subst sites'. clear Hs'.
    assert (SP : forall k, (k < g_n g)%nat -> exists s X K, lattice_site v1 v2 basis s /\ on_grid h (red Positive p1 p2 s) X K /\
      lattice_site v1 v2 basis (grid_point h X K) /\ same_point (spot g k) (round_point (red Positive p1 p2 s))).
    { intros k Hk. rewrite (spot_nth sites k Ex Ey). destruct (B (nth k sites (0, 0))) as (s & Ls & E); [apply nth_In; lia|].
      assert (Lr : lattice_site v1 v2 basis (red Positive p1 p2 s)) by (apply (lattice_moved v1 v2 basis p1 p2 n m i j E1 E2 s); [assumption|apply red_equiv]).
      destruct (site_grid _ Lr) as (X & K & G). exists s, X, K. split; [assumption|]. split; [assumption|]. split; [|assumption].
      destruct Lr as (a & b & u & Hu & F). exists a, b, u. split; [assumption|]. apply (same_trans _ (red Positive p1 p2 s)); [apply same_sym; assumption|assumption]. }
    assert (BF : forall k l, (k < l)%nat -> (l < g_n g)%nat -> before (spot g k) (spot g l)).
    { intros k l Hkl Hl. rewrite !(spot_nth sites _ Ex Ey). rewrite N in Hl. clear - SR Hkl Hl. change (list vec) with (list point) in sites. change (@length vec sites) with (@length point sites) in Hl. revert k l Hkl Hl.
      induction SR as [|s l' SR IH F]; intros k l Hkl Hl; cbn [length] in Hl; [lia|].
      destruct l as [|l]; [lia|]. destruct k as [|k]; cbn [nth].
      - rewrite Forall_forall in F. apply F, nth_In. exact (proj2 (Nat.succ_lt_mono _ _) Hl).
      - apply IH; [lia|exact (proj2 (Nat.succ_lt_mono _ _) Hl)]. }
    split; [|split; [|split; [|exact BF]]].
    - intros k Hk. destruct (SP k Hk) as (s & X & K & Ls & G & Lg & E). exists X, K. split.
      + apply (stands_same h (round_point (red Positive p1 p2 s))); [apply same_sym; assumption|]. apply grid_round. assumption.
      + split; [destruct E as [_ E]; rewrite E; destruct G as [_ G]; unfold round_point; cbn [fst snd]; rewrite G; reflexivity|].
        split; [assumption|]. intros a b C. apply (red_cell p1 p2 s a b Gp L1 L2).
        destruct G as [G1 G2]. destruct C as (C1 & C2 & C3 & C4 & C5). unfold coordinates, dot, same_point, moved in *.
        rewrite G1, G2. auto.
    - intros X K Ls. destruct (A _ Ls) as (t & Ht & E). apply In_nth_error in Ht as [k Hk].
      destruct (red_equiv Positive p1 p2 (grid_point h X K)) as (c & d & F).
      exists k, c, d. split; [rewrite N; apply (proj1 (nth_error_Some sites k)); intros Q; pose proof (eq_trans (eq_sym Hk) Q); discriminate|].
      assert (Q : spot g k = t) by (transitivity (nth k sites (0, 0)); [apply spot_nth; assumption|exact (nth_error_nth sites k (0, 0) Hk)]).
      rewrite Q.
      apply (stands_same h _ _ _ _ E), grid_round. apply (grid_shift (grid_point h X K)); [apply same_refl|assumption].
    - intros k l X K c d Hk Hl S T. destruct (SP k Hk) as (s & Xs & Ks & Ls & G & _ & E). destruct (SP l Hl) as (t & Xt & Kt & Lt & G' & _ & E').
      assert (Sk : stands h (spot g k) Xs Ks) by (apply (stands_same h (round_point (red Positive p1 p2 s))); [apply same_sym; assumption|apply grid_round; assumption]).
      assert (Sl : stands h (spot g l) Xt Kt) by (apply (stands_same h (round_point (red Positive p1 p2 t))); [apply same_sym; assumption|apply grid_round; assumption]).
      destruct (stands_unique h Hh _ _ _ _ _ S Sk) as [<- <-]. destruct (stands_unique h Hh _ _ _ _ _ T Sl) as [<- <-].
      assert (EQ : equivalent p1 p2 (red Positive p1 p2 s) (red Positive p1 p2 t)).
      { exists c, d. pose proof (grid_shift _ _ _ (moved (red Positive p1 p2 s) (inject_Z c) p1 (inject_Z d) p2) G c d (same_refl _)) as H.
        apply (same_trans _ _ _ G'). apply same_sym. exact H. }
      assert (SM : same_point (spot g k) (spot g l)).
      { apply (same_trans _ _ _ E). apply same_sym. apply (same_trans _ _ _ E'). apply round_same.
        apply red_same; [assumption|discriminate|]. apply equiv_sym.
        apply (equiv_trans _ _ _ (red Positive p1 p2 s)); [apply red_equiv|].
        apply (equiv_trans _ _ _ (red Positive p1 p2 t)); [assumption|]. apply equiv_sym, red_equiv. }
      destruct (Nat.lt_trichotomy k l) as [O|[O|O]]; [|assumption|].
      + exfalso. exact (before_not_same _ _ (BF k l O Hl) SM).
      + exfalso. exact (before_not_same _ _ (BF l k O Hk) (same_sym _ _ SM)).
  Qed.

  Lemma displaced k l X K X' K' : stands h (spot g k) X K -> stands h (spot g l) X' K' ->
    exists e, Qabs e <= 1 # 100000000000000 /\
      same_point (displacement g k l) (inject_Z (X - X') * (1 # 2), inject_Z (K - K') * h + e) /\
      e == snd (spot g k) - snd (spot g l) - inject_Z (K - K') * h.
  Proof using.
    clear. intros [a b] [c d]. exists (snd (spot g k) - snd (spot g l) - inject_Z (K - K') * h).
    unfold displacement, same_point, grid_point in *. cbn [fst snd] in *.
    apply Qabs_Qle_condition in b. apply Qabs_Qle_condition in d. unfold half_unit in *.
    unfold Z.sub. rewrite !inject_Z_plus, !inject_Z_opp. split; [|split; [split|]].
    - apply Qabs_Qle_condition. lra.
    - rewrite a, c. ring.
    - ring.
    - ring.
  Qed.

  Lemma bound_moved c d X e : (o1 = true -> c = 0)%Z -> (o2 = true -> d = 0)%Z -> forall K,
    same_point (moved (inject_Z X * (1 # 2), inject_Z K * h + e) (inject_Z c) (boundary o1 p1) (inject_Z d) (boundary o2 p2))
      (inject_Z (X + c * P1 + d * P2) * (1 # 2), inject_Z (K + c * Q1 + d * Q2) * h + e).
  Proof using V1 V2 E1 E2.
    pose proof p1_grid as [b1 b2]. pose proof p2_grid as [c1 c2]. clear - b1 b2 c1 c2. intros Hc Hd K.
    assert (H1 : forall q, inject_Z c * fst (boundary o1 p1) == inject_Z c * (inject_Z P1 * (1 # 2)) /\
      inject_Z c * snd (boundary o1 p1) == inject_Z c * (inject_Z Q1 * h) \/ q).
    { intros q. left. destruct o1; cbn [boundary].
      - rewrite (Hc eq_refl). change (inject_Z 0) with 0. split; cbn [fst snd vzero]; ring.
      - unfold grid_point in *. cbn [fst snd] in *. rewrite b1, b2. split; reflexivity. }
    assert (H2 : inject_Z d * fst (boundary o2 p2) == inject_Z d * (inject_Z P2 * (1 # 2)) /\
      inject_Z d * snd (boundary o2 p2) == inject_Z d * (inject_Z Q2 * h)).
    { destruct o2; cbn [boundary].
      - rewrite (Hd eq_refl). change (inject_Z 0) with 0. split; cbn [fst snd vzero]; ring.
      - unfold grid_point in *. cbn [fst snd] in *. rewrite c1, c2. split; reflexivity. }
    destruct (H1 False) as [[F1 F2]|[]]. destruct H2 as [F3 F4].
    unfold moved, same_point. cbn [fst snd]. rewrite F1, F2, F3, F4. rewrite !inject_Z_plus, !inject_Z_mult. split; ring.
  Qed.

  Lemma grid_sound k l X K X' K' : (k < g_n g)%nat -> (l < g_n g)%nat ->
    stands h (spot g k) X K -> stands h (spot g l) X' K' -> ent (g_adj g) k l = 1 ->
    exists c d, (o1 = true -> c = 0)%Z /\ (o2 = true -> d = 0)%Z /\
      unit_step (X - X' + c * P1 + d * P2) (K - K' + c * Q1 + d * Q2).
  Proof using All.
    intros Hk Hl S T H.
    destruct (near_sound lattice_phases validate_phases _ _ _ _ _ _ _ _ _ _ Hg L1 L2 k l Hk Hl H) as (w & (c & d & Ew) & U).
    destruct (displaced k l X K X' K' S T) as (e & He & D & _).
    set (c' := if o1 then 0%Z else c). set (d' := if o2 then 0%Z else d).
    exists c', d'. split; [intros Eo; unfold c'; rewrite Eo; reflexivity|]. split; [intros Eo; unfold d'; rewrite Eo; reflexivity|].
    apply (step_of_length h Hh _ _ e He).
    assert (W : same_point w (inject_Z (X - X' + c' * P1 + d' * P2) * (1 # 2), inject_Z (K - K' + c' * Q1 + d' * Q2) * h + e)).
    { apply (same_trans _ _ _ Ew).
      apply (same_trans _ (moved (inject_Z (X - X') * (1 # 2), inject_Z (K - K') * h + e) (inject_Z c') (boundary o1 p1) (inject_Z d') (boundary o2 p2))).
      - destruct D as [D1 D2]. unfold moved, same_point. cbn [fst snd] in *. rewrite D1, D2. unfold c', d'.
        destruct o1, o2; cbn [boundary vzero fst snd]; split; ring.
      - apply bound_moved; [intros Eo; unfold c'; rewrite Eo; reflexivity|intros Eo; unfold d'; rewrite Eo; reflexivity]. }
    destruct W as [W1 W2]. unfold unit_length, sq_norm in *. rewrite W1, W2 in U. exact U.
  Qed.

  (** Periods so wide that a step of length one is well within the cell. *)
  Definition wide : Prop := forall A B e, unit_step A B -> Qabs e <= 1 # 100000000000000 ->
    exists a b, coordinates (boundary o1 p1) (boundary o2 p2) (inject_Z A * (1 # 2), inject_Z B * h + e) a b /\
      Qabs a <= 2 # 5 /\ Qabs b <= 2 # 5.

  Lemma grid_complete k l X K X' K' c d : wide -> (k < g_n g)%nat -> (l < g_n g)%nat ->
    stands h (spot g k) X K -> stands h (spot g l) X' K' ->
    (o1 = true -> c = 0)%Z -> (o2 = true -> d = 0)%Z ->
    unit_step (X - X' + c * P1 + d * P2) (K - K' + c * Q1 + d * Q2) ->
    rows_apart h (spot g k) (spot g l) (K - K') ->
    ((K - K' + c * Q1 + d * Q2 = 0)%Z -> snd (spot g k) - snd (spot g l) == inject_Z (K - K') * h) ->
    ent (g_adj g) k l = 1.
  Proof using All.
    intros W Hk Hl S T Hc Hd U R R0. destruct (displaced k l X K X' K' S T) as (e & He & D & Ee).
    destruct (W _ _ e U He) as (a & b & C & A & B).
    assert (Qh : (2 # 5) < (1 # 2) - half_unit) by reflexivity.
    apply (near_complete lattice_phases validate_phases _ _ _ _ _ _ _ _ _ _ Hg L1 L2 k l _ a b Hk Hl) with (2 := C).
    - exists c, d. apply same_sym.
      apply (same_trans _ (moved (inject_Z (X - X') * (1 # 2), inject_Z (K - K') * h + e) (inject_Z c) (boundary o1 p1) (inject_Z d) (boundary o2 p2))).
      + destruct D as [D1 D2]. unfold moved, same_point. cbn [fst snd] in *. rewrite D1, D2. split; reflexivity.
      + apply bound_moved; assumption.
    - apply (Qle_lt_trans _ _ _ A Qh).
    - apply (Qle_lt_trans _ _ _ B Qh).
    - apply (length_of_step h Hh); [|assumption|].
      + rewrite Ee. exact R.
      + intros Z0. rewrite Ee, (R0 Z0). ring.
  Qed.
End Grid.
