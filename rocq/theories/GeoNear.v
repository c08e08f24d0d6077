(** Neighbours on general lattices, and on triangular and hexagonal ones. *)
From Coq Require Import List Arith Lia QArith Qround Qabs ZArith Bool Lqa Setoid Morphisms Sorting Psatz.
From Verif Require Import Res Matrix ModelGeometry SpecGeometry GeoArith GeoReduce GeoSites GeoSites2 GeoDist GeoSquare SpecCells GeoCount.
Import ListNotations.
Local Open Scope Q_scope.
Arguments Qred : simpl never.
Arguments root_rounds_to_0 : simpl never.
Arguments root_rounds_to_1 : simpl never.
Arguments round14 : simpl never.

Definition boundary (open : bool) (p : vec) : vec := if open then vzero else p.

Lemma root_unit s : root_rounds_to_1 s = true -> Qabs (s - 1) <= 2 # 100000000000000.
Proof.
  unfold root_rounds_to_1. rewrite andb_true_iff, !Qle_bool_iff.
  change (inject_Z ((2 * ten14 - 1) * (2 * ten14 - 1))) with (39999999999999600000000000001 # 1).
  change (inject_Z ((2 * ten14 + 1) * (2 * ten14 + 1))) with (40000000000000400000000000001 # 1).
  change (inject_Z (4 * ten14 * ten14)) with (40000000000000000000000000000 # 1).
  intros [A B]. apply Qabs_Qle_condition. lra.
Qed.
Lemma unit_root s : Qabs (s - 1) <= 99 # 10000000000000000 -> root_rounds_to_1 s = true.
Proof.
  unfold root_rounds_to_1. rewrite andb_true_iff, !Qle_bool_iff.
  change (inject_Z ((2 * ten14 - 1) * (2 * ten14 - 1))) with (39999999999999600000000000001 # 1).
  change (inject_Z ((2 * ten14 + 1) * (2 * ten14 + 1))) with (40000000000000400000000000001 # 1).
  change (inject_Z (4 * ten14 * ten14)) with (40000000000000000000000000000 # 1).
  intros H. apply Qabs_Qle_condition in H. lra.
Qed.
#[export] Instance root_comp : Proper (Qeq ==> eq) root_rounds_to_1.
Proof. intros x y E. unfold root_rounds_to_1. rewrite E. reflexivity. Qed.

Section Near.
  Context {Ph : Type} (lattice_phases : lattice -> nat -> (nat -> nat -> Q) -> (nat -> nat -> Q) -> mat Ph)
    (validate_phases : nat -> mat Ph -> bool).
  Variables (v1 v2 : vec) (basis : list vec) (p1 p2 : vec) (ph1 ph2 : Q) (o1 o2 : bool) (g : geometry Ph).
  Hypothesis Hg : create_lattice_geom lattice_phases validate_phases v1 v2 basis p1 p2 ph1 ph2 o1 o2 = Ok g.
  Hypothesis L1 : long p1.
  Hypothesis L2 : long p2.

  Definition spot (k : nat) : point := (nth k (g_x g) 0, nth k (g_y g) 0).
  Definition displacement (k l : nat) : point := (fst (spot k) - fst (spot l), snd (spot k) - snd (spot l)).

  Lemma bounds : (is_zero (boundary o1 p1) \/ long (boundary o1 p1)) /\ (is_zero (boundary o2 p2) \/ long (boundary o2 p2)).
  Proof using L1 L2. clear - L1 L2. split; [destruct o1|destruct o2]; cbn [boundary]; (left; split; reflexivity) || (right; assumption). Qed.

  Lemma built_facts : exists helper sites L,
    new_lattice v1 v2 basis p1 p2 ph1 ph2 = Ok helper /\ unique_sites helper = Ok sites /\
    new_lattice v1 v2 basis (boundary o1 p1) (boundary o2 p2) ph1 ph2 = Ok L /\
    g_x g = map fst sites /\ g_y g = map snd sites /\ g_n g = length sites /\
    nrow (g_adj g) = g_n g /\ ncol (g_adj g) = g_n g /\ generators (boundary o1 p1) (boundary o2 p2) /\
    (forall k l, (k < g_n g)%nat -> (l < g_n g)%nat -> (l < k)%nat ->
       ent (g_adj g) k l = qb (root_rounds_to_1 (sq_norm (red Centered (boundary o1 p1) (boundary o2 p2) (displacement k l)))) /\
       ent (g_adj g) l k = ent (g_adj g) k l) /\
    (forall k, (k < g_n g)%nat -> ent (g_adj g) k k = 0).
  Proof using Hg L1 L2.
    pose proof Hg as H. unfold create_lattice_geom in H.
    apply bind_ok in H as (helper & Hh & H). apply bind_ok in H as (sites & Hs & H). apply bind_ok in H as (L & HL & H).
    change (new_lattice v1 v2 basis (boundary o1 p1) (boundary o2 p2) ph1 ph2 = Ok L) in HL.
    exists helper, sites, L. split; [assumption|]. split; [assumption|]. split; [assumption|].
    destruct bounds as [Y1 Y2].
    unfold displacement, spot.
    unfold lattice_geometry in H. apply bind_ok in H as (d & Hd & H). unfold checked in H.
    destruct (validate_geometry _ _); [|discriminate]. injection H as <-. cbn [g_x g_y g_n g_adj nrow ncol ent].
    rewrite map_length.
    split; [reflexivity|]. split; [reflexivity|]. split; [reflexivity|]. split; [reflexivity|]. split; [reflexivity|].
    split; [apply (gens _ _ _ _ _ _ _ L HL Y1 Y2)|].
    destruct (reduced_distance_ok _ _ _ _ _ _ _ L HL Y1 Y2 (map fst sites) (map snd sites)) as (d' & Hd' & T); [rewrite !map_length; reflexivity|].
    assert (d' = d) by congruence. subst d'. rewrite map_length in T. split.
    - intros k l Hk Hl Hkl. destruct (T k l Hk Hl) as (A1 & A2 & _). destruct (T l k Hl Hk) as (B1 & B2 & _).
      cbv zeta in A1, A2, B1, B2. cbn [fst snd] in A1, A2, B1, B2.
      assert (C1 : (l <? k)%nat = true) by (apply Nat.ltb_lt; assumption). assert (C2 : (k <? l)%nat = false) by (apply Nat.ltb_ge; lia).
      rewrite C1 in A1, A2. rewrite C1, C2 in B1, B2.
      change (nth k (map fst sites) 0 - nth l (map fst sites) 0, nth k (map snd sites) 0 - nth l (map snd sites) 0)
        with (diff (map fst sites) (map snd sites) k l).
      unfold sq_norm. rewrite A1, A2, B1, B2. split; [reflexivity|].
      f_equal. apply root_comp. ring.
    - intros k Hk. destruct (T k k Hk Hk) as (A1 & A2 & _). cbv zeta in A1, A2. rewrite Nat.ltb_irrefl in A1, A2.
      rewrite A1, A2. reflexivity.
  Qed.

  Lemma qb_one b : qb b = 1 <-> b = true.
  Proof using. destruct b; cbn [qb]; split; congruence || discriminate. Qed.

  Lemma adj_cases k l : (k < g_n g)%nat -> (l < g_n g)%nat ->
    (ent (g_adj g) k l = 0 \/ ent (g_adj g) k l = 1) /\ ent (g_adj g) k l = ent (g_adj g) l k /\ ent (g_adj g) k k = 0.
  Proof using Hg L1 L2.
    intros Hk Hl. destruct built_facts as (_ & _ & _ & _ & _ & _ & _ & _ & _ & _ & _ & _ & A & B).
    split; [|split; [|apply B; assumption]].
    - destruct (Nat.lt_trichotomy l k) as [C|[<-|C]].
      + destruct (A k l Hk Hl C) as [-> _]. destruct (root_rounds_to_1 _); cbn [qb]; auto.
      + left. apply B. assumption.
      + destruct (A l k Hl Hk C) as [E ->]. rewrite E. destruct (root_rounds_to_1 _); cbn [qb]; auto.
    - destruct (Nat.lt_trichotomy l k) as [C|[<-|C]]; [|reflexivity|].
      + symmetry. apply A; assumption.
      + apply A; assumption.
  Qed.

  Lemma opp_equiv q1 q2 v w : equivalent q1 q2 v w -> equivalent q1 q2 (- fst v, - snd v) (- fst w, - snd w).
  Proof using.
    clear. intros (k & l & A & B). exists (- k)%Z, (- l)%Z. rewrite !inject_Z_opp. unfold moved in *. cbn [fst snd] in *.
    split; cbn [fst snd]; rewrite A || rewrite B; ring.
  Qed.
  Lemma displacement_opp k l : same_point (displacement l k) (- fst (displacement k l), - snd (displacement k l)).
  Proof using. clear. unfold displacement. split; cbn [fst snd]; ring. Qed.

  (** What is connected is at distance one. *)
  Lemma near_sound k l : (k < g_n g)%nat -> (l < g_n g)%nat -> ent (g_adj g) k l = 1 ->
    exists w, equivalent (boundary o1 p1) (boundary o2 p2) (displacement k l) w /\ unit_length w.
  Proof using Hg L1 L2.
    intros Hk Hl H. destruct built_facts as (_ & _ & _ & _ & _ & _ & _ & _ & _ & _ & _ & _ & A & B).
    destruct (Nat.lt_trichotomy l k) as [C|[<-|C]].
    - destruct (A k l Hk Hl C) as [E _]. rewrite E in H. apply qb_one in H. eexists. split; [apply red_equiv|].
      apply root_unit. exact H.
    - rewrite B in H by assumption. discriminate.
    - destruct (A l k Hl Hk C) as [E F]. rewrite F, E in H. apply qb_one in H.
      set (r := red Centered (boundary o1 p1) (boundary o2 p2) (displacement l k)) in *.
      exists (- fst r, - snd r). split.
      + apply (equiv_trans _ _ _ (- fst (displacement l k), - snd (displacement l k))); [apply equiv_same, displacement_opp|].
        apply opp_equiv, red_equiv.
      + unfold unit_length, sq_norm. cbn [fst snd].
        setoid_replace (- fst r * - fst r + - snd r * - snd r - 1) with (sq_norm r - 1) by (unfold sq_norm; ring).
        apply root_unit. exact H.
  Qed.

  Lemma cell_small x : Qabs x < (1 # 2) - half_unit -> cell Centered x = 0%Z.
  Proof using.
    clear. intros H. apply Qabs_Qlt_condition in H. cbn [cell]. pose proof (round14_bounds x) as [A B].
    unfold eps14, half_unit in *. apply floor_unique; change (inject_Z 0) with 0; lra.
  Qed.

  Lemma red_small q1 q2 w a b : generators q1 q2 -> coordinates q1 q2 w a b ->
    Qabs a < (1 # 2) - half_unit -> Qabs b < (1 # 2) - half_unit -> same_point (red Centered q1 q2 w) w.
  Proof using.
    clear. intros G C A B. destruct (coords_unique q1 q2 w _ _ _ _ G (coords_ok q1 q2 w G) C) as [E F].
    unfold red. eapply same_trans; [apply vsub_vscale|].
    rewrite E, F, (cell_small a A), (cell_small b B). unfold moved. split; cbn [fst snd]; ring.
  Qed.

  (** What is at distance one, less than half way around, is connected. *)
  Lemma near_complete k l w a b : (k < g_n g)%nat -> (l < g_n g)%nat ->
    equivalent (boundary o1 p1) (boundary o2 p2) (displacement k l) w ->
    coordinates (boundary o1 p1) (boundary o2 p2) w a b -> Qabs a < (1 # 2) - half_unit -> Qabs b < (1 # 2) - half_unit ->
    Qabs (sq_norm w - 1) <= 99 # 10000000000000000 -> ent (g_adj g) k l = 1.
  Proof using Hg L1 L2.
    intros Hk Hl E C A B U. destruct built_facts as (_ & _ & _ & _ & _ & _ & _ & _ & _ & _ & _ & G & F & _).
    destruct (Nat.lt_trichotomy l k) as [O|[O|O]].
    - destruct (F k l Hk Hl O) as [-> _]. apply qb_one. apply unit_root.
      assert (S : same_point (red Centered (boundary o1 p1) (boundary o2 p2) (displacement k l)) w).
      { apply (same_trans _ (red Centered (boundary o1 p1) (boundary o2 p2) w)); [apply red_same; [assumption|discriminate|assumption]|].
        apply (red_small _ _ w a b); assumption. }
      destruct S as [S1 S2]. unfold sq_norm in *. rewrite S1, S2. exact U.
    - exfalso. subst l.
      assert (S : same_point (red Centered (boundary o1 p1) (boundary o2 p2) (0, 0)) w).
      { apply (same_trans _ (red Centered (boundary o1 p1) (boundary o2 p2) w)).
        - apply red_same; [assumption|discriminate|]. apply (equiv_trans _ _ _ (displacement k k)); [|assumption].
          apply equiv_same. unfold displacement. split; cbn [fst snd]; ring.
        - apply (red_small _ _ w a b); assumption. }
      assert (S0 : same_point (red Centered (boundary o1 p1) (boundary o2 p2) (0, 0)) (0, 0)).
      { apply (red_small _ _ _ 0 0); [assumption| |reflexivity|reflexivity].
        unfold coordinates, same_point, moved, dot. cbn [fst snd].
        repeat match goal with |- _ /\ _ => split end; intros; try split; ring. }
      apply same_sym in S. destruct (same_trans _ _ _ S S0) as [W1 W2]. cbn [fst snd] in W1, W2. unfold sq_norm in U.
      rewrite W1, W2 in U. apply Qabs_Qle_condition in U. lra.
    - destruct (F l k Hl Hk O) as [F1 F2]. rewrite F2, F1. apply qb_one. apply unit_root.
      assert (S : same_point (red Centered (boundary o1 p1) (boundary o2 p2) (displacement l k)) (- fst w, - snd w)).
      { apply (same_trans _ (red Centered (boundary o1 p1) (boundary o2 p2) (- fst w, - snd w))).
        - apply red_same; [assumption|discriminate|].
          apply (equiv_trans _ _ _ (- fst (displacement k l), - snd (displacement k l))); [apply equiv_same, displacement_opp|].
          apply opp_equiv. assumption.
        - apply (red_small _ _ _ (- a) (- b)); [assumption| |rewrite Qabs_opp; assumption|rewrite Qabs_opp; assumption].
          destruct C as (C1 & C2 & C3 & C4 & C5). unfold coordinates, same_point, moved, dot in *. cbn [fst snd] in *.
          repeat match goal with |- _ /\ _ => split end; intros.
          + rewrite C1 by assumption. ring.
          + rewrite C2 by assumption. ring.
          + destruct (C3 H H0) as [W1 W2]. split; [rewrite W1|rewrite W2]; ring.
          + setoid_replace (- a * sq_norm (boundary o1 p1)) with (- (a * sq_norm (boundary o1 p1))) by ring. rewrite C4 by assumption. ring.
          + setoid_replace (- b * sq_norm (boundary o2 p2)) with (- (b * sq_norm (boundary o2 p2))) by ring. rewrite C5 by assumption. ring. }
      destruct S as [S1 S2]. cbn [fst snd] in *. unfold sq_norm in *. rewrite S1, S2.
      setoid_replace (- fst w * - fst w + - snd w * - snd w - 1) with (fst w * fst w + snd w * snd w - 1) by ring. exact U.
  Qed.
  Lemma norm_comp v w : same_point v w -> sq_norm v == sq_norm w.
  Proof using. clear. intros [A B]. unfold sq_norm. rewrite A, B. reflexivity. Qed.

  (** The same for a displacement whose reductions are of length one. *)
  Lemma near_reduced k l w : (k < g_n g)%nat -> (l < g_n g)%nat ->
    equivalent (boundary o1 p1) (boundary o2 p2) (displacement k l) w ->
    root_rounds_to_1 (sq_norm (red Centered (boundary o1 p1) (boundary o2 p2) w)) = true ->
    root_rounds_to_1 (sq_norm (red Centered (boundary o1 p1) (boundary o2 p2) (- fst w, - snd w))) = true ->
    ent (g_adj g) k l = 1.
  Proof using Hg L1 L2.
    intros Hk Hl E R R'. destruct built_facts as (_ & _ & _ & _ & _ & _ & _ & _ & _ & _ & _ & G & F & _).
    destruct (Nat.lt_trichotomy l k) as [O|[O|O]].
    - destruct (F k l Hk Hl O) as [-> _]. apply qb_one. rewrite <- R. apply root_comp, norm_comp.
      apply red_same; [assumption|discriminate|assumption].
    - exfalso. subst l.
      assert (S0 : same_point (red Centered (boundary o1 p1) (boundary o2 p2) (0, 0)) (0, 0)).
      { apply (red_small _ _ _ 0 0); [assumption| |reflexivity|reflexivity].
        unfold coordinates, same_point, moved, dot. cbn [fst snd].
        repeat match goal with |- _ /\ _ => split end; intros; try split; ring. }
      assert (S : same_point (red Centered (boundary o1 p1) (boundary o2 p2) w) (0, 0)).
      { apply (same_trans _ (red Centered (boundary o1 p1) (boundary o2 p2) (0, 0))); [|assumption].
        apply red_same; [assumption|discriminate|]. apply equiv_sym.
        apply (equiv_trans _ _ _ (displacement k k)); [|assumption].
        apply equiv_same. unfold displacement. split; cbn [fst snd]; ring. }
      apply norm_comp in S. rewrite S in R. discriminate R.
    - destruct (F l k Hl Hk O) as [F1 F2]. rewrite F2, F1. apply qb_one. rewrite <- R'. apply root_comp, norm_comp.
      apply red_same; [assumption|discriminate|].
      apply (equiv_trans _ _ _ (- fst (displacement k l), - snd (displacement k l))); [apply equiv_same, displacement_opp|].
      apply opp_equiv. assumption.
  Qed.

  Lemma coords_opp q1 q2 w a b : coordinates q1 q2 w a b -> coordinates q1 q2 (- fst w, - snd w) (- a) (- b).
  Proof using.
    clear. intros (C1 & C2 & C3 & C4 & C5). unfold coordinates, same_point, moved, dot in *. cbn [fst snd] in *.
    repeat match goal with |- _ /\ _ => split end; intros.
    - rewrite C1 by assumption. ring.
    - rewrite C2 by assumption. ring.
    - destruct (C3 H H0) as [W1 W2]. split; [rewrite W1|rewrite W2]; ring.
    - setoid_replace (- a * sq_norm q1) with (- (a * sq_norm q1)) by ring. rewrite C4 by assumption. ring.
    - setoid_replace (- b * sq_norm q2) with (- (b * sq_norm q2)) by ring. rewrite C5 by assumption. ring.
  Qed.

  (** What is not connected. *)
  Lemma near_zero k l w : (k < g_n g)%nat -> (l < g_n g)%nat -> same_point (displacement k l) w ->
    root_rounds_to_1 (sq_norm (red Centered (boundary o1 p1) (boundary o2 p2) w)) = false ->
    root_rounds_to_1 (sq_norm (red Centered (boundary o1 p1) (boundary o2 p2) (- fst w, - snd w))) = false ->
    ent (g_adj g) k l = 0.
  Proof using Hg L1 L2.
    intros Hk Hl E R R'. destruct built_facts as (_ & _ & _ & _ & _ & _ & _ & _ & _ & _ & _ & G & F & _).
    destruct (Nat.lt_trichotomy l k) as [O|[O|O]].
    - destruct (F k l Hk Hl O) as [-> _]. change 0 with (qb false). f_equal. rewrite <- R. apply root_comp, norm_comp.
      apply red_same; [assumption|discriminate|]. apply equiv_same. assumption.
    - subst l. apply (adj_cases k k Hk Hk).
    - destruct (F l k Hl Hk O) as [F1 F2]. rewrite F2, F1. change 0 with (qb false). f_equal. rewrite <- R'. apply root_comp, norm_comp.
      apply red_same; [assumption|discriminate|].
      apply (equiv_trans _ _ _ (- fst (displacement k l), - snd (displacement k l))); [apply equiv_same, displacement_opp|].
      apply opp_equiv, equiv_same. assumption.
  Qed.
  Lemma near_not k l w a b : (k < g_n g)%nat -> (l < g_n g)%nat -> same_point (displacement k l) w ->
    coordinates (boundary o1 p1) (boundary o2 p2) w a b -> Qabs a < (1 # 2) - half_unit -> Qabs b < (1 # 2) - half_unit ->
    root_rounds_to_1 (sq_norm w) = false -> ent (g_adj g) k l = 0.
  Proof using Hg L1 L2.
    intros Hk Hl E C A B R. destruct built_facts as (_ & _ & _ & _ & _ & _ & _ & _ & _ & _ & _ & G & _ & _).
    apply (near_zero k l w Hk Hl E); rewrite <- R; apply root_comp.
    - apply norm_comp. apply (red_small _ _ w a b); assumption.
    - transitivity (sq_norm (- fst w, - snd w)).
      + apply norm_comp. apply (red_small _ _ _ (- a) (- b)); [assumption|apply coords_opp; assumption|rewrite Qabs_opp; assumption|rewrite Qabs_opp; assumption].
      + unfold sq_norm. cbn [fst snd]. ring.
  Qed.
End Near.

(** Positive reduction leaves coordinates in the first cell. *)
Lemma red_cell p1 p2 s a b : generators p1 p2 -> long p1 -> long p2 -> coordinates p1 p2 (red Positive p1 p2 s) a b ->
  cell Positive a = 0%Z /\ cell Positive b = 0%Z.
Proof.
  intros G L1 L2 C. destruct (coords_unique _ _ _ _ _ _ _ G C (coords_ok p1 p2 _ G)) as [-> ->].
  pose proof (vsub_vscale s p1 p2 (inject_Z (cell Positive (coord1 p1 p2 s))) (inject_Z (cell Positive (coord2 p1 p2 s)))) as H.
  destruct (coords_moved p1 p2 s (red Positive p1 p2 s) _ _ G H) as [A B].
  destruct (keep1_cell p1 p2 Positive s G) as [K1 K2]. rewrite K1 in A. rewrite K2 in B.
  rewrite <- inject_Z_opp in A, B. rewrite A, B, !cell_shift. lia.
Qed.

(** Lattices that are accepted. *)
Lemma lattice_geom_accepts {Ph : Type} (lattice_phases : lattice -> nat -> (nat -> nat -> Q) -> (nat -> nat -> Q) -> mat Ph)
    (validate_phases : nat -> mat Ph -> bool) v1 v2 basis p1 p2 ph1 ph2 o1 o2 :
  long v1 -> long v2 -> half_unit < Qabs (det v1 v2) -> long p1 -> long p2 -> half_unit < Qabs (det p1 p2) ->
  commensurate v1 v2 p1 -> commensurate v1 v2 p2 ->
  (forall L n xd yd, (forall i j, (i < n)%nat -> (j < n)%nat -> xd i j == - xd j i /\ yd i j == - yd j i) ->
     validate_phases n (lattice_phases L n xd yd) = true) ->
  exists g, create_lattice_geom lattice_phases validate_phases v1 v2 basis p1 p2 ph1 ph2 o1 o2 = Ok g.
Proof.
  intros Lv1 Lv2 D L1 L2 Dp C1 C2 V. unfold create_lattice_geom.
  destruct (lattice_accepted v1 v2 basis p1 p2 ph1 ph2) as [helper Hh]; try assumption; [right; assumption|right; assumption|intros; assumption|].
  rewrite Hh. cbn [bind].
  destruct (unique_sites_ok _ _ _ _ _ _ _ _ Hh C1 C2 L1 L2) as (sites & Hs & _). rewrite Hs. cbn [bind].
  assert (B1 : is_zero (boundary o1 p1) \/ long (boundary o1 p1)) by (destruct o1; [left; split; reflexivity|right; assumption]).
  assert (B2 : is_zero (boundary o2 p2) \/ long (boundary o2 p2)) by (destruct o2; [left; split; reflexivity|right; assumption]).
  assert (CZ : commensurate v1 v2 vzero) by (exists 0%Z, 0%Z; split; cbn [fst snd vzero moved]; change (inject_Z 0) with 0; ring).
  destruct (lattice_accepted v1 v2 basis (boundary o1 p1) (boundary o2 p2) ph1 ph2) as [L HL]; try assumption.
  { destruct o1; [intros X; exfalso; exact (zero_not_long _ (conj (Qeq_refl _) (Qeq_refl _)) X)|].
    destruct o2; [intros _ X; exfalso; exact (zero_not_long _ (conj (Qeq_refl _) (Qeq_refl _)) X)|]. intros; assumption. }
  { destruct o1; assumption. }
  { destruct o2; assumption. }
  unfold boundary in HL. rewrite HL. cbn [bind]. unfold lattice_geometry.
  destruct (distances _ _ _ _ _ _ _ L HL B1 B2 (map fst sites) (map snd sites)) as (d & Hd & T).
  { rewrite !map_length. reflexivity. }
  rewrite Hd. cbn [bind]. unfold checked.
  assert (validate_geometry validate_phases
    (Geom (Some L) (map fst sites) (map snd sites) (length (map fst sites))
      (Mat (length (map fst sites)) (length (map fst sites)) (d_x d))
      (Mat (length (map fst sites)) (length (map fst sites)) (d_y d))
      (Mat (length (map fst sites)) (length (map fst sites))
         (fun i j => qb (root_rounds_to_1 (d_x d i j * d_x d i j + d_y d i j * d_y d i j))))
      (lattice_phases L (length (map fst sites)) (d_x d) (d_y d))) = true) as ->.
  { unfold validate_geometry. cbn [g_n g_adj g_phase]. rewrite andb_true_iff. split.
    - unfold validate_adjacency, mat_eqb, mtr. cbn [nrow ncol ent]. rewrite !Nat.eqb_refl. cbn [andb].
      rewrite !andb_true_iff. split; [split|].
      + apply forallb_forall. intros i Hi. apply forallb_forall. intros j Hj. apply in_seq in Hi. apply in_seq in Hj.
        destruct (T i j ltac:(lia) ltac:(lia)) as (A & B & _).
        apply Qeq_bool_iff. assert (forall a b, a == b -> qb (root_rounds_to_1 a) == qb (root_rounds_to_1 b)) as X.
        { intros a b E. unfold root_rounds_to_1. rewrite E. reflexivity. }
        apply X. rewrite A, B. ring.
      + apply forallb_forall. intros i Hi. apply forallb_forall. intros j Hj. unfold qb.
        destruct (root_rounds_to_1 _); reflexivity.
      + reflexivity.
    - apply V. intros i j Hi Hj. destruct (T i j Hi Hj) as (A & B & _). split; assumption. }
  eauto.
Qed.
