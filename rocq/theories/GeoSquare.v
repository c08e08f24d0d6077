(** Rectangular clusters. *)
From Coq Require Import List Arith Lia QArith Qround Qabs ZArith Bool Lqa Setoid Morphisms Sorting Psatz.
From Verif Require Import Res Matrix ModelGeometry SpecGeometry GeoArith GeoReduce GeoSites GeoSites2 GeoDist.
Import ListNotations.
Local Open Scope Q_scope.
Arguments Qred : simpl never.
Arguments root_rounds_to_0 : simpl never.
Arguments root_rounds_to_1 : simpl never.
Arguments round14 : simpl never.

(** * Rounded quotients *)
Lemma decimal_unit : decimal14 (1 - (1 # 100000000000000)).
Proof. exists 99999999999999%Z. reflexivity. Qed.

Lemma cell_quot x n : (0 < n <= 100000000000000)%Z ->
  cell Positive (inject_Z x / inject_Z n) = (x / n)%Z.
Proof.
  intros [H1 H2].
  assert (N : 0 < inject_Z n) by (change 0 with (inject_Z 0); rewrite <- Zlt_Qlt; assumption).
  pose proof (Z.div_mod x n ltac:(lia)) as E. pose proof (Z.mod_pos_bound x n H1) as [B1 B2].
  set (q := (x / n)%Z) in *. set (r := (x mod n)%Z) in *.
  assert (F : inject_Z x / inject_Z n == inject_Z r / inject_Z n + inject_Z q).
  { rewrite E, inject_Z_plus, inject_Z_mult. field. lra. }
  rewrite F, cell_shift.
  cut (cell Positive (inject_Z r / inject_Z n) = 0%Z); [lia|]. cbn [cell].
  assert (0 <= inject_Z r / inject_Z n) as G1.
  { apply Qle_shift_div_l; [assumption|]. rewrite Qmult_0_l. change 0 with (inject_Z 0). rewrite <- Zle_Qle. lia. }
  assert (inject_Z r / inject_Z n <= 1 - (1 # 100000000000000)) as G2.
  { apply Qle_shift_div_r; [assumption|].
    assert (inject_Z r <= inject_Z (n + -1)) as C by (rewrite <- Zle_Qle; lia). rewrite inject_Z_plus in C.
    assert (inject_Z n <= inject_Z 100000000000000) as D by (rewrite <- Zle_Qle; lia).
    change (inject_Z 100000000000000) with (100000000000000 # 1) in D. change (inject_Z (-1)) with (-(1)) in C. lra. }
  apply round14_mono in G1. apply round14_mono in G2. rewrite (decimal_round _ decimal_unit) in G2.
  rewrite round14_0 in G1. apply floor_unique; change (inject_Z 0) with 0; lra.
Qed.

Lemma cell_centered_quot x n : (0 < n)%Z -> (2 * n <= 100000000000000)%Z ->
  cell Centered (inject_Z x / inject_Z n) = ((2 * x + n) / (2 * n))%Z.
Proof.
  intros H1 H2.
  assert (N : 0 < inject_Z n) by (change 0 with (inject_Z 0); rewrite <- Zlt_Qlt; assumption).
  rewrite <- (cell_quot (2 * x + n) (2 * n)) by lia. cbn [cell].
  assert (E : inject_Z (2 * x + n) / inject_Z (2 * n) == inject_Z x / inject_Z n + (1 # 2)).
  { rewrite inject_Z_plus, !inject_Z_mult. field. change (inject_Z 2) with 2. lra. }
  rewrite E. apply Qfloor_comp.
  set (a := inject_Z x / inject_Z n).
  rewrite !round14_eq.
  assert (F : (a + (1 # 2)) * inject_Z ten14 == a * inject_Z ten14 + inject_Z 50000000000000).
  { change (inject_Z ten14) with (100000000000000 # 1). change (inject_Z 50000000000000) with (50000000000000 # 1). ring. }
  rewrite F, rint_shift by reflexivity. rewrite inject_Z_plus.
  change (inject_Z ten14) with (100000000000000 # 1). change (inject_Z 50000000000000) with (50000000000000 # 1). field.
Qed.

(** * Coordinates along the axes *)
Definition px (open : bool) (n : Z) : vec := if open then vzero else (inject_Z n, 0).
Definition py (open : bool) (n : Z) : vec := if open then vzero else (0, inject_Z n).

Lemma inj_sq n : (1 <= n)%Z -> 1 <= inject_Z n.
Proof. intros H. change 1 with (inject_Z 1). rewrite <- Zle_Qle. assumption. Qed.

Lemma px_long n : (1 <= n)%Z -> long (inject_Z n, 0).
Proof. intros H. apply inj_sq in H. unfold long, sq_norm. cbn [fst snd]. nra. Qed.
Lemma py_long n : (1 <= n)%Z -> long (0, inject_Z n).
Proof. intros H. apply inj_sq in H. unfold long, sq_norm. cbn [fst snd]. nra. Qed.
Lemma vzero_zero : is_zero vzero.
Proof. split; reflexivity. Qed.

Lemma det_pxpy nx ny : (1 <= nx)%Z -> (1 <= ny)%Z -> 1 <= det (inject_Z nx, 0) (0, inject_Z ny).
Proof. intros H1 H2. apply inj_sq in H1. apply inj_sq in H2. unfold det. cbn [fst snd]. nra. Qed.

Lemma gens_xy o1 o2 nx ny : (1 <= nx)%Z -> (1 <= ny)%Z -> generators (px o1 nx) (py o2 ny).
Proof.
  intros H1 H2. pose proof (det_pxpy nx ny H1 H2). unfold generators, px, py. destruct o1, o2; cbn [fst snd].
  - repeat split; try (left; split; reflexivity). intros A. exfalso. apply (zero_not_long _ vzero_zero A).
  - split; [left; split; reflexivity|]. split; [right; apply py_long; assumption|].
    intros A. exfalso. apply (zero_not_long _ vzero_zero A).
  - split; [right; apply px_long; assumption|]. split; [left; split; reflexivity|].
    intros _ A. exfalso. apply (zero_not_long _ vzero_zero A).
  - split; [right; apply px_long; assumption|]. split; [right; apply py_long; assumption|]. intros _ _. lra.
Qed.

Lemma coord_xy o1 o2 nx ny x y : (1 <= nx)%Z -> (1 <= ny)%Z ->
  coord1 (px o1 nx) (py o2 ny) (x, y) == (if o1 then 0 else x / inject_Z nx) /\
  coord2 (px o1 nx) (py o2 ny) (x, y) == (if o2 then 0 else y / inject_Z ny).
Proof.
  intros H1 H2. unfold coord1, coord2, px, py.
  pose proof (inj_sq _ H1). pose proof (inj_sq _ H2).
  pose proof (zero_test _ vzero_zero) as T0.
  pose proof (proj2 (long_test _) (px_long nx H1)) as T1. pose proof (proj2 (long_test _) (py_long ny H2)) as T2.
  destruct o1, o2; rewrite ?T0, ?T1, ?T2; unfold vdot, vdet; cbn [fst snd]; split; try reflexivity; field; nra.
Qed.

(** Shortest displacement along one axis. *)
Definition wrap (open : bool) (n d : Z) : Z := if open then d else (d - n * ((2 * d + n) / (2 * n)))%Z.

Lemma wrap_shortest open n d : (1 <= n)%Z -> shortest open n d (wrap open n d).
Proof.
  intros H. unfold shortest, wrap. destruct open; [reflexivity|].
  pose proof (Z.div_mod (2 * d + n) (2 * n) ltac:(lia)). pose proof (Z.mod_pos_bound (2 * d + n) (2 * n) ltac:(lia)).
  set (q := ((2 * d + n) / (2 * n))%Z) in *. split; [|nia].
  replace (d - n * q - d)%Z with (- q * n)%Z by ring. apply Z_mod_mult.
Qed.

Lemma shortest_step open n d e : (1 <= n)%Z -> (n = 1 -> open = true)%Z -> shortest open n d e ->
  (Z.abs e = 1)%Z <-> one_step open n d.
Proof.
  intros H H1 S. unfold shortest, one_step in *. destruct open; [subst; lia|]. destruct S as [S1 S2].
  assert (2 <= n)%Z by (destruct (Z.eq_dec n 1); [discriminate (H1 e0)|lia]).
  apply Z.mod_divide in S1 as [k Hk]; [|lia]. split.
  - intros A. assert (e = 1 \/ e = -1)%Z as [->| ->] by lia; [left|right].
    + apply Z.mod_divide; [lia|]. exists (- k)%Z. lia.
    + apply Z.mod_divide; [lia|]. exists (- k)%Z. lia.
  - intros [A|A]; apply Z.mod_divide in A as [m Hm]; try lia.
    + assert (E : e = (1 + (k + m) * n)%Z) by lia. rewrite E in S2.
      assert (k + m = 0 \/ k + m = -1 \/ 1 <= k + m \/ k + m <= -2)%Z as [F|[F|[F|F]]] by lia; try nia.
    + assert (E : e = (-1 + (k + m) * n)%Z) by lia. rewrite E in S2.
      assert (k + m = 0 \/ k + m = 1 \/ 2 <= k + m \/ k + m <= -1)%Z as [F|[F|[F|F]]] by lia; try nia.
Qed.

Lemma shortest_zero open n d e : (1 <= n)%Z -> (Z.abs d < n)%Z -> shortest open n d e -> e = 0%Z <-> d = 0%Z.
Proof.
  intros H Hd S. unfold shortest in S. destruct open; [subst; lia|]. destruct S as [S1 S2].
  apply Z.mod_divide in S1 as [k Hk]; [|lia]. split; intros ->.
  - assert (k = 0)%Z by nia. subst. lia.
  - assert (k = 0)%Z by nia. subst. lia.
Qed.

Lemma red_xy o1 o2 nx ny x y : (1 <= nx)%Z -> (1 <= ny)%Z ->
  (2 * nx <= 100000000000000)%Z -> (2 * ny <= 100000000000000)%Z ->
  same_point (red Centered (px o1 nx) (py o2 ny) (inject_Z x, inject_Z y))
    (inject_Z (wrap o1 nx x), inject_Z (wrap o2 ny y)).
Proof.
  intros H1 H2 H3 H4. unfold red. eapply same_trans; [apply vsub_vscale|].
  destruct (coord_xy o1 o2 nx ny (inject_Z x) (inject_Z y) H1 H2) as [A B]. rewrite A, B.
  unfold px, py, vzero, moved, wrap.
  destruct o1, o2; split; cbn [fst snd]; rewrite ?cell_centered_quot by lia;
    unfold Z.sub; rewrite ?inject_Z_plus, ?inject_Z_opp, ?inject_Z_mult; ring.
Qed.

Lemma redP_xy nx ny x y : (1 <= nx)%Z -> (1 <= ny)%Z ->
  (nx <= 100000000000000)%Z -> (ny <= 100000000000000)%Z ->
  same_point (red Positive (inject_Z nx, 0) (0, inject_Z ny) (inject_Z x, inject_Z y))
    (inject_Z (x mod nx), inject_Z (y mod ny)).
Proof.
  intros H1 H2 H3 H4. unfold red. eapply same_trans; [apply vsub_vscale|].
  destruct (coord_xy false false nx ny (inject_Z x) (inject_Z y) H1 H2) as [A B]. unfold px, py in A, B.
  rewrite A, B, !cell_quot by lia. unfold moved. rewrite !Z.mod_eq by lia.
  split; cbn [fst snd]; unfold Z.sub; rewrite ?inject_Z_plus, ?inject_Z_opp, ?inject_Z_mult; ring.
Qed.

Lemma red_same_arg md p1 p2 v w : generators p1 p2 -> md <> OtherMode -> same_point v w ->
  same_point (red md p1 p2 v) (red md p1 p2 w).
Proof. intros H Hm E. apply red_same; auto. apply equiv_same; assumption. Qed.

(** * The grid of sites *)
Definition grid (nx ny : Z) : list point :=
  flat_map (fun x => map (fun y => (inject_Z x, inject_Z y)) (zrange 0 ny)) (zrange 0 nx).

Lemma grid_In nx ny t : In t (grid nx ny) <->
  exists x y, (0 <= x < nx)%Z /\ (0 <= y < ny)%Z /\ t = (inject_Z x, inject_Z y).
Proof.
  unfold grid. rewrite in_flat_map. split.
  - intros (x & Hx & H). apply in_map_iff in H as (y & <- & Hy). apply zrange_In in Hx. apply zrange_In in Hy. eauto.
  - intros (x & y & Hx & Hy & ->). exists x. split; [apply zrange_In; assumption|]. apply in_map_iff.
    exists y. split; [reflexivity|apply zrange_In; assumption].
Qed.

Lemma zrange_cons lo hi : (lo < hi)%Z -> zrange lo hi = lo :: zrange (lo + 1) hi.
Proof.
  intros H. unfold zrange. assert (Z.to_nat (hi - lo) = S (Z.to_nat (hi - (lo + 1)))) as -> by lia.
  cbn [seq map]. f_equal; [lia|]. rewrite <- seq_shift, map_map. apply map_ext. intros. lia.
Qed.
Lemma zrange_nil lo hi : (hi <= lo)%Z -> zrange lo hi = [].
Proof. intros H. unfold zrange. assert (Z.to_nat (hi - lo) = O) as -> by lia. reflexivity. Qed.

Lemma row_sorted x lo hi : sorted_points (map (fun y => (inject_Z x, inject_Z y)) (zrange lo hi)).
Proof.
  remember (Z.to_nat (hi - lo)) as k. revert lo Heqk. induction k; intros lo Hk.
  - rewrite zrange_nil by lia. constructor.
  - rewrite zrange_cons by lia. cbn [map]. constructor; [apply IHk; lia|].
    apply Forall_forall. intros t Ht. apply in_map_iff in Ht as (y & <- & Hy). apply zrange_In in Hy.
    right. cbn [fst snd]. split; [reflexivity|]. rewrite <- Zlt_Qlt. lia.
Qed.

Lemma sorted_app l l' : sorted_points l -> sorted_points l' -> (forall a b, In a l -> In b l' -> before a b) ->
  sorted_points (l ++ l').
Proof.
  intros H1 H2 H. induction H1 as [|a l S IH Ha]; [assumption|]. cbn [app]. constructor.
  - apply IH. intros; apply H; [right|]; assumption.
  - apply Forall_app. split; [assumption|]. apply Forall_forall. intros b Hb. apply H; [left; reflexivity|assumption].
Qed.

Lemma grid_sorted' lo hi ny : sorted_points (flat_map (fun x => map (fun y => (inject_Z x, inject_Z y)) (zrange 0 ny)) (zrange lo hi)).
Proof.
  remember (Z.to_nat (hi - lo)) as k. revert lo Heqk. induction k; intros lo Hk.
  - rewrite (zrange_nil lo hi) by lia. constructor.
  - rewrite (zrange_cons lo hi) by lia. cbn [flat_map]. apply sorted_app; [apply row_sorted|apply IHk; lia|].
    intros a b Ha Hb. apply in_map_iff in Ha as (y & <- & _). apply in_flat_map in Hb as (x & Hx & Hb).
    apply in_map_iff in Hb as (z & <- & _). apply zrange_In in Hx. left. cbn [fst]. rewrite <- Zlt_Qlt. lia.
Qed.

Lemma zrange_length lo hi : length (zrange lo hi) = Z.to_nat (hi - lo).
Proof. unfold zrange. rewrite map_length, seq_length. reflexivity. Qed.

Lemma zrange_nth lo hi k d : (k < Z.to_nat (hi - lo))%nat -> nth k (zrange lo hi) d = (lo + Z.of_nat k)%Z.
Proof.
  intros H. unfold zrange. rewrite (nth_indep _ d (lo + Z.of_nat 0)%Z) by (rewrite map_length, seq_length; assumption).
  rewrite (map_nth (fun k => (lo + Z.of_nat k)%Z)), seq_nth by assumption. reflexivity.
Qed.

Lemma flat_map_nth {A B} (f : A -> list B) c l k d da : (forall a, In a l -> length (f a) = c) -> (0 < c)%nat ->
  (k < length l * c)%nat -> nth k (flat_map f l) d = nth (k mod c) (f (nth (k / c) l da)) d.
Proof.
  intros Hf Hc. revert k. induction l as [|a l IH]; intros k Hk; cbn [length flat_map] in *; [lia|].
  assert (La : length (f a) = c) by (apply Hf; left; reflexivity).
  destruct (Nat.lt_ge_cases k c) as [H|H].
  - rewrite app_nth1 by lia. rewrite Nat.div_small, Nat.mod_small by assumption. reflexivity.
  - rewrite app_nth2 by lia. rewrite La. rewrite IH; [|intros; apply Hf; right; assumption|lia].
    assert (k / c = S ((k - c) / c))%nat as ->.
    { replace k with (k - c + 1 * c)%nat at 1 by lia. rewrite Nat.div_add by lia. lia. }
    assert ((k - c) mod c = k mod c)%nat as ->.
    { replace k with (k - c + 1 * c)%nat at 2 by lia. rewrite Nat.mod_add by lia. reflexivity. }
    reflexivity.
Qed.

Lemma grid_length nx ny : length (grid nx ny) = (Z.to_nat nx * Z.to_nat ny)%nat.
Proof.
  unfold grid. assert (forall l, length (flat_map (fun x => map (fun y => (inject_Z x, inject_Z y)) (zrange 0 ny)) l) = (length l * Z.to_nat ny)%nat) as ->.
  { induction l; cbn [flat_map length]; [reflexivity|]. rewrite app_length, IHl, map_length, zrange_length. lia. }
  rewrite zrange_length. lia.
Qed.

Lemma grid_nth nx ny k d : (k < Z.to_nat nx * Z.to_nat ny)%nat ->
  nth k (grid nx ny) d = (inject_Z (Z.of_nat k / ny), inject_Z (Z.of_nat k mod ny)).
Proof.
  intros H. set (c := Z.to_nat ny) in *. assert (Hc : (0 < c)%nat) by nia.
  assert (Eny : ny = Z.of_nat c) by (unfold c in *; lia).
  unfold grid. rewrite (flat_map_nth _ c _ k d 0%Z).
  - assert (k mod c < c)%nat by (apply Nat.mod_upper_bound; lia).
    assert (k / c < Z.to_nat nx)%nat by (apply Nat.div_lt_upper_bound; lia).
    rewrite zrange_nth by lia.
    rewrite (nth_indep _ d (inject_Z (0 + Z.of_nat (k / c)), inject_Z 0)) by (rewrite map_length, zrange_length; lia).
    rewrite (map_nth (fun y => (inject_Z (0 + Z.of_nat (k / c)), inject_Z y))), zrange_nth by lia.
    rewrite Eny. rewrite <- Nat2Z.inj_div, <- Nat2Z.inj_mod. reflexivity.
  - intros. rewrite map_length, zrange_length. lia.
  - assumption.
  - rewrite zrange_length. rewrite Z.sub_0_r. assumption.
Qed.

(** * Sites of the rectangular cluster *)
Lemma lat_square nx ny o1 o2 ph1 ph2 : (1 <= nx)%Z -> (1 <= ny)%Z ->
  exists L, new_lattice (1, 0) (0, 1) [vzero] (px o1 nx) (py o2 ny) ph1 ph2 = Ok L.
Proof.
  intros H1 H2. destruct (gens_xy o1 o2 nx ny H1 H2) as (G1 & G2 & _).
  apply lattice_accepted; auto.
  - reflexivity.
  - reflexivity.
  - reflexivity.
  - intros A B. pose proof (det_pxpy nx ny H1 H2) as D. unfold px, py in *. destruct o1; [exfalso; apply (zero_not_long _ vzero_zero A)|].
    destruct o2; [exfalso; apply (zero_not_long _ vzero_zero B)|]. rewrite Qabs_pos by lra. unfold half_unit. lra.
  - unfold px. destruct o1.
    + exists 0%Z, 0%Z. split; reflexivity.
    + exists nx, 0%Z. unfold moved. split; cbn [fst snd]; ring.
  - unfold py. destruct o2.
    + exists 0%Z, 0%Z. split; reflexivity.
    + exists 0%Z, ny. unfold moved. split; cbn [fst snd]; ring.
Qed.

Lemma site_square s : lattice_site (1, 0) (0, 1) [vzero] s <-> exists x y, same_point s (inject_Z x, inject_Z y).
Proof.
  split.
  - intros (a & b & u & [<-|[]] & E). exists a, b. apply (same_trans _ _ _ E). unfold moved, vzero.
    split; cbn [fst snd]; ring.
  - intros (x & y & E). exists x, y, vzero. split; [left; reflexivity|]. apply (same_trans _ _ _ E).
    unfold moved, vzero. split; cbn [fst snd]; ring.
Qed.

Lemma decimal_int z : decimal14 (inject_Z z).
Proof. exists (z * 100000000000000)%Z. rewrite inject_Z_mult. change (inject_Z 100000000000000) with (100000000000000 # 1). ring. Qed.

Lemma sites_square nx ny ph1 ph2 L : (1 <= nx)%Z -> (1 <= ny)%Z ->
  (nx <= 100000000000000)%Z -> (ny <= 100000000000000)%Z ->
  new_lattice (1, 0) (0, 1) [vzero] (inject_Z nx, 0) (0, inject_Z ny) ph1 ph2 = Ok L ->
  exists sites, unique_sites L = Ok sites /\ Forall2 same_point sites (grid nx ny).
Proof.
  intros H1 H2 H3 H4 HL.
  destruct (unique_sites_ok _ _ _ _ _ _ _ _ HL) as (sites & E & S & A & B).
  - exists nx, 0%Z. unfold moved. split; cbn [fst snd]; ring.
  - exists 0%Z, ny. unfold moved. split; cbn [fst snd]; ring.
  - apply px_long; assumption.
  - apply py_long; assumption.
  - exists sites. split; [assumption|]. apply sorted_ext; [assumption|apply grid_sorted'|].
    assert (Gp : generators (inject_Z nx, 0) (0, inject_Z ny)) by exact (gens_xy false false nx ny H1 H2).
    assert (R : forall x y s, same_point s (inject_Z x, inject_Z y) ->
      same_point (round_point (red Positive (inject_Z nx, 0) (0, inject_Z ny) s)) (inject_Z (x mod nx), inject_Z (y mod ny))).
    { intros x y s F. eapply same_trans.
      - apply round_same. eapply same_trans; [apply (red_same_arg Positive _ _ _ _ Gp ltac:(discriminate) F)|].
        apply redP_xy; assumption.
      - split; cbn [round_point fst snd]; apply round14_int. }
    intros t. split.
    + intros (w & Hw & F). destruct (B w Hw) as (s & Hs & G). apply site_square in Hs as (x & y & Hs).
      exists (inject_Z (x mod nx), inject_Z (y mod ny)). split.
      * apply grid_In. exists (x mod nx)%Z, (y mod ny)%Z.
        split; [apply Z.mod_pos_bound; lia|]. split; [apply Z.mod_pos_bound; lia|reflexivity].
      * apply (same_trans _ _ _ F), (same_trans _ _ _ G), R; assumption.
    + intros (w & Hw & F). apply grid_In in Hw as (x & y & Hx & Hy & ->).
      assert (lattice_site (1, 0) (0, 1) [vzero] (inject_Z x, inject_Z y)) as Hs
        by (apply site_square; exists x, y; apply same_refl).
      destruct (A _ Hs) as (r & Hr & G). exists r. split; [assumption|]. apply (same_trans _ _ _ F).
      apply same_sym, (same_trans _ (round_point (red Positive (inject_Z nx, 0) (0, inject_Z ny) (inject_Z x, inject_Z y))));
        [apply same_sym; assumption|].
      pose proof (R x y _ (same_refl _)) as Q. rewrite !Z.mod_small in Q by assumption. assumption.
Qed.

Lemma qb_adj e f : qb (root_rounds_to_1 (inject_Z e * inject_Z e + inject_Z f * inject_Z f)) =
  if (e * e + f * f =? 1)%Z then 1 else 0.
Proof.
  unfold qb, root_rounds_to_1. rewrite <- !inject_Z_mult, <- inject_Z_plus, <- inject_Z_mult.
  set (s := (e * e + f * f)%Z). assert (0 <= s)%Z by (unfold s; nia).
  destruct (Z.eqb_spec s 1) as [->|N]; [reflexivity|].
  match goal with |- (if ?b then _ else _) = _ => destruct b eqn:E; [|reflexivity] end. exfalso.
  rewrite andb_true_iff, !Qle_bool_iff, <- !Zle_Qle in E. unfold ten14 in E. destruct E as [E1 E2].
  change (10 ^ 14)%Z with 100000000000000%Z in *. nia.
Qed.

Lemma Forall2_len {A B} (R : A -> B -> Prop) l l' : Forall2 R l l' -> length l = length l'.
Proof. induction 1; cbn; congruence. Qed.

Section Square.
  Context {Ph : Type} (lattice_phases : lattice -> nat -> (nat -> nat -> Q) -> (nat -> nat -> Q) -> mat Ph)
    (validate_phases : nat -> mat Ph -> bool).

  Lemma same_nth l l' k d d' : Forall2 same_point l l' -> (k < length l)%nat -> same_point (nth k l d) (nth k l' d').
  Proof.
    intros H. revert k. induction H; intros k Hk; cbn [length] in Hk; [lia|].
    destruct k; cbn [nth]; [assumption|]. apply IHForall2. lia.
  Qed.

  Lemma square_ok nx ny ph1 ph2 o1 o2 g : (1 <= nx)%Z -> (1 <= ny)%Z ->
    (2 * nx <= 100000000000000)%Z -> (2 * ny <= 100000000000000)%Z ->
    square_geometry lattice_phases validate_phases nx ny ph1 ph2 o1 o2 = Ok g ->
    g_n g = Z.to_nat (nx * ny) /\ length (g_x g) = g_n g /\ length (g_y g) = g_n g /\
    (nx = 1 -> o1 = true)%Z /\ (ny = 1 -> o2 = true)%Z /\
    nrow (g_adj g) = g_n g /\ ncol (g_adj g) = g_n g /\
    (exists L, g_lat g = Some L /\ lt_p1 L = px o1 nx /\ lt_p2 L = py o2 ny /\ lt_phase1 L = ph1 /\ lt_phase2 L = ph2 /\
       reciprocal_vects (px o1 nx) (py o2 ny) = Ok (lt_r1 L, lt_r2 L) /\
       g_phase g = lattice_phases L (g_n g) (ent (g_xd g)) (ent (g_yd g))) /\
    (forall k, (k < g_n g)%nat -> nth k (g_x g) 0 == inject_Z (site_x ny k) /\ nth k (g_y g) 0 == inject_Z (site_y ny k)) /\
    (forall k l, (k < g_n g)%nat -> (l < g_n g)%nat ->
      ent (g_xd g) k l == (if (l <=? k)%nat then inject_Z (wrap o1 nx (site_x ny k - site_x ny l)) else - inject_Z (wrap o1 nx (site_x ny l - site_x ny k))) /\
      ent (g_yd g) k l == (if (l <=? k)%nat then inject_Z (wrap o2 ny (site_y ny k - site_y ny l)) else - inject_Z (wrap o2 ny (site_y ny l - site_y ny k))) /\
      ent (g_adj g) k l = qb (root_rounds_to_1 (ent (g_xd g) k l * ent (g_xd g) k l + ent (g_yd g) k l * ent (g_yd g) k l))).
  Proof.
    intros H1 H2 H3 H4 H. unfold square_geometry in H.
    destruct ((nx =? 1)%Z && negb o1) eqn:C1; [discriminate|]. destruct ((ny =? 1)%Z && negb o2) eqn:C2; [discriminate|].
    unfold create_lattice_geom in H. apply bind_ok in H as (helper & Hh & H). apply bind_ok in H as (sites & Hs & H).
    apply bind_ok in H as (L & HL & H).
    destruct (sites_square nx ny ph1 ph2 helper H1 H2 ltac:(lia) ltac:(lia) Hh) as (sites' & Hs' & F).
    rewrite Hs in Hs'. injection Hs' as <-.
    assert (Len : length sites = Z.to_nat (nx * ny)).
    { etransitivity; [exact (Forall2_len _ _ _ F)|]. rewrite grid_length. lia. }
    change (new_lattice (1, 0) (0, 1) [vzero] (px o1 nx) (py o2 ny) ph1 ph2 = Ok L) in HL.
    destruct (gens_xy o1 o2 nx ny H1 H2) as (G1 & G2 & _).
    unfold lattice_geometry in H. apply bind_ok in H as (d & Hd & H).
    unfold checked in H. destruct (validate_geometry _ _); [|discriminate]. injection H as <-.
    cbn [g_n g_x g_y g_lat g_phase g_xd g_yd g_adj nrow ncol ent]. rewrite !map_length.
    split; [assumption|]. split; [reflexivity|]. split; [reflexivity|].
    split; [intros ->; destruct o1; [reflexivity|discriminate C1]|].
    split; [intros ->; destruct o2; [reflexivity|discriminate C2]|].
    split; [reflexivity|]. split; [reflexivity|].
    split.
    { exists L. destruct (new_lattice_inv _ _ _ _ _ _ _ _ HL) as (_ & _ & _ & _ & rs & Hrs & EL).
      rewrite EL. cbn. rewrite Hrs, <- surjective_pairing. auto 10. }
    set (X := site_x ny). set (Y := site_y ny).
    assert (P : forall k, (k < length sites)%nat ->
       nth k (map fst sites) 0 == inject_Z (X k) /\ nth k (map snd sites) 0 == inject_Z (Y k)).
    { intros k Hk. rewrite (map_nth fst sites (0, 0) k : nth k (map fst sites) 0 = _), (map_nth snd sites (0, 0) k : nth k (map snd sites) 0 = _).
      pose proof (same_nth _ _ k (0, 0) (0, 0) F Hk) as Q. rewrite grid_nth in Q by lia. exact Q. }
    split; [exact P|].
    intros k l Hk Hl.
    destruct (reduced_distance_ok _ _ _ _ _ _ _ L HL G1 G2 (map fst sites) (map snd sites)) as (d' & Hd' & T).
    { rewrite !map_length. reflexivity. }
    rewrite Hd in Hd'. injection Hd' as <-. rewrite map_length in T.
    destruct (T k l Hk Hl) as (T1 & T2 & _ & _). cbv zeta in T1, T2. cbn [fst snd] in T1, T2.
    assert (Dk : forall i j, (i < length sites)%nat -> (j < length sites)%nat ->
      same_point (red Centered (px o1 nx) (py o2 ny) (diff (map fst sites) (map snd sites) i j))
        (inject_Z (wrap o1 nx (X i - X j)), inject_Z (wrap o2 ny (Y i - Y j)))).
    { intros i j Hi Hj. eapply same_trans.
      - apply (red_same_arg Centered _ _ _ (inject_Z (X i - X j), inject_Z (Y i - Y j)) (gens_xy o1 o2 nx ny H1 H2) ltac:(discriminate)).
        destruct (P i Hi) as [P1 P2], (P j Hj) as [P3 P4]. unfold diff, at_. unfold Z.sub.
        split; cbn [fst snd]; rewrite inject_Z_plus, inject_Z_opp; rewrite ?P1, ?P2, ?P3, ?P4; reflexivity.
      - apply red_xy; assumption. }
    assert (W0 : forall o n, (1 <= n)%Z -> wrap o n 0 = 0%Z).
    { intros o n Hn. unfold wrap. destruct o; [reflexivity|]. rewrite Z.div_small by lia. lia. }
    split; [|split; [|reflexivity]].
    - rewrite T1. destruct (Nat.ltb_spec l k) as [A|A].
      + rewrite (proj2 (Nat.leb_le l k)) by lia. apply (Dk k l Hk Hl).
      + destruct (Nat.ltb_spec k l) as [B|B].
        * rewrite (proj2 (Nat.leb_gt l k)) by lia. rewrite (proj1 (Dk l k Hl Hk)). reflexivity.
        * assert (l = k) by lia. subst l. rewrite Nat.leb_refl, Z.sub_diag, W0 by assumption. reflexivity.
    - rewrite T2. destruct (Nat.ltb_spec l k) as [A|A].
      + rewrite (proj2 (Nat.leb_le l k)) by lia. apply (Dk k l Hk Hl).
      + destruct (Nat.ltb_spec k l) as [B|B].
        * rewrite (proj2 (Nat.leb_gt l k)) by lia. rewrite (proj2 (Dk l k Hl Hk)). reflexivity.
        * assert (l = k) by lia. subst l. rewrite Nat.leb_refl, Z.sub_diag, W0 by assumption. reflexivity.
  Qed.
End Square.

Lemma shortest_opp o n d e : (1 <= n)%Z -> shortest o n d e -> shortest o n (- d) (- e).
Proof.
  unfold shortest. destruct o; [intros; lia|]. intros Hn [A B]. split; [|lia].
  apply Z.mod_divide in A as [k Hk]; [|lia]. apply Z.mod_divide; [lia|]. exists (- k)%Z. lia.
Qed.

Section Square2.
  Context {Ph : Type} (lattice_phases : lattice -> nat -> (nat -> nat -> Q) -> (nat -> nat -> Q) -> mat Ph)
    (validate_phases : nat -> mat Ph -> bool).

  Lemma site_x_range nx ny k : (1 <= ny)%Z -> (k < Z.to_nat (nx * ny))%nat -> (0 <= site_x ny k < nx)%Z.
  Proof.
    intros H Hk. unfold site_x. split; [apply Z.div_pos; lia|]. apply Z.div_lt_upper_bound; lia.
  Qed.
  Lemma site_y_range ny k : (1 <= ny)%Z -> (0 <= site_y ny k < ny)%Z.
  Proof. intros H. unfold site_y. apply Z.mod_pos_bound. lia. Qed.

  Lemma square_displacements nx ny ph1 ph2 o1 o2 g : (1 <= nx)%Z -> (1 <= ny)%Z ->
    (2 * nx <= 100000000000000)%Z -> (2 * ny <= 100000000000000)%Z ->
    square_geometry lattice_phases validate_phases nx ny ph1 ph2 o1 o2 = Ok g ->
    forall k l, (k < g_n g)%nat -> (l < g_n g)%nat ->
      exists e f, ent (g_xd g) k l == inject_Z e /\ ent (g_yd g) k l == inject_Z f /\
        ent (g_xd g) l k == inject_Z (- e) /\ ent (g_yd g) l k == inject_Z (- f) /\
        shortest o1 nx (site_x ny k - site_x ny l) e /\ shortest o2 ny (site_y ny k - site_y ny l) f /\
        ent (g_adj g) k l = (if (e * e + f * f =? 1)%Z then 1 else 0).
  Proof.
    intros H1 H2 H3 H4 H k l Hk Hl.
    destruct (square_ok _ _ nx ny ph1 ph2 o1 o2 g H1 H2 H3 H4 H) as (_ & _ & _ & _ & _ & _ & _ & _ & _ & T).
    destruct (T k l Hk Hl) as (A & B & C). destruct (T l k Hl Hk) as (A' & B' & _).
    assert (W0 : forall o n, (1 <= n)%Z -> wrap o n 0 = 0%Z).
    { intros o n Hn. unfold wrap. destruct o; [reflexivity|]. rewrite Z.div_small by lia. lia. }
    assert (E : exists e f, ent (g_xd g) k l == inject_Z e /\ ent (g_yd g) k l == inject_Z f /\
        ent (g_xd g) l k == inject_Z (- e) /\ ent (g_yd g) l k == inject_Z (- f) /\
        shortest o1 nx (site_x ny k - site_x ny l) e /\ shortest o2 ny (site_y ny k - site_y ny l) f).
    { destruct (Nat.leb_spec l k) as [D|D], (Nat.leb_spec k l) as [D'|D']; try lia.
      - assert (l = k) by lia. subst l. rewrite !Z.sub_diag, !W0 in * by assumption.
        exists 0%Z, 0%Z. repeat (split; [assumption|]).
        pose proof (wrap_shortest o1 nx 0 H1) as Q1. pose proof (wrap_shortest o2 ny 0 H2) as Q2.
        rewrite W0 in Q1, Q2 by assumption. split; assumption.
      - do 2 eexists. split; [exact A|]. split; [exact B|]. rewrite !inject_Z_opp. split; [exact A'|]. split; [exact B'|].
        split; apply wrap_shortest; assumption.
      - exists (- wrap o1 nx (site_x ny l - site_x ny k))%Z, (- wrap o2 ny (site_y ny l - site_y ny k))%Z.
        rewrite !Z.opp_involutive, !inject_Z_opp. repeat (split; [assumption|]).
        replace (site_x ny k - site_x ny l)%Z with (- (site_x ny l - site_x ny k))%Z by ring.
        replace (site_y ny k - site_y ny l)%Z with (- (site_y ny l - site_y ny k))%Z by ring.
        split; apply shortest_opp, wrap_shortest; assumption. }
    destruct E as (e & f & E1 & E2 & E3 & E4 & S1 & S2). exists e, f. repeat (split; [assumption|]).
    rewrite C. rewrite <- qb_adj. f_equal. unfold root_rounds_to_1.
    assert (forall a b c, a == b -> Qle_bool a c = Qle_bool b c) as Q1 by (intros a b c ->; reflexivity).
    assert (forall a b c, a == b -> Qle_bool c a = Qle_bool c b) as Q2 by (intros a b c ->; reflexivity).
    f_equal; [apply Q2|apply Q1]; rewrite E1, E2; reflexivity.
  Qed.

  Lemma square_neighbours nx ny ph1 ph2 o1 o2 g : (1 <= nx)%Z -> (1 <= ny)%Z ->
    (2 * nx <= 100000000000000)%Z -> (2 * ny <= 100000000000000)%Z ->
    square_geometry lattice_phases validate_phases nx ny ph1 ph2 o1 o2 = Ok g ->
    g_n g = Z.to_nat (nx * ny) /\ length (g_x g) = g_n g /\ length (g_y g) = g_n g /\
    nrow (g_adj g) = g_n g /\ ncol (g_adj g) = g_n g /\
    (forall k, (k < g_n g)%nat -> nth k (g_x g) 0 == inject_Z (site_x ny k) /\ nth k (g_y g) 0 == inject_Z (site_y ny k)) /\
    (forall k l, (k < g_n g)%nat -> (l < g_n g)%nat ->
      (ent (g_adj g) k l = 0 \/ ent (g_adj g) k l = 1) /\
      ent (g_adj g) k l = ent (g_adj g) l k /\
      ent (g_adj g) k k = 0 /\
      (ent (g_adj g) k l = 1 <->
        (one_step o1 nx (site_x ny k - site_x ny l) /\ site_y ny k = site_y ny l) \/
        (site_x ny k = site_x ny l /\ one_step o2 ny (site_y ny k - site_y ny l)))).
  Proof.
    intros H1 H2 H3 H4 H.
    destruct (square_ok _ _ nx ny ph1 ph2 o1 o2 g H1 H2 H3 H4 H) as (N & Lx & Ly & O1 & O2 & R & C & _ & P & _).
    split; [assumption|]. split; [assumption|]. split; [assumption|]. split; [assumption|]. split; [assumption|].
    split; [assumption|]. intros k l Hk Hl.
    destruct (square_displacements nx ny ph1 ph2 o1 o2 g H1 H2 H3 H4 H k l Hk Hl) as (e & f & E1 & E2 & _ & _ & S1 & S2 & A).
    destruct (square_displacements nx ny ph1 ph2 o1 o2 g H1 H2 H3 H4 H l k Hl Hk) as (e' & f' & _ & _ & E3 & E4 & _ & _ & A').
    destruct (square_displacements nx ny ph1 ph2 o1 o2 g H1 H2 H3 H4 H k k Hk Hk) as (e0 & f0 & _ & _ & _ & _ & S01 & S02 & A0).
    split; [rewrite A; destruct (_ =? _)%Z; auto|].
    split.
    { rewrite A, A'. rewrite E1 in E3. rewrite E2 in E4. apply (proj1 (inject_Z_injective _ _)) in E3. apply (proj1 (inject_Z_injective _ _)) in E4.
      rewrite E3, E4, !Z.mul_opp_opp. reflexivity. }
    split.
    { rewrite A0. rewrite Z.sub_diag in S01, S02.
      apply (shortest_zero o1 nx 0 e0) in S01; [|assumption|lia]. apply (shortest_zero o2 ny 0 f0) in S02; [|assumption|lia].
      rewrite (proj2 S01 eq_refl), (proj2 S02 eq_refl). reflexivity. }
    rewrite N in Hk, Hl.
    pose proof (site_x_range nx ny k H2 Hk). pose proof (site_x_range nx ny l H2 Hl).
    pose proof (site_y_range ny k H2). pose proof (site_y_range ny l H2).
    rewrite <- (shortest_step o1 nx _ e H1 O1 S1), <- (shortest_step o2 ny _ f H2 O2 S2).
    apply (shortest_zero o1 nx (site_x ny k - site_x ny l) e H1 ltac:(lia)) in S1.
    apply (shortest_zero o2 ny (site_y ny k - site_y ny l) f H2 ltac:(lia)) in S2.
    rewrite A. destruct (Z.eqb_spec (e * e + f * f) 1) as [D|D].
    - split; [intros _|reflexivity].
      assert (e = 0 \/ f = 0)%Z as [Z0|Z0] by nia; subst.
      + right. split; [|nia]. apply proj1 in S1. specialize (S1 eq_refl). lia.
      + left. split; [nia|]. apply proj1 in S2. specialize (S2 eq_refl). lia.
    - split; [discriminate|]. intros [[I J]|[I J]]; exfalso; apply D.
      + apply proj2 in S2. rewrite S2 by lia. nia.
      + apply proj2 in S1. rewrite S1 by lia. nia.
  Qed.

  (** The constructor succeeds unless a periodic axis has one site. *)
  Lemma square_accepts nx ny ph1 ph2 o1 o2 : (1 <= nx)%Z -> (1 <= ny)%Z ->
    (2 * nx <= 100000000000000)%Z -> (2 * ny <= 100000000000000)%Z ->
    (nx = 1 -> o1 = true)%Z -> (ny = 1 -> o2 = true)%Z ->
    (forall L n xd yd, (forall i j, (i < n)%nat -> (j < n)%nat -> xd i j == - xd j i /\ yd i j == - yd j i) ->
       validate_phases n (lattice_phases L n xd yd) = true) ->
    exists g, square_geometry lattice_phases validate_phases nx ny ph1 ph2 o1 o2 = Ok g.
  Proof.
    intros H1 H2 H3 H4 O1 O2 V. unfold square_geometry.
    assert ((nx =? 1)%Z && negb o1 = false) as ->.
    { destruct (Z.eqb_spec nx 1) as [E|E]; [rewrite (O1 E)|]; reflexivity. }
    assert ((ny =? 1)%Z && negb o2 = false) as ->.
    { destruct (Z.eqb_spec ny 1) as [E|E]; [rewrite (O2 E)|]; reflexivity. }
    unfold create_lattice_geom.
    destruct (lat_square nx ny false false ph1 ph2 H1 H2) as [helper Hh].
    destruct (lat_square nx ny o1 o2 ph1 ph2 H1 H2) as [L HL]. unfold px, py in Hh, HL. rewrite Hh. cbn [bind].
    destruct (sites_square nx ny ph1 ph2 helper H1 H2 ltac:(lia) ltac:(lia) Hh) as (sites & Hs & F). rewrite Hs. cbn [bind].
    rewrite HL. cbn [bind]. unfold lattice_geometry.
    destruct (gens_xy o1 o2 nx ny H1 H2) as (G1 & G2 & _).
    destruct (distances _ _ _ _ _ _ _ L HL G1 G2 (map fst sites) (map snd sites)) as (d & Hd & T).
    { rewrite !map_length. reflexivity. }
    rewrite Hd. cbn [bind]. unfold checked.
    assert (validate_geometry validate_phases
      (Geom (Some L) (map fst sites) (map snd sites) (length (map fst sites))
        (Mat (length (map fst sites)) (length (map fst sites)) (d_x d))
        (Mat (length (map fst sites)) (length (map fst sites)) (d_y d))
        (Mat (length (map fst sites)) (length (map fst sites))
           (fun i j => qb (root_rounds_to_1 (d_x d i j * d_x d i j + d_y d i j * d_y d i j))))
        (lattice_phases L (length (map fst sites)) (d_x d) (d_y d))) = true) as ->.
    { unfold validate_geometry. cbn [g_n g_adj g_phase]. rewrite andb_true_iff. split.
      - unfold validate_adjacency, mat_eqb, mtr. cbn [nrow ncol ent]. rewrite !Nat.eqb_refl. cbn [andb].
        rewrite !andb_true_iff. split; [split|].
        + apply forallb_forall. intros i Hi. apply forallb_forall. intros j Hj. apply in_seq in Hi. apply in_seq in Hj.
          destruct (T i j ltac:(lia) ltac:(lia)) as (A & B & _).
          apply Qeq_bool_iff. assert (forall a b, a == b -> qb (root_rounds_to_1 a) == qb (root_rounds_to_1 b)) as X.
          { intros a b E. unfold root_rounds_to_1. rewrite E. reflexivity. }
          apply X. rewrite A, B. ring.
        + apply forallb_forall. intros i Hi. apply forallb_forall. intros j Hj. unfold qb.
          destruct (root_rounds_to_1 _); reflexivity.
        + reflexivity.
      - apply V. intros i j Hi Hj. destruct (T i j Hi Hj) as (A & B & _). split; assumption. }
    eauto.
  Qed.
End Square2.
