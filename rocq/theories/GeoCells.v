(** Triangular, hexagonal and tilted square lattices. *)
From Coq Require Import List Arith Lia QArith Qround Qabs ZArith Bool Lqa Setoid Morphisms Sorting Psatz.
From Verif Require Import Res Matrix ModelGeometry SpecGeometry GeoArith GeoReduce GeoSites GeoSites2 GeoDist GeoSquare SpecCells GeoCount GeoNear GeoTriangle.
Import ListNotations.
Local Open Scope Q_scope.
Arguments Qred : simpl never.
Arguments root_rounds_to_0 : simpl never.
Arguments root_rounds_to_1 : simpl never.
Arguments round14 : simpl never.

Lemma inj_pos n : (1 <= n)%Z -> 1 <= inject_Z n.
Proof. intros H. change 1 with (inject_Z 1). rewrite <- Zle_Qle. assumption. Qed.
Lemma inj_three n : (3 <= n)%Z -> 3 <= inject_Z n.
Proof. intros H. change 3 with (inject_Z 3). rewrite <- Zle_Qle. assumption. Qed.
Lemma bz_zero : is_zero (0, 0). Proof. split; reflexivity. Qed.

Lemma cell_range x n : (1 <= n <= 100000000000000)%Z -> cell Positive (inject_Z x / inject_Z n) = 0%Z -> (0 <= x < n)%Z.
Proof.
  intros H E. rewrite cell_quot in E by lia. pose proof (Z.div_mod x n ltac:(lia)). pose proof (Z.mod_pos_bound x n ltac:(lia)). nia.
Qed.

Lemma quot_bound x y : 0 < y -> Qabs x <= (2 # 5) * y -> Qabs (x / y) <= 2 # 5.
Proof.
  intros H A. apply Qabs_Qle_condition in A. apply Qabs_Qle_condition. split.
  - apply Qle_shift_div_l; [assumption|]. lra.
  - apply Qle_shift_div_r; [assumption|]. lra.
Qed.

Lemma sorted_at (l : list point) : sorted_points l -> forall i j s t, nth_error l i = Some s -> nth_error l j = Some t -> same_point s t -> i = j.
Proof.
  intros S i j s t Hk Hl F. revert i j Hk Hl. induction S as [|v l0 S IH Hv]; intros k l Hk Hl.
  { destruct k; discriminate. }
  rewrite Forall_forall in Hv. destruct k as [|k], l as [|l]; cbn in Hk, Hl.
  - reflexivity.
  - injection Hk as ->. exfalso. apply (before_not_same s t); [apply Hv; eapply nth_error_In; eassumption|assumption].
  - injection Hl as ->. exfalso. apply (before_not_same t s); [apply Hv; eapply nth_error_In; eassumption|apply same_sym; assumption].
  - f_equal. apply IH; assumption.
Qed.

Section Triangle.
  Context {Ph : Type} (lattice_phases : lattice -> nat -> (nat -> nat -> Q) -> (nat -> nat -> Q) -> mat Ph)
    (validate_phases : nat -> mat Ph -> bool).
  Variables (h : Q) (n1 n2 : Z) (ph1 ph2 : Q) (o1 o2 : bool) (g : geometry Ph).
  Hypothesis Hh : triangle_height h.
  Hypothesis N1 : (1 <= n1 <= 100000000000000)%Z.
  Hypothesis N2 : (1 <= n2 <= 100000000000000)%Z.
  Hypothesis HT : triangle_geometry lattice_phases validate_phases h n1 n2 ph1 ph2 o1 o2 = Ok g.

  Let t1 := vscale (inject_Z n1) (1, 0).
  Let t2 := vscale (inject_Z n2) (1 # 2, h).

  Lemma tri_built : create_lattice_geom lattice_phases validate_phases (1, 0) (1 # 2, h) [vzero] t1 t2 ph1 ph2 o1 o2 = Ok g.
  Proof using HT.
    revert HT. unfold triangle_geometry, t1, t2. destruct (_ && _); [discriminate|]. destruct (_ && _); [discriminate|]. auto.
  Qed.
  Lemma tri_v1 : on_grid h (1, 0) 2 0.
  Proof using. split; cbn [fst snd grid_point]; change (inject_Z 0) with 0; change (inject_Z 2) with 2; ring. Qed.
  Lemma tri_v2 : on_grid h (1 # 2, h) 1 1.
  Proof using. split; cbn [fst snd grid_point]; change (inject_Z 1) with 1; ring. Qed.
  Lemma tri_basis : forall u, In u [vzero] -> exists X k, on_grid h u X k.
  Proof using. intros u [<-|[]]. exists 0%Z, 0%Z. split; cbn [fst snd grid_point vzero]; change (inject_Z 0) with 0; ring. Qed.
  Lemma tri_proper : proper_basis (1, 0) (1 # 2, h) [vzero].
  Proof using.
    intros k l u w Hk Hl _. destruct k as [|k]; [|destruct k; discriminate Hk]. destruct l as [|l]; [reflexivity|destruct l; discriminate Hl].
  Qed.
  Lemma tri_p1 : same_point t1 (moved (0, 0) (inject_Z n1) (1, 0) (inject_Z 0) (1 # 2, h)).
  Proof using. unfold t1, same_point, moved, vscale. cbn [fst snd]. rewrite ?Qred_correct. change (inject_Z 0) with 0. split; ring. Qed.
  Lemma tri_p2 : same_point t2 (moved (0, 0) (inject_Z 0) (1, 0) (inject_Z n2) (1 # 2, h)).
  Proof using. unfold t2, same_point, moved, vscale. cbn [fst snd]. rewrite ?Qred_correct. change (inject_Z 0) with 0. split; ring. Qed.
  Lemma tri_l1 : long t1.
  Proof using N1.
    clear - N1. unfold t1, long, sq_norm. cbn [fst snd vscale]. rewrite !Qred_correct. pose proof (inj_pos n1 ltac:(lia)). nra.
  Qed.
  Lemma tri_l2 : long t2.
  Proof using N2 Hh.
    clear - N2 Hh. unfold t2, long, sq_norm. cbn [fst snd vscale]. rewrite !Qred_correct. pose proof (inj_pos n2 ltac:(lia)). pose proof (h_bounds h Hh).
    set (q := inject_Z n2) in *. assert (0 <= q * h * (q * h)) by nra. nra.
  Qed.

  Lemma tri_count : g_n g = (Z.to_nat n1 * Z.to_nat n2)%nat.
  Proof using All.
    rewrite (grid_count lattice_phases validate_phases h _ _ _ _ _ _ _ _ _ g 2 0 1 1 n1 0 0 n2 Hh tri_built tri_v1 tri_v2 tri_basis tri_proper tri_p1 tri_p2 tri_l1 tri_l2).
    cbn [length]. clear - N1 N2. nia.
  Qed.

  Lemma tri_lattice X K : lattice_site (1, 0) (1 # 2, h) [vzero] (grid_point h X K) <-> exists a, X = (2 * a + K)%Z.
  Proof using Hh.
    clear - Hh. split.
    - intros (a & b & u & [<-|[]] & E).
      assert (G : on_grid h vzero 0 0) by (split; cbn [fst snd grid_point vzero]; change (inject_Z 0) with 0; ring).
      pose proof (grid_moved h _ _ 2 0 1 1 tri_v1 tri_v2 vzero 0 0 (grid_point h X K) G a b E) as F.
      destruct (grid_same h Hh (grid_point h X K) X K _ _ (same_refl _) F). exists a. lia.
    - intros [a ->]. exists a, K, vzero. split; [left; reflexivity|].
      split; cbn [fst snd grid_point moved vzero]; [rewrite inject_Z_plus, inject_Z_mult; change (inject_Z 2) with 2|]; ring.
  Qed.

  Lemma tri_coordinates a b : coordinates t1 t2 (grid_point h (2 * a + b) b) (inject_Z a / inject_Z n1) (inject_Z b / inject_Z n2).
  Proof using Hh N1 N2.
    clear HT. pose proof tri_l1 as L1. pose proof tri_l2 as L2. pose proof (inj_pos n1 ltac:(lia)). pose proof (inj_pos n2 ltac:(lia)).
    unfold coordinates. repeat match goal with |- _ /\ _ => split end; intros;
      try (exfalso; match goal with H : is_zero t1 |- _ => exact (zero_not_long _ H L1) | H : is_zero t2 |- _ => exact (zero_not_long _ H L2) end).
    unfold t1, t2, same_point, moved, grid_point, vscale. cbn [fst snd]. rewrite ?Qred_correct. rewrite inject_Z_plus, inject_Z_mult. change (inject_Z 2) with 2.
    split; field; lra.
  Qed.

  (** The sites are the points a v1 + b v2 of the cell. *)
  Lemma tri_site k : (k < g_n g)%nat -> exists a b, (0 <= a < n1)%Z /\ (0 <= b < n2)%Z /\ stands h (spot g k) (2 * a + b) b /\
    snd (spot g k) == round14 (inject_Z b * h).
  Proof using All.
    intros Hk.
    destruct (grid_sites lattice_phases validate_phases h _ _ _ _ _ _ _ _ _ g 2 0 1 1 n1 0 0 n2 Hh tri_built tri_v1 tri_v2 tri_basis tri_proper tri_p1 tri_p2 tri_l1 tri_l2) as (A & _).
    destruct (A k Hk) as (X & K & S & R & Ls & C). apply tri_lattice in Ls as [a ->].
    destruct (C _ _ (tri_coordinates a K)) as [C1 C2]. apply (cell_range _ _ N1) in C1. apply (cell_range _ _ N2) in C2.
    exists a, K. auto.
  Qed.
  Lemma tri_site_exists a b : (0 <= a < n1)%Z -> (0 <= b < n2)%Z -> exists k, (k < g_n g)%nat /\ stands h (spot g k) (2 * a + b) b.
  Proof using All.
    intros Ha Hb.
    destruct (grid_sites lattice_phases validate_phases h _ _ _ _ _ _ _ _ _ g 2 0 1 1 n1 0 0 n2 Hh tri_built tri_v1 tri_v2 tri_basis tri_proper tri_p1 tri_p2 tri_l1 tri_l2) as (_ & A & _).
    destruct (A (2 * a + b)%Z b) as (k & c & d & Hk & S); [apply tri_lattice; exists a; reflexivity|].
    exists k. split; [assumption|]. destruct (tri_site k Hk) as (a' & b' & Ha' & Hb' & S' & _).
    destruct (stands_unique h Hh _ _ _ _ _ S S') as [E F].
    assert (d = 0)%Z by (clear - Hb Hb' F N2; nia). subst d. assert (c = 0)%Z by (clear - Ha Ha' E F N1; nia). subst c.
    replace (2 * a + b)%Z with (2 * a' + b')%Z by lia. replace b with b' by lia. assumption.
  Qed.
  Lemma tri_site_unique k l X K : (k < g_n g)%nat -> (l < g_n g)%nat -> stands h (spot g k) X K -> stands h (spot g l) X K -> k = l.
  Proof using All.
    intros Hk Hl S T.
    destruct (grid_sites lattice_phases validate_phases h _ _ _ _ _ _ _ _ _ g 2 0 1 1 n1 0 0 n2 Hh tri_built tri_v1 tri_v2 tri_basis tri_proper tri_p1 tri_p2 tri_l1 tri_l2) as (_ & _ & A & _).
    apply (A k l X K 0%Z 0%Z Hk Hl S). rewrite !Z.mul_0_l, !Z.add_0_r. assumption.
  Qed.

  Lemma tri_sound k l a b a' b' : (k < g_n g)%nat -> (l < g_n g)%nat ->
    stands h (spot g k) (2 * a + b) b -> stands h (spot g l) (2 * a' + b') b' -> ent (g_adj g) k l = 1 ->
    exists c d, (o1 = true -> c = 0)%Z /\ (o2 = true -> d = 0)%Z /\ triangular_step (a - a' + c * n1) (b - b' + d * n2).
  Proof using All.
    intros Hk Hl S T H.
    destruct (grid_sound lattice_phases validate_phases h _ _ _ _ _ _ _ _ _ g 2 0 1 1 n1 0 0 n2 Hh tri_built tri_v1 tri_v2 tri_basis tri_proper tri_p1 tri_p2 tri_l1 tri_l2
      k l _ _ _ _ Hk Hl S T H) as (c & d & Hc & Hd & U).
    exists c, d. split; [assumption|]. split; [assumption|]. clear - U. unfold unit_step, triangular_step in *. lia.
  Qed.

  Lemma tri_wide : (o1 = false -> 3 <= n1)%Z -> (o2 = false -> 3 <= n2)%Z -> wide h t1 t2 o1 o2.
  Proof using Hh N1 N2.
    clear HT. pose proof tri_l1 as L1. pose proof tri_l2 as L2. pose proof (h_bounds h Hh) as [H1 H2]. destruct Hh as [_ Hs]. apply Qabs_Qle_condition in Hs.
    pose proof (inj_pos n1 ltac:(lia)) as P1. pose proof (inj_pos n2 ltac:(lia)) as P2.
    intros M1 M2 A B e U He. apply Qabs_Qle_condition in He.
    destruct o1, o2; cbn [boundary].
    - exists 0, 0. split; [|split; discriminate].
      unfold coordinates. repeat match goal with |- _ /\ _ => split end; intros; try reflexivity;
        exfalso; match goal with H : long vzero |- _ => exact (zero_not_long _ bz_zero H) end.
    - assert (Q : 0 < inject_Z n2 * ((1 # 4) + h * h)) by nra.
      exists 0, ((inject_Z A * (1 # 4) + h * (inject_Z B * h + e)) / (inject_Z n2 * ((1 # 4) + h * h))).
      split; [|split; [discriminate|]].
      + unfold coordinates. repeat match goal with |- _ /\ _ => split end; intros; try reflexivity;
          try (exfalso; match goal with H : long vzero |- _ => exact (zero_not_long _ bz_zero H) | H : is_zero t2 |- _ => exact (zero_not_long _ H L2) end).
        unfold t2, sq_norm, dot, vscale. cbn [fst snd]. rewrite ?Qred_correct. field. split; [nra|lra].
      + apply quot_bound; [assumption|]. specialize (M2 eq_refl). apply inj_three in M2.
        assert (K : Qabs (inject_Z A * (1 # 4) + h * (inject_Z B * h + e)) <= 1 + (1 # 1000)).
        { apply Qabs_Qle_condition.
          destruct U as [[[-> | ->] ->]|[[-> | ->] [-> | ->]]];
            change (inject_Z 0) with 0 in *; change (inject_Z 1) with 1 in *; change (inject_Z 2) with 2 in *;
            change (inject_Z (-1)) with (-(1)) in *; change (inject_Z (-2)) with (-(2)) in *; split; nra. }
        apply (Qle_trans _ _ _ K). nra.
    - assert (Q : 0 < inject_Z n1) by lra.
      exists (inject_Z A * (1 # 2) / inject_Z n1), 0. split; [|split; [|discriminate]].
      + unfold coordinates. repeat match goal with |- _ /\ _ => split end; intros; try reflexivity;
          try (exfalso; match goal with H : long vzero |- _ => exact (zero_not_long _ bz_zero H) | H : is_zero t1 |- _ => exact (zero_not_long _ H L1) end).
        unfold t1, sq_norm, dot, vscale. cbn [fst snd]. rewrite ?Qred_correct. field. lra.
      + apply quot_bound; [assumption|]. specialize (M1 eq_refl). apply inj_three in M1.
        assert (K : Qabs (inject_Z A * (1 # 2)) <= 1).
        { destruct U as [[[-> | ->] _]|[[-> | ->] _]]; discriminate. }
        apply (Qle_trans _ _ _ K). nra.
    - assert (Q1 : 0 < inject_Z n1) by lra. assert (Q2 : 0 < inject_Z n2) by lra.
      specialize (M1 eq_refl). apply inj_three in M1. specialize (M2 eq_refl). apply inj_three in M2.
      assert (F : -(1 # 1000) <= e / h <= 1 # 1000).
      { split; [apply Qle_shift_div_l|apply Qle_shift_div_r]; nra. }
      exists (((inject_Z A - inject_Z B) * (1 # 2) - e / h * (1 # 2)) / inject_Z n1), ((inject_Z B + e / h) / inject_Z n2).
      split; [|split].
      + unfold coordinates. repeat match goal with |- _ /\ _ => split end; intros;
          try (exfalso; match goal with H : is_zero t1 |- _ => exact (zero_not_long _ H L1) | H : is_zero t2 |- _ => exact (zero_not_long _ H L2) end).
        unfold t1, t2, same_point, moved, vscale. cbn [fst snd]. rewrite ?Qred_correct. split; field; lra.
      + apply quot_bound; [assumption|].
        assert (K : Qabs ((inject_Z A - inject_Z B) * (1 # 2) - e / h * (1 # 2)) <= 1 + (1 # 1000)).
        { apply Qabs_Qle_condition. set (x := e / h) in *.
          destruct U as [[[-> | ->] ->]|[[-> | ->] [-> | ->]]];
            change (inject_Z 0) with 0 in *; change (inject_Z 1) with 1 in *; change (inject_Z 2) with 2 in *;
            change (inject_Z (-1)) with (-(1)) in *; change (inject_Z (-2)) with (-(2)) in *; split; lra. }
        apply (Qle_trans _ _ _ K). nra.
      + apply quot_bound; [assumption|].
        assert (K : Qabs (inject_Z B + e / h) <= 1 + (1 # 1000)).
        { apply Qabs_Qle_condition. set (x := e / h) in *.
          destruct U as [[_ ->]|[_ [-> | ->]]];
            change (inject_Z 0) with 0 in *; change (inject_Z 1) with 1 in *;
            change (inject_Z (-1)) with (-(1)) in *; split; lra. }
        apply (Qle_trans _ _ _ K). nra.
  Qed.

  Lemma tri_complete k l a b a' b' c d : (o1 = false -> 3 <= n1)%Z -> (o2 = false -> 3 <= n2)%Z ->
    (k < g_n g)%nat -> (l < g_n g)%nat ->
    stands h (spot g k) (2 * a + b) b -> stands h (spot g l) (2 * a' + b') b' ->
    (o1 = true -> c = 0)%Z -> (o2 = true -> d = 0)%Z -> triangular_step (a - a' + c * n1) (b - b' + d * n2) ->
    rows_apart h (spot g k) (spot g l) (b - b') -> ent (g_adj g) k l = 1.
  Proof using All.
    intros M1 M2 Hk Hl S T Hc Hd U R.
    destruct (tri_site k Hk) as (ak & bk & Ak & Bk & Sk & Rk). destruct (tri_site l Hl) as (al & bl & Al & Bl & Sl & Rl).
    destruct (stands_unique h Hh _ _ _ _ _ S Sk) as [_ <-]. destruct (stands_unique h Hh _ _ _ _ _ T Sl) as [_ <-].
    apply (grid_complete lattice_phases validate_phases h _ _ _ _ _ _ _ _ _ g 2 0 1 1 n1 0 0 n2 Hh tri_built tri_v1 tri_v2 tri_basis tri_proper tri_p1 tri_p2 tri_l1 tri_l2
      k l _ _ _ _ c d (tri_wide M1 M2) Hk Hl S T Hc Hd); [|assumption|].
    - clear - U. unfold unit_step, triangular_step in *. lia.
    - intros E. assert (d = 0)%Z by (clear - E Bk Bl; nia). assert (b = b')%Z by (clear - E H; nia). subst b' d.
      rewrite Rk, Rl. rewrite Z.sub_diag. change (inject_Z 0) with 0. ring.
  Qed.

  Lemma tri_rows k l b b' X X' : (k < g_n g)%nat -> (l < g_n g)%nat -> stands h (spot g k) X b -> stands h (spot g l) X' b' ->
    (0 <= b < n2)%Z /\ snd (spot g k) == round14 (inject_Z b * h) /\ (0 <= b' < n2)%Z /\ snd (spot g l) == round14 (inject_Z b' * h).
  Proof using All.
    intros Hk Hl S T.
    destruct (tri_site k Hk) as (ak & bk & Ak & Bk & Sk & Rk). destruct (tri_site l Hl) as (al & bl & Al & Bl & Sl & Rl).
    destruct (stands_unique h Hh _ _ _ _ _ S Sk) as [_ <-]. destruct (stands_unique h Hh _ _ _ _ _ T Sl) as [_ <-]. auto.
  Qed.
End Triangle.

Section Hexagon.
  Context {Ph : Type} (lattice_phases : lattice -> nat -> (nat -> nat -> Q) -> (nat -> nat -> Q) -> mat Ph)
    (validate_phases : nat -> mat Ph -> bool).
  Variables (h : Q) (n1 n2 : Z) (ph1 ph2 : Q) (o1 o2 : bool) (g : geometry Ph).
  Hypothesis Hh : triangle_height h.
  Hypothesis N1 : (1 <= n1 /\ 6 * n1 <= 100000000000000)%Z.
  Hypothesis N2 : (1 <= n2 /\ 2 * n2 <= 100000000000000)%Z.
  Hypothesis HT : hexagonal_geometry lattice_phases validate_phases h n1 n2 ph1 ph2 o1 o2 = Ok g.

  Let v1 : vec := (3 # 2, h).
  Let v2 : vec := (3 # 2, - h).
  Let bs : list vec := [(-(1), 0); (-(1 # 2), h)].
  Let t1 := vscale (inject_Z n1) (3, 0).
  Let t2 := vscale (inject_Z n2) (0, 2 * h).

  Lemma hex_built : create_lattice_geom lattice_phases validate_phases v1 v2 bs t1 t2 ph1 ph2 o1 o2 = Ok g.
  Proof using HT.
    revert HT. unfold hexagonal_geometry, t1, t2. destruct (_ && _); [discriminate|]. destruct (_ && _); [discriminate|]. auto.
  Qed.
  Lemma hex_two : (n2 = 1 -> o2 = true)%Z.
  Proof using HT.
    revert HT. unfold hexagonal_geometry. clear. destruct (_ && _); [discriminate|]. intros H ->. revert H. destruct o2; [reflexivity|discriminate].
  Qed.
  Lemma hex_v1 : on_grid h v1 3 1.
  Proof using. split; cbn [fst snd grid_point v1]; change (inject_Z 3) with 3; change (inject_Z 1) with 1; ring. Qed.
  Lemma hex_v2 : on_grid h v2 3 (-1).
  Proof using. split; cbn [fst snd grid_point v2]; change (inject_Z 3) with 3; change (inject_Z (-1)) with (-(1)); ring. Qed.
  Lemma hex_b1 : on_grid h (-(1), 0) (-2) 0.
  Proof using. split; cbn [fst snd grid_point]; change (inject_Z (-2)) with (-(2)); change (inject_Z 0) with 0; ring. Qed.
  Lemma hex_b2 : on_grid h (-(1 # 2), h) (-1) 1.
  Proof using. split; cbn [fst snd grid_point]; change (inject_Z (-1)) with (-(1)); change (inject_Z 1) with 1; ring. Qed.
  Lemma hex_basis : forall u, In u bs -> exists X k, on_grid h u X k.
  Proof using. intros u [<-|[<-|[]]]; [exists (-2)%Z, 0%Z; apply hex_b1|exists (-1)%Z, 1%Z; apply hex_b2]. Qed.
  Lemma hex_proper : proper_basis v1 v2 bs.
  Proof using Hh.
    intros k l u w Hk Hl E.
    assert (X : forall a b c d u w, on_grid h u a b -> on_grid h w c d -> equivalent v1 v2 u w -> exists z, (c - a = 3 * z)%Z).
    { clear N1 N2 HT E Hk Hl k l u w. intros a b c d u w U W (x & y & E).
      pose proof (grid_moved h v1 v2 3 1 3 (-1) hex_v1 hex_v2 u a b w U x y E) as F.
      destruct (grid_same h Hh w _ _ _ _ W F). exists (x + y)%Z. lia. }
    destruct k as [|[|k]]; [| |destruct k; discriminate Hk]; (destruct l as [|[|l]]; [| |destruct l; discriminate Hl]);
      try reflexivity; exfalso; cbn [nth_error bs] in Hk, Hl; injection Hk as <-; injection Hl as <-.
    - destruct (X _ _ _ _ _ _ hex_b1 hex_b2 E). lia.
    - destruct (X _ _ _ _ _ _ hex_b2 hex_b1 E). lia.
  Qed.
  Lemma hex_p1 : same_point t1 (moved (0, 0) (inject_Z n1) v1 (inject_Z n1) v2).
  Proof using. unfold t1, v1, v2, same_point, moved, vscale. cbn [fst snd]. rewrite !Qred_correct. split; ring. Qed.
  Lemma hex_p2 : same_point t2 (moved (0, 0) (inject_Z n2) v1 (inject_Z (- n2)) v2).
  Proof using. unfold t2, v1, v2, same_point, moved, vscale. cbn [fst snd]. rewrite !Qred_correct, inject_Z_opp. split; ring. Qed.
  Lemma hex_l1 : long t1.
  Proof using N1.
    clear - N1. unfold t1, long, sq_norm. cbn [fst snd vscale]. rewrite !Qred_correct. pose proof (inj_pos n1 ltac:(lia)). nra.
  Qed.
  Lemma hex_l2 : long t2.
  Proof using N2 Hh.
    clear - N2 Hh. unfold t2, long, sq_norm. cbn [fst snd vscale]. rewrite !Qred_correct. pose proof (inj_pos n2 ltac:(lia)). pose proof (h_bounds h Hh).
    set (q := inject_Z n2) in *. assert (1 <= q * (2 * h)) by nra. nra.
  Qed.

  Lemma hex_count : g_n g = (4 * Z.to_nat n1 * Z.to_nat n2)%nat.
  Proof using All.
    rewrite (grid_count lattice_phases validate_phases h _ _ _ _ _ _ _ _ _ g 3 1 3 (-1) n1 n1 n2 (- n2) Hh hex_built hex_v1 hex_v2 hex_basis hex_proper hex_p1 hex_p2 hex_l1 hex_l2).
    cbn [length bs]. clear - N1 N2. nia.
  Qed.

  Lemma hex_lattice X K : lattice_site v1 v2 bs (grid_point h X K) <-> corner X K.
  Proof using Hh.
    clear N1 N2 HT. split.
    - intros (a & b & u & [<-|[<-|[]]] & E).
      + pose proof (grid_moved h v1 v2 3 1 3 (-1) hex_v1 hex_v2 _ _ _ (grid_point h X K) hex_b1 a b E) as F.
        destruct (grid_same h Hh (grid_point h X K) X K _ _ (same_refl _) F). split; [exists (a + 2 * b - 1)%Z|intros [z Hz]]; lia.
      + pose proof (grid_moved h v1 v2 3 1 3 (-1) hex_v1 hex_v2 _ _ _ (grid_point h X K) hex_b2 a b E) as F.
        destruct (grid_same h Hh (grid_point h X K) X K _ _ (same_refl _) F). split; [exists (a + 2 * b - 1)%Z|intros [z Hz]]; lia.
    - intros [[z Hz] N]. pose proof (Z.div_mod (X + 2) 3 ltac:(lia)) as D. pose proof (Z.mod_pos_bound (X + 2) 3 ltac:(lia)) as B.
      set (s := ((X + 2) / 3)%Z) in *. set (r := ((X + 2) mod 3)%Z) in *. clearbody s r.
      assert (r = 0 \/ r = 1 \/ r = 2)%Z as [R|[R|R]] by lia.
      + assert (X = 3 * s - 2)%Z by lia. exists (2 * s - 1 - z)%Z, (1 + z - s)%Z, (-(1), 0). split; [left; reflexivity|].
        assert (K = (2 * s - 1 - z) - (1 + z - s))%Z as -> by lia. subst X.
        assert (3 * s - 2 = -2 + 3 * (2 * s - 1 - z) + 3 * (1 + z - s))%Z as -> by lia.
        set (a := (2 * s - 1 - z)%Z). set (b := (1 + z - s)%Z). unfold same_point, grid_point, moved, v1, v2. cbn [fst snd].
        unfold Z.sub. rewrite !inject_Z_plus, !inject_Z_mult, inject_Z_opp. change (inject_Z (-2)) with (-(2)). change (inject_Z 3) with 3. split; ring.
      + assert (X = 3 * s - 1)%Z by lia. exists (2 * s - 1 - z)%Z, (1 + z - s)%Z, (-(1 # 2), h). split; [right; left; reflexivity|].
        assert (K = 1 + (2 * s - 1 - z) - (1 + z - s))%Z as -> by lia. subst X.
        assert (3 * s - 1 = -1 + 3 * (2 * s - 1 - z) + 3 * (1 + z - s))%Z as -> by lia.
        set (a := (2 * s - 1 - z)%Z). set (b := (1 + z - s)%Z). unfold same_point, grid_point, moved, v1, v2. cbn [fst snd].
        unfold Z.sub. rewrite !inject_Z_plus, !inject_Z_mult, inject_Z_opp. change (inject_Z (-1)) with (-(1)). change (inject_Z 3) with 3.
        change (inject_Z 1) with 1. split; ring.
      + exfalso. apply N. exists s. lia.
  Qed.

  Lemma hex_coordinates X K : coordinates t1 t2 (grid_point h X K) (inject_Z X / inject_Z (6 * n1)) (inject_Z K / inject_Z (2 * n2)).
  Proof using Hh N1 N2.
    pose proof hex_l1 as L1. pose proof hex_l2 as L2. pose proof (inj_pos n1 ltac:(lia)). pose proof (inj_pos n2 ltac:(lia)).
    unfold coordinates. repeat match goal with |- _ /\ _ => split end; intros;
      try (exfalso; match goal with H : is_zero t1 |- _ => exact (zero_not_long _ H L1) | H : is_zero t2 |- _ => exact (zero_not_long _ H L2) end).
    unfold t1, t2, same_point, moved, grid_point, vscale. cbn [fst snd]. rewrite !Qred_correct, !inject_Z_mult.
    change (inject_Z 2) with 2. change (inject_Z 6) with 6. split; field; lra.
  Qed.

  (** The sites are the corners of hexagons in the cell. *)
  Lemma hex_site k : (k < g_n g)%nat -> exists X K, (0 <= X < 6 * n1)%Z /\ (0 <= K < 2 * n2)%Z /\ corner X K /\ stands h (spot g k) X K /\
    snd (spot g k) == round14 (inject_Z K * h).
  Proof using All.
    intros Hk.
    destruct (grid_sites lattice_phases validate_phases h _ _ _ _ _ _ _ _ _ g 3 1 3 (-1) n1 n1 n2 (- n2) Hh hex_built hex_v1 hex_v2 hex_basis hex_proper hex_p1 hex_p2 hex_l1 hex_l2) as (A & _).
    destruct (A k Hk) as (X & K & S & R & Ls & C). apply hex_lattice in Ls.
    destruct (C _ _ (hex_coordinates X K)) as [C1 C2]. apply cell_range in C1; [|lia]. apply cell_range in C2; [|lia].
    exists X, K. auto.
  Qed.
  Lemma hex_site_exists X K : (0 <= X < 6 * n1)%Z -> (0 <= K < 2 * n2)%Z -> corner X K -> exists k, (k < g_n g)%nat /\ stands h (spot g k) X K.
  Proof using All.
    intros Ha Hb Co.
    destruct (grid_sites lattice_phases validate_phases h _ _ _ _ _ _ _ _ _ g 3 1 3 (-1) n1 n1 n2 (- n2) Hh hex_built hex_v1 hex_v2 hex_basis hex_proper hex_p1 hex_p2 hex_l1 hex_l2) as (_ & A & _).
    destruct (A X K) as (k & c & d & Hk & S); [apply hex_lattice; assumption|].
    exists k. split; [assumption|]. destruct (hex_site k Hk) as (a' & b' & Ha' & Hb' & _ & S' & _).
    destruct (stands_unique h Hh _ _ _ _ _ S S') as [E F].
    assert (d = 0)%Z by (clear - Hb Hb' F N2; nia). subst d. assert (c = 0)%Z by (clear - Ha Ha' E F N1; nia). subst c.
    replace X with a' by lia. replace K with b' by lia. assumption.
  Qed.
  Lemma hex_site_unique k l X K : (k < g_n g)%nat -> (l < g_n g)%nat -> stands h (spot g k) X K -> stands h (spot g l) X K -> k = l.
  Proof using All.
    intros Hk Hl S T.
    destruct (grid_sites lattice_phases validate_phases h _ _ _ _ _ _ _ _ _ g 3 1 3 (-1) n1 n1 n2 (- n2) Hh hex_built hex_v1 hex_v2 hex_basis hex_proper hex_p1 hex_p2 hex_l1 hex_l2) as (_ & _ & A & _).
    apply (A k l X K 0%Z 0%Z Hk Hl S). rewrite !Z.mul_0_l, !Z.add_0_r. assumption.
  Qed.

  Lemma hex_sound k l X K X' K' : (k < g_n g)%nat -> (l < g_n g)%nat ->
    stands h (spot g k) X K -> stands h (spot g l) X' K' -> ent (g_adj g) k l = 1 ->
    exists c d, (o1 = true -> c = 0)%Z /\ (o2 = true -> d = 0)%Z /\ unit_step (X - X' + c * (6 * n1)) (K - K' + d * (2 * n2)).
  Proof using All.
    intros Hk Hl S T H.
    destruct (grid_sound lattice_phases validate_phases h _ _ _ _ _ _ _ _ _ g 3 1 3 (-1) n1 n1 n2 (- n2) Hh hex_built hex_v1 hex_v2 hex_basis hex_proper hex_p1 hex_p2 hex_l1 hex_l2
      k l _ _ _ _ Hk Hl S T H) as (c & d & Hc & Hd & U).
    exists c, d. split; [assumption|]. split; [assumption|]. clear - U. unfold unit_step in *. lia.
  Qed.

  Lemma hex_wide : wide h t1 t2 o1 o2.
  Proof using Hh N1 N2 HT.
    pose proof hex_two as M2. clear HT.
    pose proof hex_l1 as L1. pose proof hex_l2 as L2. pose proof (h_bounds h Hh) as [H1 H2]. destruct Hh as [_ Hs]. apply Qabs_Qle_condition in Hs.
    pose proof (inj_pos n1 ltac:(lia)) as P1. pose proof (inj_pos n2 ltac:(lia)) as P2.
    intros A B e U He. apply Qabs_Qle_condition in He.
    assert (F : -(1 # 1000) <= e / h <= 1 # 1000).
    { split; [apply Qle_shift_div_l|apply Qle_shift_div_r]; nra. }
    assert (Q1 : 0 < 3 * inject_Z n1) by lra. assert (Q2 : 0 < 2 * inject_Z n2) by lra.
    assert (Ka : Qabs (inject_Z A * (1 # 2) / (3 * inject_Z n1)) <= 2 # 5).
    { apply quot_bound; [assumption|]. assert (K : Qabs (inject_Z A * (1 # 2)) <= 1).
      { destruct U as [[[-> | ->] _]|[[-> | ->] _]]; discriminate. }
      apply (Qle_trans _ _ _ K). lra. }
    assert (Kb : o2 = false -> Qabs ((inject_Z B + e / h) / (2 * inject_Z n2)) <= 2 # 5).
    { intros O. apply quot_bound; [assumption|].
      assert (T2 : 2 <= inject_Z n2).
      { change 2 with (inject_Z 2). rewrite <- Zle_Qle. destruct (Z.eq_dec n2 1) as [E|E]; [rewrite (M2 E) in O; discriminate|lia]. }
      assert (K : Qabs (inject_Z B + e / h) <= 1 + (1 # 1000)).
      { apply Qabs_Qle_condition. set (x := e / h) in *.
        destruct U as [[_ ->]|[_ [-> | ->]]];
          change (inject_Z 0) with 0 in *; change (inject_Z 1) with 1 in *;
          change (inject_Z (-1)) with (-(1)) in *; split; lra. }
      apply (Qle_trans _ _ _ K). lra. }
    exists (if o1 then 0 else inject_Z A * (1 # 2) / (3 * inject_Z n1)), (if o2 then 0 else (inject_Z B + e / h) / (2 * inject_Z n2)).
    split; [|split; [destruct o1; [discriminate|assumption]|destruct o2; [discriminate|auto]]].
    destruct o1, o2; cbn [boundary]; unfold coordinates; repeat match goal with |- _ /\ _ => split end; intros; try reflexivity;
      try (exfalso; match goal with H : long vzero |- _ => exact (zero_not_long _ bz_zero H)
        | H : is_zero t1 |- _ => exact (zero_not_long _ H L1) | H : is_zero t2 |- _ => exact (zero_not_long _ H L2) end);
      unfold t1, t2, sq_norm, dot, vscale, same_point, moved; cbn [fst snd]; rewrite !Qred_correct; try split; field; lra.
  Qed.

  Lemma hex_complete k l X K X' K' c d : (k < g_n g)%nat -> (l < g_n g)%nat ->
    stands h (spot g k) X K -> stands h (spot g l) X' K' ->
    (o1 = true -> c = 0)%Z -> (o2 = true -> d = 0)%Z -> unit_step (X - X' + c * (6 * n1)) (K - K' + d * (2 * n2)) ->
    rows_apart h (spot g k) (spot g l) (K - K') -> ent (g_adj g) k l = 1.
  Proof using All.
    intros Hk Hl S T Hc Hd U R.
    destruct (hex_site k Hk) as (ak & bk & Ak & Bk & _ & Sk & Rk). destruct (hex_site l Hl) as (al & bl & Al & Bl & _ & Sl & Rl).
    destruct (stands_unique h Hh _ _ _ _ _ S Sk) as [_ <-]. destruct (stands_unique h Hh _ _ _ _ _ T Sl) as [_ <-].
    apply (grid_complete lattice_phases validate_phases h _ _ _ _ _ _ _ _ _ g 3 1 3 (-1) n1 n1 n2 (- n2) Hh hex_built hex_v1 hex_v2 hex_basis hex_proper hex_p1 hex_p2 hex_l1 hex_l2
      k l _ _ _ _ c d hex_wide Hk Hl S T Hc Hd); [|assumption|].
    - clear - U. unfold unit_step in *. lia.
    - intros E. assert (d = 0)%Z by (clear - E Bk Bl; nia). assert (K = K')%Z by (clear - E H; nia). subst K' d.
      rewrite Rk, Rl. rewrite Z.sub_diag. change (inject_Z 0) with 0. ring.
  Qed.

  Lemma hex_rows k l K K' X X' : (k < g_n g)%nat -> (l < g_n g)%nat -> stands h (spot g k) X K -> stands h (spot g l) X' K' ->
    (0 <= K < 2 * n2)%Z /\ snd (spot g k) == round14 (inject_Z K * h) /\ (0 <= K' < 2 * n2)%Z /\ snd (spot g l) == round14 (inject_Z K' * h).
  Proof using All.
    intros Hk Hl S T.
    destruct (hex_site k Hk) as (ak & bk & Ak & Bk & _ & Sk & Rk). destruct (hex_site l Hl) as (al & bl & Al & Bl & _ & Sl & Rl).
    destruct (stands_unique h Hh _ _ _ _ _ S Sk) as [_ <-]. destruct (stands_unique h Hh _ _ _ _ _ T Sl) as [_ <-]. auto.
  Qed.
End Hexagon.

Section Tilted.
  Context {Ph : Type} (lattice_phases : lattice -> nat -> (nat -> nat -> Q) -> (nat -> nat -> Q) -> mat Ph)
    (validate_phases : nat -> mat Ph -> bool).
  Variables (nr nu : Z) (ph1 ph2 : Q) (o1 o2 : bool) (g : geometry Ph).
  Let N := (nr * nr + nu * nu)%Z.
  Hypothesis HN : (1 <= N <= 100000000000000)%Z.
  Hypothesis HT : tilted_geometry lattice_phases validate_phases nr nu ph1 ph2 o1 o2 = Ok g.

  Let t1 : vec := (inject_Z nr, inject_Z nu).
  Let t2 : vec := (inject_Z (- nu), inject_Z nr).
  Definition ipoint (x y : Z) : point := (inject_Z x, inject_Z y).

  Lemma til_built : create_lattice_geom lattice_phases validate_phases (1, 0) (0, 1) [vzero] t1 t2 ph1 ph2 o1 o2 = Ok g.
  Proof using HT. exact HT. Qed.
  Lemma til_norm : 1 <= inject_Z nr * inject_Z nr + inject_Z nu * inject_Z nu.
  Proof using HN.
    clear - HN. rewrite <- !inject_Z_mult, <- inject_Z_plus. apply inj_pos. unfold N in HN. lia.
  Qed.
  Lemma til_l1 : long t1.
  Proof using HN. clear HT. pose proof til_norm. unfold long, sq_norm, t1. cbn [fst snd]. lra. Qed.
  Lemma til_l2 : long t2.
  Proof using HN. clear HT. pose proof til_norm. unfold long, sq_norm, t2. cbn [fst snd]. rewrite inject_Z_opp. lra. Qed.
  Lemma til_p1 : same_point t1 (moved (0, 0) (inject_Z nr) (1, 0) (inject_Z nu) (0, 1)).
  Proof using. clear. unfold t1. split; cbn [fst snd moved]; ring. Qed.
  Lemma til_p2 : same_point t2 (moved (0, 0) (inject_Z (- nu)) (1, 0) (inject_Z nr) (0, 1)).
  Proof using. clear. unfold t2. split; cbn [fst snd moved]; ring. Qed.
  Lemma til_proper : proper_basis (1, 0) (0, 1) [vzero].
  Proof using.
    clear. intros k l u w Hk Hl _. destruct k as [|k]; [|destruct k; discriminate Hk]. destruct l as [|l]; [reflexivity|destruct l; discriminate Hl].
  Qed.
  Lemma til_lattice s : lattice_site (1, 0) (0, 1) [vzero] s <-> exists x y, same_point s (ipoint x y).
  Proof using.
    clear. split.
    - intros (a & b & u & [<-|[]] & [A B]). exists a, b. cbn [fst snd moved vzero] in *. unfold ipoint. split; cbn [fst snd]; rewrite A || rewrite B; ring.
    - intros (a & b & [A B]). exists a, b, vzero. split; [left; reflexivity|]. unfold ipoint in *. cbn [fst snd] in *.
      split; cbn [fst snd moved vzero]; rewrite A || rewrite B; ring.
  Qed.
  Lemma ipoint_inj x y x' y' : same_point (ipoint x y) (ipoint x' y') -> x = x' /\ y = y'.
  Proof using. clear. intros [A B]. unfold ipoint in *. cbn [fst snd] in *. split; apply inject_Z_injective; assumption. Qed.
  Lemma til_apart : told_apart (1, 0) (0, 1) [vzero].
  Proof using.
    clear. intros s t Hs Ht D. apply til_lattice in Hs as (x & y & Hs). apply til_lattice in Ht as (x' & y' & Ht).
    destruct Hs as [s1 s2], Ht as [u1 u2]. unfold ipoint in *. cbn [fst snd] in *.
    assert (X : forall a b, a <> b -> (1 # 100000000000000) < Qabs (inject_Z a - inject_Z b)).
    { intros a b D'. apply (Qlt_le_trans _ 1); [reflexivity|].
      setoid_replace (inject_Z a - inject_Z b) with (inject_Z (a - b)) by (unfold Z.sub; rewrite inject_Z_plus, inject_Z_opp; ring).
      change (Qabs (inject_Z (a - b))) with (inject_Z (Z.abs (a - b))). apply inj_pos. lia. }
    destruct (Z.eq_dec x x') as [E|E].
    - right. rewrite s2, u2. apply X. intros F. apply D. subst. split; [rewrite s1, u1|rewrite s2, u2]; reflexivity.
    - left. rewrite s1, u1. apply X. assumption.
  Qed.

  Lemma til_count : g_n g = Z.to_nat N.
  Proof using All.
    destruct (built_facts lattice_phases validate_phases _ _ _ _ _ _ _ _ _ _ til_built til_l1 til_l2) as (helper & sites & L & Hh' & Hs & _ & _ & _ & E & _).
    destruct (count_sites _ _ _ _ _ _ _ helper nr nu (- nu) nr Hh' til_p1 til_p2 til_l1 til_l2 til_proper til_apart) as (sites' & Hs' & C).
    assert (length sites = length sites') by congruence. rewrite E, H, C. cbn [length]. clear - HN. unfold N in *. nia.
  Qed.

  Lemma til_moved x y c d s : same_point s (moved (ipoint x y) (inject_Z c) t1 (inject_Z d) t2) ->
    same_point s (ipoint (x + c * nr - d * nu) (y + c * nu + d * nr)).
  Proof using.
    clear HT HN. intros [A B]. unfold ipoint, same_point, moved, t1, t2 in *. cbn [fst snd] in *. rewrite A, B.
    unfold Z.sub. rewrite !inject_Z_plus, !inject_Z_opp, !inject_Z_mult. split; ring.
  Qed.

  Lemma til_coordinates x y : coordinates t1 t2 (ipoint x y) (inject_Z (x * nr + y * nu) / inject_Z N) (inject_Z (y * nr - x * nu) / inject_Z N).
  Proof using HN.
    clear HT. pose proof til_l1 as L1. pose proof til_l2 as L2. pose proof til_norm as P.
    unfold coordinates. repeat match goal with |- _ /\ _ => split end; intros;
      try (exfalso; match goal with H : is_zero t1 |- _ => exact (zero_not_long _ H L1) | H : is_zero t2 |- _ => exact (zero_not_long _ H L2) end).
    unfold t1, t2, same_point, moved, ipoint, N, Z.sub. cbn [fst snd]. rewrite !inject_Z_plus, !inject_Z_opp, !inject_Z_mult.
    set (r := inject_Z nr) in *. set (u := inject_Z nu) in *. split; field; lra.
  Qed.

  Lemma til_round x y v : same_point v (ipoint x y) -> same_point (round_point v) (ipoint x y).
  Proof using.
    clear. intros E. apply (same_trans _ (round_point (ipoint x y))); [apply round_same; assumption|].
    assert (D : forall z, decimal14 (inject_Z z)).
    { intros z. exists (z * 100000000000000)%Z. rewrite inject_Z_mult. change (inject_Z 100000000000000) with (100000000000000 # 1). ring. }
    split; cbn [round_point fst snd ipoint]; apply decimal_round, D.
  Qed.

  (** The sites are the integer points of the tilted cell. *)
  Lemma til_facts :
    (forall k, (k < g_n g)%nat -> exists x y, same_point (spot g k) (ipoint x y) /\
       (0 <= x * nr + y * nu < N)%Z /\ (0 <= y * nr - x * nu < N)%Z) /\
    (forall x y, exists k c d, (k < g_n g)%nat /\ same_point (spot g k) (ipoint (x + c * nr - d * nu) (y + c * nu + d * nr))) /\
    (forall k l, (k < g_n g)%nat -> (l < g_n g)%nat -> same_point (spot g k) (spot g l) -> k = l).
  Proof using All.
    destruct (built_facts lattice_phases validate_phases _ _ _ _ _ _ _ _ _ _ til_built til_l1 til_l2) as (helper & sites & L & HH & Hs & _ & Ex & Ey & E & _).
    destruct (new_lattice_inv _ _ _ _ _ _ _ _ HH) as (Lv1 & Lv2 & Gv & Hd & _).
    assert (Gp : generators t1 t2) by (split; [right; apply til_l1|split; [right; apply til_l2|intros; apply Hd; assumption]]).
    destruct (unique_sites_ok _ _ _ _ _ _ _ _ HH) as (sites' & Hs' & SR & A & B); [exists nr, nu; apply til_p1|exists (- nu)%Z, nr; apply til_p2|apply til_l1|apply til_l2|].
    assert (sites' = sites) by congruence. subst sites'. clear Hs'.
    assert (RI : forall x y, exists c d, same_point (red Positive t1 t2 (ipoint x y)) (ipoint (x + c * nr - d * nu) (y + c * nu + d * nr))).
    { intros x y. destruct (red_equiv Positive t1 t2 (ipoint x y)) as (c & d & F). exists c, d. apply til_moved. assumption. }
    split; [|split].
    - intros k Hk. rewrite (spot_nth g sites k Ex Ey). destruct (B (nth k sites (0, 0))) as (s & Ls & F); [apply nth_In; rewrite <- E; assumption|].
      apply til_lattice in Ls as (x0 & y0 & Ls).
      destruct (RI x0 y0) as (c & d & R).
      assert (R' : same_point (red Positive t1 t2 s) (ipoint (x0 + c * nr - d * nu) (y0 + c * nu + d * nr))).
      { apply (same_trans _ (red Positive t1 t2 (ipoint x0 y0))); [|assumption]. apply red_same_arg; [assumption|discriminate|assumption]. }
      set (x := (x0 + c * nr - d * nu)%Z) in *. set (y := (y0 + c * nu + d * nr)%Z) in *. exists x, y.
      split; [apply (same_trans _ _ _ F), til_round; assumption|].
      assert (C : coordinates t1 t2 (red Positive t1 t2 s) (inject_Z (x * nr + y * nu) / inject_Z N) (inject_Z (y * nr - x * nu) / inject_Z N)).
      { destruct R' as [R1 R2]. destruct (til_coordinates x y) as (C1 & C2 & C3 & C4 & C5). unfold coordinates, dot, same_point, moved in *.
        rewrite R1, R2. auto. }
      destruct (red_cell t1 t2 s _ _ Gp til_l1 til_l2 C) as [D1 D2]. apply cell_range in D1; [|assumption]. apply cell_range in D2; [|assumption]. auto.
    - intros x y. destruct (A (ipoint x y)) as (t & Ht & F); [apply til_lattice; exists x, y; apply same_refl|].
      apply In_nth_error in Ht as [k Hk]. destruct (RI x y) as (c & d & R). exists k, c, d.
      split; [rewrite E; apply (proj1 (nth_error_Some sites k)); intros Q; pose proof (eq_trans (eq_sym Hk) Q); discriminate|].
      assert (Q : spot g k = t) by (transitivity (nth k sites (0, 0)); [apply spot_nth; assumption|exact (nth_error_nth sites k (0, 0) Hk)]).
      rewrite Q. apply same_sym in F. apply (same_trans _ _ _ F), til_round. assumption.
    - intros k l Hk Hl S. rewrite !(spot_nth g sites _ Ex Ey) in S.
      apply (sorted_at sites SR k l (nth k sites (0, 0)) (nth l sites (0, 0))); [apply nth_error_nth'; rewrite <- E; assumption|apply nth_error_nth'; rewrite <- E; assumption|assumption].
  Qed.

  Lemma til_displacement k l x y x' y' : same_point (spot g k) (ipoint x y) -> same_point (spot g l) (ipoint x' y') ->
    same_point (displacement g k l) (ipoint (x - x') (y - y')).
  Proof using.
    clear. intros [A B] [C D]. unfold displacement, ipoint, same_point in *. cbn [fst snd] in *. rewrite A, B, C, D.
    unfold Z.sub. rewrite !inject_Z_plus, !inject_Z_opp. split; ring.
  Qed.

  Lemma til_bound c d x y s : (o1 = true -> c = 0)%Z -> (o2 = true -> d = 0)%Z ->
    same_point s (moved (ipoint x y) (inject_Z c) (boundary o1 t1) (inject_Z d) (boundary o2 t2)) <->
    same_point s (ipoint (x + c * nr - d * nu) (y + c * nu + d * nr)).
  Proof using.
    clear HT HN. intros Hc Hd.
    assert (F : same_point (moved (ipoint x y) (inject_Z c) (boundary o1 t1) (inject_Z d) (boundary o2 t2)) (ipoint (x + c * nr - d * nu) (y + c * nu + d * nr))).
    { apply til_moved. destruct o1, o2; cbn [boundary]; rewrite ?(Hc eq_refl), ?(Hd eq_refl); unfold same_point, moved, t1, t2, vzero; cbn [fst snd];
        change (inject_Z 0) with 0; split; ring. }
    split; intros E; [exact (same_trans _ _ _ E F)|exact (same_trans _ _ _ E (same_sym _ _ F))].
  Qed.

  Lemma til_step x y : unit_length (ipoint x y) -> square_step x y.
  Proof using.
    clear. unfold unit_length, sq_norm, ipoint, square_step. cbn [fst snd]. intros U. apply Qabs_Qle_condition in U.
    rewrite <- !inject_Z_mult, <- inject_Z_plus in U.
    assert (x * x + y * y < 2)%Z by (rewrite Zlt_Qlt; change (inject_Z 2) with 2; lra).
    assert (0 < x * x + y * y)%Z by (rewrite Zlt_Qlt; change (inject_Z 0) with 0; lra).
    assert (-1 <= x <= 1)%Z by nia. assert (-1 <= y <= 1)%Z by nia. nia.
  Qed.

  Lemma til_sound k l x y x' y' : (k < g_n g)%nat -> (l < g_n g)%nat ->
    same_point (spot g k) (ipoint x y) -> same_point (spot g l) (ipoint x' y') -> ent (g_adj g) k l = 1 ->
    exists c d, (o1 = true -> c = 0)%Z /\ (o2 = true -> d = 0)%Z /\ square_step (x - x' + c * nr - d * nu) (y - y' + c * nu + d * nr).
  Proof using All.
    intros Hk Hl S T H.
    destruct (near_sound lattice_phases validate_phases _ _ _ _ _ _ _ _ _ _ til_built til_l1 til_l2 k l Hk Hl H) as (w & (c & d & Ew) & U).
    pose proof (til_displacement k l _ _ _ _ S T) as D.
    set (c' := if o1 then 0%Z else c). set (d' := if o2 then 0%Z else d).
    assert (Hc : (o1 = true -> c' = 0)%Z) by (unfold c'; intros ->; reflexivity).
    assert (Hd : (o2 = true -> d' = 0)%Z) by (unfold d'; intros ->; reflexivity).
    exists c', d'. split; [assumption|]. split; [assumption|].
    assert (W : same_point w (ipoint (x - x' + c' * nr - d' * nu) (y - y' + c' * nu + d' * nr))).
    { apply (til_bound c' d' (x - x') (y - y') w Hc Hd). apply (same_trans _ _ _ Ew).
      destruct D as [D1 D2]. unfold moved, same_point. cbn [fst snd] in *. rewrite D1, D2. unfold c', d'.
      destruct o1, o2; cbn [boundary vzero fst snd]; split; ring. }
    apply til_step. unfold unit_length in *. rewrite <- (norm_comp _ _ W). exact U.
  Qed.

  Lemma til_norm_step x y : square_step x y -> sq_norm (ipoint x y) == 1.
  Proof using. clear. intros [[[-> | ->] ->]|[-> [-> | ->]]]; reflexivity. Qed.

  Lemma til_wide x y : (5 <= N)%Z -> square_step x y ->
    exists a b, coordinates (boundary o1 t1) (boundary o2 t2) (ipoint x y) a b /\ Qabs a <= 2 # 5 /\ Qabs b <= 2 # 5.
  Proof using HN.
    clear HT. intros N5 U. pose proof til_l1 as L1. pose proof til_l2 as L2. pose proof til_norm as P.
    assert (PN : 0 < inject_Z N) by (apply (Qlt_le_trans _ 1); [reflexivity|apply inj_pos; lia]).
    assert (K : forall z, (5 * Z.abs z <= 2 * N)%Z -> Qabs (inject_Z z / inject_Z N) <= 2 # 5).
    { intros z Hz. apply quot_bound; [assumption|]. change (Qabs (inject_Z z)) with (inject_Z (Z.abs z)).
      rewrite Zle_Qle, !inject_Z_mult in Hz. change (inject_Z 5) with 5 in Hz. change (inject_Z 2) with 2 in Hz. lra. }
    assert (M : (5 * Z.abs nr <= 2 * N /\ 5 * Z.abs nu <= 2 * N)%Z).
    { unfold N in *. clear - N5.
      assert (X : forall a b, (5 <= a * a + b * b -> 5 * Z.abs a <= 2 * (a * a + b * b))%Z).
      { intros a b H. destruct (Z.le_gt_cases 3 (Z.abs a)); [nia|].
        assert (Z.abs a = 0 \/ Z.abs a = 1 \/ Z.abs a = 2)%Z as [E|[E|E]] by lia; nia. }
      split; [apply X; assumption|]. rewrite (Z.add_comm (nr * nr)). apply X. lia. }
    destruct M as [M1 M2].
    assert (Ka : Qabs (inject_Z (x * nr + y * nu) / inject_Z N) <= 2 # 5).
    { apply K. clear - U M1 M2. destruct U as [[[-> | ->] ->]|[-> [-> | ->]]]; lia. }
    assert (Kb : Qabs (inject_Z (y * nr - x * nu) / inject_Z N) <= 2 # 5).
    { apply K. clear - U M1 M2. destruct U as [[[-> | ->] ->]|[-> [-> | ->]]]; lia. }
    destruct (til_coordinates x y) as (C1 & C2 & C3 & C4 & C5).
    exists (if o1 then 0 else inject_Z (x * nr + y * nu) / inject_Z N), (if o2 then 0 else inject_Z (y * nr - x * nu) / inject_Z N).
    split; [|split; [destruct o1; [discriminate|assumption]|destruct o2; [discriminate|assumption]]].
    assert (Z1 : inject_Z (x * nr + y * nu) / inject_Z N * sq_norm t1 == dot t1 (ipoint x y)).
    { unfold sq_norm, dot, t1, ipoint, N. cbn [fst snd]. rewrite !inject_Z_plus, !inject_Z_mult.
      set (r := inject_Z nr) in *. set (u := inject_Z nu) in *. field. lra. }
    assert (Z2 : inject_Z (y * nr - x * nu) / inject_Z N * sq_norm t2 == dot t2 (ipoint x y)).
    { unfold sq_norm, dot, t2, ipoint, N, Z.sub. cbn [fst snd]. rewrite !inject_Z_plus, !inject_Z_opp, !inject_Z_mult.
      set (r := inject_Z nr) in *. set (u := inject_Z nu) in *. field. lra. }
    destruct o1, o2; cbn [boundary]; unfold coordinates; repeat match goal with |- _ /\ _ => split end; intros; try reflexivity;
      try (exfalso; match goal with H : long vzero |- _ => exact (zero_not_long _ bz_zero H)
        | H : is_zero t1 |- _ => exact (zero_not_long _ H L1) | H : is_zero t2 |- _ => exact (zero_not_long _ H L2) end); auto.
  Qed.

  Lemma til_complete k l x y x' y' c d : (k < g_n g)%nat -> (l < g_n g)%nat -> k <> l ->
    same_point (spot g k) (ipoint x y) -> same_point (spot g l) (ipoint x' y') ->
    (o1 = true -> c = 0)%Z -> (o2 = true -> d = 0)%Z -> square_step (x - x' + c * nr - d * nu) (y - y' + c * nu + d * nr) ->
    ent (g_adj g) k l = 1.
  Proof using All.
    intros Hk Hl O S T Hc Hd U. pose proof (til_displacement k l _ _ _ _ S T) as D.
    assert (E : equivalent (boundary o1 t1) (boundary o2 t2) (displacement g k l) (ipoint (x - x' + c * nr - d * nu) (y - y' + c * nu + d * nr))).
    { apply (equiv_trans _ _ _ (ipoint (x - x') (y - y'))); [apply equiv_same; assumption|]. exists c, d. apply til_bound; [assumption|assumption|apply same_refl]. }
    set (X := (x - x' + c * nr - d * nu)%Z) in *. set (Y := (y - y' + c * nu + d * nr)%Z) in *. clearbody X Y.
    destruct (Z.le_gt_cases 5 N) as [N5|N5].
    - destruct (til_wide X Y N5 U) as (a & b & C & A & B). assert (Qh : (2 # 5) < (1 # 2) - half_unit) by reflexivity.
      apply (near_complete lattice_phases validate_phases _ _ _ _ _ _ _ _ _ _ til_built til_l1 til_l2 k l _ a b Hk Hl E C).
      + exact (Qle_lt_trans _ _ _ A Qh).
      + exact (Qle_lt_trans _ _ _ B Qh).
      + rewrite (til_norm_step X Y U). discriminate.
    - assert (N1 : N <> 1%Z). { intros E1. pose proof til_count as Hn. rewrite E1 in Hn. change (Z.to_nat 1) with 1%nat in Hn. clear - Hn Hk Hl O. lia. }
      assert (R : forall X Y, square_step X Y -> root_rounds_to_1 (sq_norm (red Centered (boundary o1 t1) (boundary o2 t2) (ipoint X Y))) = true).
      { clear - N5 N1 HN. unfold N in *.
        assert (Cs : (Z.abs nr = 1 /\ Z.abs nu = 1 \/ Z.abs nr = 2 /\ nu = 0 \/ nr = 0 /\ Z.abs nu = 2)%Z).
        { assert (-2 <= nr <= 2)%Z by nia. assert (-2 <= nu <= 2)%Z by nia.
          assert (nr = -2 \/ nr = -1 \/ nr = 0 \/ nr = 1 \/ nr = 2)%Z as A by lia.
          assert (nu = -2 \/ nu = -1 \/ nu = 0 \/ nu = 1 \/ nu = 2)%Z as B by lia.
          clear - N5 N1 HN A B. destruct A as [-> |[-> |[-> |[-> | ->]]]]; destruct B as [-> |[-> |[-> |[-> | ->]]]]; lia. }
        unfold t1, t2. clear N5 N1 HN.
        assert (Cs' : (nr = 1 /\ nu = 1 \/ nr = 1 /\ nu = -1 \/ nr = -1 /\ nu = 1 \/ nr = -1 /\ nu = -1 \/
          nr = 2 /\ nu = 0 \/ nr = -2 /\ nu = 0 \/ nr = 0 /\ nu = 2 \/ nr = 0 /\ nu = -2)%Z) by lia.
        clear Cs. intros X Y U. destruct U as [[[-> | ->] ->]|[-> [-> | ->]]];
        destruct Cs' as [[-> ->]|[[-> ->]|[[-> ->]|[[-> ->]|[[-> ->]|[[-> ->]|[[-> ->]|[-> ->]]]]]]]]; destruct o1, o2; vm_compute; reflexivity. }
      apply (near_reduced lattice_phases validate_phases _ _ _ _ _ _ _ _ _ _ til_built til_l1 til_l2 k l _ Hk Hl E); [apply R; assumption|].
      assert (U' : square_step (- X) (- Y)) by (clear - U; unfold square_step in *; lia).
      specialize (R (- X)%Z (- Y)%Z U'). unfold ipoint in *. rewrite !inject_Z_opp in R. exact R.
  Qed.
End Tilted.
