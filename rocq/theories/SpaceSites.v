(** Symmetries of rectangular lattices: the cycles of sites. *)
From Coq Require Import List Arith Lia ZArith QArith Qabs Bool Permutation Lqa.
From Verif Require Import Res Matrix ModelGeometry ModelPhase SpecGeometry GeoArith GeoReduce GeoSquare SpecSites ModelSites SpecPerm SiteProofs SiteApi SpecSpace SpaceMaps.
Import ListNotations.
Local Open Scope Z_scope.

Lemma px_or o m : 1 <= m -> is_zero (px o m) \/ long (px o m).
Proof. intros Hm. unfold px. destruct o; [left; split; reflexivity|]. right. apply px_long, Hm. Qed.
Lemma py_or o m : 1 <= m -> is_zero (py o m) \/ long (py o m).
Proof. intros Hm. unfold py. destruct o; [left; split; reflexivity|]. right. apply py_long, Hm. Qed.
Lemma gens_pp o1 o2 nx ny : 1 <= nx -> 1 <= ny -> generators (px o1 nx) (py o2 ny).
Proof.
  intros X1 Y1. split; [apply px_or, X1|]. split; [apply py_or, Y1|]. intros A B. unfold px, py, long, sq_norm, det in *.
  destruct o1; [cbn in A; exfalso; vm_compute in A; discriminate|]. destruct o2; [cbn in B; exfalso; vm_compute in B; discriminate|].
  cbn [fst snd]. unfold Qeq, inject_Z. cbn. nia.
Qed.
Lemma tiny_int z q : (q == inject_Z z -> Qabs q < 1 # 10000000000 -> z = 0%Z)%Q.
Proof.
  intros E H. rewrite E in H. unfold Qabs, Qlt, inject_Z in H. cbn in H. lia.
Qed.

Section Sites.
  Context {Ph : Type}.
  Variables (pm : lattice -> nat -> (nat -> nat -> Q) -> (nat -> nat -> Q) -> mat Ph) (vp : nat -> mat Ph -> bool).
  Variables (nx ny : Z) (ph1 ph2 : Q) (o1 o2 : bool) (g : geometry Ph) (M : motion) (f : vec -> vec).
  Hypothesis X1 : 1 <= nx. Hypothesis Y1 : 1 <= ny.
  Hypothesis X2 : 2 * nx <= 100000000000000. Hypothesis Y2 : 2 * ny <= 100000000000000.
  Hypothesis LG : square_geometry pm vp nx ny ph1 ph2 o1 o2 = Ok g.
  Hypothesis KP : keeps nx ny o1 o2 M.
  Hypothesis two : 2 <= nx * ny.
  Notation n := (Z.to_nat (nx * ny)).
  Notation coords := (combine (g_x g) (g_y g)).
  Hypothesis FM : forall i, (i < n)%nat -> same_point (f (nth i coords vzero)) (move M (inject_Z (site_x ny i), inject_Z (site_y ny i))).
  Notation pi := (image nx ny M).

  Lemma coords_ok : length coords = n /\ forall i, (i < n)%nat -> (fst (nth i coords vzero) == inject_Z (site_x ny i))%Q /\ (snd (nth i coords vzero) == inject_Z (site_y ny i))%Q.
  Proof using LG X1 Y1 X2 Y2.
    clear two FM KP.
    destruct (square_ok pm vp nx ny ph1 ph2 o1 o2 g X1 Y1 X2 Y2 LG) as (G & LX & LY & _ & _ & _ & _ & _ & P & _).
    split; [rewrite combine_length; lia|]. intros i Hi. rewrite <- G in Hi. specialize (P i Hi).
    change vzero with (0%Q, 0%Q). rewrite combine_nth by congruence. exact P.
  Qed.
  Lemma move_int x y : same_point (move M (inject_Z x, inject_Z y)) (inject_Z (fst (move_z M (x, y))), inject_Z (snd (move_z M (x, y)))).
  Proof using.
    clear. unfold same_point, move, move_z, turned, signed_q, signed_z. destruct (m_swap M), (m_sx M), (m_sy M); cbn [fst snd]; split; rewrite inject_Z_plus, ?inject_Z_opp; reflexivity.
  Qed.
  Lemma found : exists cs m, find_site_cycles f g = Ok (cs, m) /\
    (forall i, (i < n)%nat -> cycles_perm cs i = pi i) /\ g_n g = n /\
    Permutation (concat cs) (seq 0 n) /\ (1 <= m <= n)%nat /\ (forall i, (i < n)%nat -> iter (cycles_perm cs) m i = i) /\
    (forall k, (1 <= k < m)%nat -> exists i, (i < n)%nat /\ iter (cycles_perm cs) k i <> i).
  Proof using All.
    destruct (square_ok pm vp nx ny ph1 ph2 o1 o2 g X1 Y1 X2 Y2 LG) as (G & _ & _ & O1 & O2 & _ & _ & (L & EL & P1 & P2 & _) & _ & _).
    destruct coords_ok as [LC CO].
    assert (US : usable (g_lat g)) by (rewrite EL; cbn [usable]; rewrite P1, P2; apply gens_pp; assumption).
    assert (ON : forall i, (i < length coords)%nat -> (pi i < length coords)%nat /\ on_site (g_lat g) (f (nth i coords vzero)) (nth (pi i) coords vzero)).
    { rewrite LC. intros i Hi. split; [apply image_lt; assumption|]. rewrite EL. cbn [on_site]. rewrite P1, P2.
      destruct (CO (pi i) (image_lt nx ny M X1 Y1 i)) as [CX CY]. pose proof (FM i Hi) as [FX FY].
      pose proof (move_int (site_x ny i) (site_y ny i)) as [MX MY]. change (site_x ny i, site_y ny i) with (at_site ny i) in MX, MY.
      destruct (image_x nx ny o1 o2 M X1 Y1 KP i Hi) as [IX IX']. destruct (image_y nx ny o1 o2 M X1 Y1 KP i Hi) as [IY IY'].
      set (w := move_z M (at_site ny i)) in *.
      exists (- (fst w / nx)), (- (snd w / ny)). unfold same_point, moved, px, py.
      cbn [fst snd]. cbn [fst snd] in MX, MY. rewrite CX, CY, FX, FY, MX, MY.
      pose proof (Z_div_mod_eq_full (fst w) nx) as DX. pose proof (Z_div_mod_eq_full (snd w) ny) as DY.
      split.
      - destruct o1; [rewrite (IX' eq_refl) | rewrite IX]; destruct o2; cbn [fst snd vzero]; try ring;
        (replace (fst w mod nx) with (fst w + - (fst w / nx) * nx) by lia; rewrite inject_Z_plus, inject_Z_mult; ring).
      - destruct o2; [rewrite (IY' eq_refl) | rewrite IY]; destruct o1; cbn [fst snd vzero]; try ring;
        (replace (snd w mod ny) with (snd w + - (snd w / ny) * ny) by lia; rewrite inject_Z_plus, inject_Z_mult; ring). }
    assert (NI : forall i j, (i < length coords)%nat -> (j < length coords)%nat -> near (g_lat g) (1 # 10000000000) (nth i coords vzero) (nth j coords vzero) -> i = j).
    { rewrite LC. intros i j Hi Hj NR. rewrite EL in NR. cbn [near] in NR. rewrite P1, P2 in NR. destruct NR as (a & b & A & B).
      destruct (CO i Hi) as [CX CY]. destruct (CO j Hj) as [DX DY]. unfold moved in A, B. cbn [fst snd] in A, B.
      pose proof (site_x_range nx ny i Y1 Hi). pose proof (site_x_range nx ny j Y1 Hj). pose proof (site_y_range ny i Y1). pose proof (site_y_range ny j Y1).
      assert (EX : site_x ny i = site_x ny j).
      { destruct o1.
        - assert (site_x ny i - site_x ny j = 0); [|lia]. refine (tiny_int _ _ _ A). rewrite CX, DX. unfold px, py, Z.sub. rewrite inject_Z_plus, inject_Z_opp. destruct o2; cbn [fst snd vzero]; ring.
        - assert (site_x ny i - (site_x ny j + a * nx) = 0).
          { refine (tiny_int _ _ _ A). rewrite CX, DX. unfold px, py, Z.sub. rewrite inject_Z_plus, inject_Z_opp, inject_Z_plus, inject_Z_mult. destruct o2; cbn [fst snd vzero]; ring. }
          assert (a = 0) by nia. nia. }
      assert (EY : site_y ny i = site_y ny j).
      { destruct o2.
        - assert (site_y ny i - site_y ny j = 0); [|lia]. refine (tiny_int _ _ _ B). rewrite CY, DY. unfold px, py, Z.sub. rewrite inject_Z_plus, inject_Z_opp. destruct o1; cbn [fst snd vzero]; ring.
        - assert (site_y ny i - (site_y ny j + b * ny) = 0).
          { refine (tiny_int _ _ _ B). rewrite CY, DY. unfold px, py, Z.sub. rewrite inject_Z_plus, inject_Z_opp, inject_Z_plus, inject_Z_mult. destruct o1; cbn [fst snd vzero]; ring. }
          assert (b = 0) by nia. nia. }
      rewrite <- (spot_site nx ny X1 Y1 i Hi), <- (spot_site nx ny X1 Y1 j Hj). unfold at_site. rewrite EX, EY. reflexivity. }
    destruct (image_order nx ny o1 o2 M X1 Y1 KP O1 O2 two) as (k & RK & OK).
    assert (L2 : (2 <= length coords)%nat) by (rewrite LC; nia).
    destruct (site_cycles_exact (g_lat g) coords f (1 # 10000000000) pi ON NI eq_refl US L2) as [SC _].
    assert (LC' : @length vec coords = n) by exact LC. rewrite LC' in SC. destruct (SC k RK OK) as (cs & m & E & _ & CP). exists cs, m. split; [exact E|].
    destruct (site_cycles_ok (g_lat g) coords f (1 # 10000000000) cs m E L2) as (PE & _ & _ & MB & MO & MM). rewrite LC' in PE, MB, MO, MM.
    split; [exact CP|]. split; [exact G|]. tauto.
  Qed.
  Lemma neighbours_kept i j : (i < n)%nat -> (j < n)%nat -> ent (g_adj g) (pi i) (pi j) = ent (g_adj g) i j.
  Proof using LG X1 Y1 X2 Y2 KP.
    intros Hi Hj. destruct (square_neighbours pm vp nx ny ph1 ph2 o1 o2 g X1 Y1 X2 Y2 LG) as (G & _ & _ & _ & _ & _ & NB). rewrite G in NB.
    destruct (NB i j Hi Hj) as (A & _ & _ & B). destruct (NB (pi i) (pi j) (image_lt nx ny M X1 Y1 i) (image_lt nx ny M X1 Y1 j)) as (A' & _ & _ & B').
    pose proof (image_steps nx ny o1 o2 M X1 Y1 KP i j Hi Hj) as S. unfold stepping in S. rewrite <- B, <- B' in S.
    destruct A as [E|E], A' as [E'|E']; rewrite E, E' in *; try reflexivity; exfalso.
    - discriminate (proj1 S eq_refl).
    - discriminate (proj2 S eq_refl).
  Qed.
End Sites.

(** Maps with errors of rounding. *)
Lemma cell_int n x e : (1 <= n)%Z -> (2 * n <= 100000000000000)%Z -> (Qabs e < half_unit)%Q ->
  cell Centered ((inject_Z x + e) / inject_Z n) = ((2 * x + n) / (2 * n))%Z.
Proof.
  intros N1 N2 HE. set (c := cell Centered ((inject_Z x + e) / inject_Z n)).
  pose proof (cell_exact_bounds Centered ((inject_Z x + e) / inject_Z n) ltac:(discriminate)) as [A B]. fold c in A, B. cbn [low] in A, B.
  apply Qabs_Qlt_condition in HE as [E1 E2].
  assert (NP : (0 < inject_Z n)%Q) by (unfold Qlt; cbn; lia).
  assert (N1' : (1 <= inject_Z n)%Q) by (unfold Qle; cbn; lia).
  assert (D : ((inject_Z x + e) / inject_Z n * inject_Z n == inject_Z x + e)%Q) by (field; lra).
  assert (N2' : (inject_Z n * (2 * half_unit) <= 1 # 2)%Q) by (unfold half_unit, Qle, Qmult, inject_Z; cbn; lia).
  set (q := ((inject_Z x + e) / inject_Z n)%Q) in *.
  assert (A' : ((-(1 # 2) - half_unit) * inject_Z n <= (q - inject_Z c) * inject_Z n)%Q) by (apply Qmult_le_compat_r; [exact A | lra]).
  assert (B' : ((q - inject_Z c) * inject_Z n <= (-(1 # 2) + 1 - half_unit) * inject_Z n)%Q) by (apply Qmult_le_compat_r; [exact B | lra]).
  assert (HU : (half_unit <= half_unit * inject_Z n)%Q) .
  { setoid_replace half_unit with (half_unit * 1)%Q at 1 by ring. apply Qmult_le_l; [reflexivity | exact N1']. }
  assert (HS : (half_unit < 1 # 4)%Q) by reflexivity.
  assert (L1 : (- (1) < inject_Z (2 * x + n - 2 * n * c))%Q).
  { unfold Z.sub. rewrite !inject_Z_plus, inject_Z_opp, !inject_Z_mult. change (inject_Z 2) with 2%Q. set (C := inject_Z c) in *. set (X := inject_Z x) in *. set (NN := inject_Z n) in *. set (h := half_unit) in *. lra. }
  assert (L2 : (inject_Z (2 * x + n - 2 * n * c) < inject_Z (2 * n))%Q).
  { unfold Z.sub. rewrite !inject_Z_plus, inject_Z_opp, !inject_Z_mult. change (inject_Z 2) with 2%Q. set (C := inject_Z c) in *. set (X := inject_Z x) in *. set (NN := inject_Z n) in *. set (h := half_unit) in *. lra. }
  change (- (1))%Q with (inject_Z (-1)) in L1. rewrite <- Zlt_Qlt in L1, L2. clear - L1 L2 N1. apply (Zdiv_unique _ _ _ (2 * x + n - 2 * n * c)); lia.
Qed.
Definition turns_x (o : bool) (n x : Z) : Z := if o then 0 else ((2 * x + n) / (2 * n))%Z.
Lemma coord_lattice (o1 o2 : bool) nx ny v : (1 <= nx)%Z -> (1 <= ny)%Z ->
  (if o1 then coord1 (px o1 nx) (py o2 ny) v == 0 else coord1 (px o1 nx) (py o2 ny) v == fst v / inject_Z nx)%Q /\
  (if o2 then coord2 (px o1 nx) (py o2 ny) v == 0 else coord2 (px o1 nx) (py o2 ny) v == snd v / inject_Z ny)%Q.
Proof.
  intros X1 Y1. unfold coord1, coord2. pose proof (px_long nx X1) as PX. pose proof (py_long ny Y1) as PY. apply long_test in PX, PY.
  assert (NX : ~ (inject_Z nx == 0)%Q) by (unfold Qeq; cbn; lia). assert (NY : ~ (inject_Z ny == 0)%Q) by (unfold Qeq; cbn; lia).
  unfold px, py in *.
  destruct o1, o2; rewrite ?PX, ?PY; change (root_rounds_to_0 (vdot vzero vzero)) with true; cbn iota; split; try reflexivity; unfold vdot, vdet; cbn [fst snd]; field; auto.
Qed.
Section Near.
  Variables (nx ny : Z) (o1 o2 : bool).
  Hypothesis X1 : 1 <= nx. Hypothesis Y1 : 1 <= ny.
  Hypothesis X2 : 2 * nx <= 100000000000000. Hypothesis Y2 : 2 * ny <= 100000000000000.
  Lemma near_reduce v zx zy : near_point v (inject_Z zx, inject_Z zy) -> exists r a b, reduce_vector (px o1 nx) (py o2 ny) Centered v = Ok (r, a, b) /\
    near_point r (inject_Z (zx - turns_x o1 nx zx * nx), inject_Z (zy - turns_x o2 ny zy * ny)).
  Proof using All.
    intros [NX NY]. cbn [fst snd] in NX, NY. rewrite (reduce_value _ _ Centered v (gens_pp o1 o2 nx ny X1 Y1)) by discriminate. eexists _, _, _. split; [reflexivity|].
    destruct (coord_lattice o1 o2 nx ny v X1 Y1) as [CX CY].
    assert (EX : o1 = false -> cell Centered (coord1 (px o1 nx) (py o2 ny) v) = turns_x false nx zx).
    { intros ->. rewrite CX. unfold turns_x. rewrite <- (cell_int nx zx (fst v - inject_Z zx) X1 X2 NX). apply cell_comp. field. unfold Qeq; cbn; lia. }
    assert (EY : o2 = false -> cell Centered (coord2 (px o1 nx) (py o2 ny) v) = turns_x false ny zy).
    { intros ->. rewrite CY. unfold turns_x. rewrite <- (cell_int ny zy (snd v - inject_Z zy) Y1 Y2 NY). apply cell_comp. field. unfold Qeq; cbn; lia. }
    destruct (vsub_vscale v (px o1 nx) (py o2 ny) (inject_Z (cell Centered (coord1 (px o1 nx) (py o2 ny) v))) (inject_Z (cell Centered (coord2 (px o1 nx) (py o2 ny) v)))) as [S1 S2].
    unfold near_point. rewrite S1, S2. unfold moved. cbn [fst snd]. unfold Z.sub. rewrite !inject_Z_plus, !inject_Z_opp, !inject_Z_mult.
    split; [eapply Qle_lt_trans; [|exact NX] | eapply Qle_lt_trans; [|exact NY]]; apply Qle_lteq; right; apply Qabs_eq.
    - destruct o1; [|rewrite (EX eq_refl)]; destruct o2; unfold px, py, turns_x; cbn [fst snd vzero]; change (inject_Z 0) with 0%Q; ring.
    - destruct o2; [|rewrite (EY eq_refl)]; destruct o1; unfold px, py, turns_x; cbn [fst snd vzero]; change (inject_Z 0) with 0%Q; ring.
  Qed.
  Lemma near_within v w zx zy kx ky : near_point v (inject_Z zx, inject_Z zy) -> near_point w (inject_Z kx, inject_Z ky) ->
    within (1 # 10000000000) v w = ((zx =? kx) && (zy =? ky))%Z.
  Proof using.
    intros [A B] [C D]. cbn [fst snd] in *. apply Qabs_Qlt_condition in A, B, C, D. unfold half_unit in *.
    destruct (within _ v w) eqn:E; symmetry.
    - apply within_spec in E as [E1 E2]. apply Qabs_Qlt_condition in E1, E2.
      assert (I1 : (- (1) < inject_Z (zx - kx) < 1)%Q) by (unfold Z.sub; rewrite inject_Z_plus, inject_Z_opp; lra).
      assert (I2 : (- (1) < inject_Z (zy - ky) < 1)%Q) by (unfold Z.sub; rewrite inject_Z_plus, inject_Z_opp; lra).
      unfold Qlt, inject_Z in I1, I2. cbn in I1, I2. apply andb_true_iff. split; apply Z.eqb_eq; lia.
    - apply andb_false_iff. destruct (Z.eqb_spec zx kx) as [->|]; [|left; reflexivity]. destruct (Z.eqb_spec zy ky) as [->|]; [|right; reflexivity]. exfalso.
      assert (within (1 # 10000000000) v w = true) by (apply within_spec; split; apply Qabs_Qlt_condition; lra). congruence.
  Qed.
End Near.
Lemma close_sites_ext s s' sites k : (forall l, s l = s' l) -> forall cols cur, close_sites s sites k cols cur = close_sites s' sites k cols cur.
Proof.
  intros E. induction k as [|k IH]; intros cols cur; [reflexivity|]. cbn [close_sites]. destruct (nats_eqb _ _); [reflexivity|]. destruct cols as [|c cols]; [reflexivity|].
  rewrite E. destruct (s' c); cbn [bind]; [apply IH | reflexivity].
Qed.
Lemma first_match_ext tol v v' ws : (forall w, In w ws -> within tol v w = within tol v' w) -> forall k, first_match tol v ws k = first_match tol v' ws k.
Proof.
  induction ws as [|w ws IH]; intros E k; [reflexivity|]. cbn [first_match]. rewrite (E w (or_introl eq_refl)). destruct (within _ _ _); [reflexivity|]. apply IH. intros x Hx. apply E. right. exact Hx.
Qed.
Section Rounded.
  Context {Ph : Type}.
  Variables (pm : lattice -> nat -> (nat -> nat -> Q) -> (nat -> nat -> Q) -> mat Ph) (vp : nat -> mat Ph -> bool).
  Variables (nx ny : Z) (ph1 ph2 : Q) (o1 o2 : bool) (g : geometry Ph) (M : motion) (f : vec -> vec).
  Hypothesis X1 : 1 <= nx. Hypothesis Y1 : 1 <= ny.
  Hypothesis X2 : 2 * nx <= 100000000000000. Hypothesis Y2 : 2 * ny <= 100000000000000.
  Hypothesis LG : square_geometry pm vp nx ny ph1 ph2 o1 o2 = Ok g.
  Hypothesis KP : keeps nx ny o1 o2 M.
  Hypothesis two : 2 <= nx * ny.
  Notation n := (Z.to_nat (nx * ny)).
  Notation coords := (combine (g_x g) (g_y g)).
  Hypothesis FM : gives nx ny g M f.
  Lemma same_near v w : same_point v w -> near_point v w.
  Proof using.
    clear. intros [A B]. split; [setoid_replace (fst v - fst w)%Q with 0%Q by (rewrite A; ring) | setoid_replace (snd v - snd w)%Q with 0%Q by (rewrite B; ring)]; reflexivity.
  Qed.
  Lemma near_same v w w' : same_point w w' -> near_point v w -> near_point v w'.
  Proof using. clear. intros [A B] [C D]. split; [rewrite <- A | rewrite <- B]; assumption. Qed.
  Lemma exact_site i : (i < n)%nat -> same_point (move M (nth i coords vzero)) (move M (inject_Z (site_x ny i), inject_Z (site_y ny i))).
  Proof using X1 Y1 X2 Y2 LG.
    clear FM two KP. intros Hi. destruct (coords_ok pm vp nx ny ph1 ph2 o1 o2 g X1 Y1 X2 Y2 LG) as [_ CO]. destruct (CO i Hi) as [A B].
    unfold same_point, move, turned, signed_q. destruct (m_swap M), (m_sx M), (m_sy M); cbn [fst snd]; rewrite A, B; split; reflexivity.
  Qed.
  Lemma rounded : find_site_cycles f g = find_site_cycles (move M) g.
  Proof using All.
    destruct (square_ok pm vp nx ny ph1 ph2 o1 o2 g X1 Y1 X2 Y2 LG) as (_ & _ & _ & _ & _ & _ & _ & (L & EL & P1 & P2 & _) & _ & _).
    destruct (coords_ok pm vp nx ny ph1 ph2 o1 o2 g X1 Y1 X2 Y2 LG) as [LC CO].
    assert (LC' : @length vec coords = n) by exact LC.
    assert (US : usable (g_lat g)) by (rewrite EL; cbn [usable]; rewrite P1, P2; apply gens_pp; assumption).
    assert (T : forall sites, transformed_sites (g_lat g) coords f (1 # 10000000000) sites = transformed_sites (g_lat g) coords (move M) (1 # 10000000000) sites).
    { intros sites. unfold transformed_sites. destruct (reduced_total (g_lat g) coords US) as (red & E1).
      destruct (reduced_total (g_lat g) (map f coords) US) as (t1 & E2). destruct (reduced_total (g_lat g) (map (move M) coords) US) as (t2 & E3).
      rewrite E1, E2, E3. cbn [bind].
      pose proof (reduced_coords_length _ _ _ E1) as L1. pose proof (reduced_coords_length _ _ _ E2) as L2. pose proof (reduced_coords_length _ _ _ E3) as L3. rewrite map_length in L2, L3. rewrite LC' in L1, L2, L3.
      apply rmap_ext. intros i _. destruct (lt_dec i n) as [Hi|Hi].
      2:{ rewrite (proj2 (nth_error_None t1 i)) by lia. rewrite (proj2 (nth_error_None t2 i)) by lia. reflexivity. }
      rewrite (nth_error_nth' t1 vzero) by lia. rewrite (nth_error_nth' t2 vzero) by lia.
      assert (FM' : first_match (1 # 10000000000) (nth i t1 vzero) red 0 = first_match (1 # 10000000000) (nth i t2 vzero) red 0); [|rewrite FM'; reflexivity].
      pose proof (reduced_nth (g_lat g) _ _ i E2 ltac:(rewrite map_length, LC'; exact Hi)) as R2. pose proof (reduced_nth (g_lat g) _ _ i E3 ltac:(rewrite map_length, LC'; exact Hi)) as R3.
      assert (IL : (i < length coords)%nat) by (rewrite LC; exact Hi).
      rewrite (map_at coords f i IL) in R2. rewrite (map_at coords (move M) i IL) in R3. rewrite EL, P1, P2 in R2, R3.
      set (z := move_z M (site_x ny i, site_y ny i)).
      assert (N2 : near_point (f (nth i coords vzero)) (inject_Z (fst z), inject_Z (snd z))) by (apply (near_same _ _ _ (move_int M _ _)), FM, Hi).
      assert (N3 : near_point (move M (nth i coords vzero)) (inject_Z (fst z), inject_Z (snd z))) by (apply (near_same _ _ _ (move_int M _ _)), same_near, exact_site, Hi).
      destruct (near_reduce nx ny o1 o2 X1 Y1 X2 Y2 _ _ _ N2) as (r2 & a2 & b2 & Q2 & W2). destruct (near_reduce nx ny o1 o2 X1 Y1 X2 Y2 _ _ _ N3) as (r3 & a3 & b3 & Q3 & W3).
      destruct R2 as (? & ? & R2). destruct R3 as (? & ? & R3). apply (eq_trans (eq_sym Q2)) in R2. apply (eq_trans (eq_sym Q3)) in R3. injection R2 as R2 _ _. injection R3 as R3 _ _. rewrite R2 in W2. rewrite R3 in W3.
      apply first_match_ext. intros w Hw. apply (In_nth _ _ vzero) in Hw as (j & Hj & <-). rewrite L1 in Hj.
      pose proof (reduced_nth (g_lat g) _ _ j E1 ltac:(rewrite LC'; exact Hj)) as R4. rewrite EL, P1, P2 in R4.
      assert (N4 : near_point (nth j coords vzero) (inject_Z (site_x ny j), inject_Z (site_y ny j))) by (apply same_near; exact (CO j Hj)).
      destruct (near_reduce nx ny o1 o2 X1 Y1 X2 Y2 _ _ _ N4) as (r4 & a4 & b4 & Q4 & W4). destruct R4 as (? & ? & R4). apply (eq_trans (eq_sym Q4)) in R4. injection R4 as R4 _ _. rewrite R4 in W4.
      rewrite (near_within _ _ _ _ _ _ W2 W4), (near_within _ _ _ _ _ _ W3 W4). reflexivity. }
    unfold find_site_cycles, site_cycles. cbv zeta. rewrite (close_sites_ext _ _ _ _ T). reflexivity.
  Qed.
  Lemma found_near : exists cs m, find_site_cycles f g = Ok (cs, m) /\
    (forall i, (i < n)%nat -> cycles_perm cs i = image nx ny M i) /\ g_n g = n /\
    Permutation (concat cs) (seq 0 n) /\ (1 <= m <= n)%nat /\ (forall i, (i < n)%nat -> iter (cycles_perm cs) m i = i) /\
    (forall k, (1 <= k < m)%nat -> exists i, (i < n)%nat /\ iter (cycles_perm cs) k i <> i).
  Proof using All.
    rewrite rounded. apply (found pm vp nx ny ph1 ph2 o1 o2 g M (move M) X1 Y1 X2 Y2 LG KP two). exact exact_site.
  Qed.
End Rounded.
