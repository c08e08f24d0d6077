(** Triangular, hexagonal and tilted lattices: which are accepted, few rows,
    and the connections that are lost. *)
From Coq Require Import List Arith Lia QArith Qround Qabs ZArith Bool Lqa Setoid Morphisms Sorting Psatz.
From Verif Require Import Res Matrix ModelGeometry ModelPhase SpecGeometry GeoArith GeoReduce GeoSites GeoSites2 GeoDist GeoSquare GeoPhase SpecCells GeoCount GeoNear GeoTriangle GeoCells.
Import ListNotations.
Local Open Scope Q_scope.
Arguments Qred : simpl never.
Arguments root_rounds_to_0 : simpl never.
Arguments root_rounds_to_1 : simpl never.
Arguments round14 : simpl never.

Lemma float_triangle : triangle_height float_height.
Proof. split; [reflexivity|]. vm_compute. discriminate. Qed.

(** * Accepted lattices *)
Lemma det_positive x : 1 <= x \/ x <= -(1) -> half_unit < Qabs x.
Proof.
  intros [H|H]; apply (Qlt_le_trans _ 1); try reflexivity.
  - apply (Qle_trans _ x); [assumption|apply Qle_Qabs].
  - rewrite <- Qabs_opp. apply (Qle_trans _ (- x)); [lra|apply Qle_Qabs].
Qed.
Lemma half_det x : (1 # 2) <= x \/ x <= -(1 # 2) -> half_unit < Qabs x.
Proof.
  intros [H|H]; apply (Qlt_le_trans _ (1 # 2)); try reflexivity.
  - apply (Qle_trans _ x); [assumption|apply Qle_Qabs].
  - rewrite <- Qabs_opp. apply (Qle_trans _ (- x)); [lra|apply Qle_Qabs].
Qed.

Lemma tri_total h n1 n2 ph1 ph2 o1 o2 : triangle_height h -> (1 <= n1)%Z -> (1 <= n2)%Z ->
  (n1 = 1 -> o1 = true)%Z -> (n2 = 1 -> o2 = true)%Z ->
  exists g, triangle_geometry phase_matrix valid_phases h n1 n2 ph1 ph2 o1 o2 = Ok g.
Proof.
  intros Hh H1 H2 O1 O2. unfold triangle_geometry. pose proof (h_bounds h Hh) as [B1 B2].
  pose proof (inj_pos _ H1) as P1. pose proof (inj_pos _ H2) as P2.
  assert ((n1 =? 1)%Z && negb o1 = false) as -> by (destruct (Z.eqb_spec n1 1) as [E|E]; [rewrite (O1 E)|]; reflexivity).
  assert ((n2 =? 1)%Z && negb o2 = false) as -> by (destruct (Z.eqb_spec n2 1) as [E|E]; [rewrite (O2 E)|]; reflexivity).
  apply lattice_geom_accepts.
  - reflexivity.
  - unfold long, sq_norm. cbn [fst snd]. assert (0 <= h * h) by nra. lra.
  - apply half_det. left. unfold det. cbn [fst snd]. lra.
  - unfold long, sq_norm, vscale. cbn [fst snd]. rewrite !Qred_correct. nra.
  - unfold long, sq_norm, vscale. cbn [fst snd]. rewrite !Qred_correct. set (q := inject_Z n2) in *. assert (0 <= q * h * (q * h)) by nra. nra.
  - apply half_det. left. unfold det, vscale. cbn [fst snd]. rewrite !Qred_correct.
    set (q1 := inject_Z n1) in *. set (q2 := inject_Z n2) in *. assert ((1 # 2) <= q2 * h) by nra. nra.
  - exists n1, 0%Z. apply tri_p1.
  - exists 0%Z, n2. apply tri_p2.
  - intros. apply phase_matrix_valid. assumption.
Qed.

Lemma hex_total h n1 n2 ph1 ph2 o1 o2 : triangle_height h -> (1 <= n1)%Z -> (1 <= n2)%Z ->
  (n1 = 1 -> o1 = true)%Z -> (n2 = 1 -> o2 = true)%Z ->
  exists g, hexagonal_geometry phase_matrix valid_phases h n1 n2 ph1 ph2 o1 o2 = Ok g.
Proof.
  intros Hh H1 H2 O1 O2. unfold hexagonal_geometry. pose proof (h_bounds h Hh) as [B1 B2].
  pose proof (inj_pos _ H1) as P1. pose proof (inj_pos _ H2) as P2.
  assert ((n1 =? 1)%Z && negb o1 = false) as -> by (destruct (Z.eqb_spec n1 1) as [E|E]; [rewrite (O1 E)|]; reflexivity).
  assert ((n2 =? 1)%Z && negb o2 = false) as -> by (destruct (Z.eqb_spec n2 1) as [E|E]; [rewrite (O2 E)|]; reflexivity).
  apply lattice_geom_accepts.
  - unfold long, sq_norm. cbn [fst snd]. assert (0 <= h * h) by nra. lra.
  - unfold long, sq_norm. cbn [fst snd]. assert (0 <= - h * - h) by nra. lra.
  - apply half_det. right. unfold det. cbn [fst snd]. lra.
  - unfold long, sq_norm, vscale. cbn [fst snd]. rewrite !Qred_correct. nra.
  - unfold long, sq_norm, vscale. cbn [fst snd]. rewrite !Qred_correct. set (q := inject_Z n2) in *. assert (1 <= q * (2 * h)) by nra. nra.
  - apply half_det. left. unfold det, vscale. cbn [fst snd]. rewrite !Qred_correct.
    set (q1 := inject_Z n1) in *. set (q2 := inject_Z n2) in *. assert (1 <= q2 * (2 * h)) by nra. nra.
  - exists n1, n1. apply hex_p1.
  - exists n2, (- n2)%Z. apply hex_p2.
  - intros. apply phase_matrix_valid. assumption.
Qed.

Lemma til_total nr nu ph1 ph2 o1 o2 : (1 <= nr * nr + nu * nu)%Z ->
  exists g, tilted_geometry phase_matrix valid_phases nr nu ph1 ph2 o1 o2 = Ok g.
Proof.
  intros H. unfold tilted_geometry.
  assert (P : 1 <= inject_Z nr * inject_Z nr + inject_Z nu * inject_Z nu).
  { rewrite <- !inject_Z_mult, <- inject_Z_plus. apply inj_pos. assumption. }
  apply lattice_geom_accepts.
  - reflexivity.
  - reflexivity.
  - reflexivity.
  - unfold long, sq_norm. cbn [fst snd]. lra.
  - unfold long, sq_norm. cbn [fst snd]. rewrite inject_Z_opp. lra.
  - apply det_positive. left. unfold det. cbn [fst snd]. rewrite inject_Z_opp. lra.
  - exists nr, nu. apply til_p1.
  - exists (- nu)%Z, nr. apply til_p2.
  - intros. apply phase_matrix_valid. assumption.
Qed.

(** * Few rows *)
Lemma float_rows b b' : (0 <= b < 4)%Z -> (0 <= b' < 4)%Z ->
  Qabs (round14 (inject_Z b * float_height) - round14 (inject_Z b' * float_height) - inject_Z (b - b') * float_height) <= 51 # 10000000000000000.
Proof.
  intros H H'.
  assert (b = 0 \/ b = 1 \/ b = 2 \/ b = 3)%Z as [-> |[-> |[-> | ->]]] by lia;
    assert (b' = 0 \/ b' = 1 \/ b' = 2 \/ b' = 3)%Z as [-> |[-> |[-> | ->]]] by lia; vm_compute; discriminate.
Qed.

Lemma few_rows s t b b' : (0 <= b < 4)%Z -> (0 <= b' < 4)%Z ->
  snd s == round14 (inject_Z b * float_height) -> snd t == round14 (inject_Z b' * float_height) -> rows_apart float_height s t (b - b').
Proof. intros H H' E F. unfold rows_apart. rewrite E, F. apply float_rows; assumption. Qed.

(** * Lost connections *)
Lemma lost_root : root_rounds_to_1 (sq_norm (-(1 # 2), round14 (inject_Z 3 * float_height) - round14 (inject_Z 4 * float_height))) = false /\
  root_rounds_to_1 (sq_norm (1 # 2, round14 (inject_Z 3 * float_height) - round14 (inject_Z 4 * float_height))) = false.
Proof. split; vm_compute; reflexivity. Qed.

Section LostTriangle.
  Context {Ph : Type} (lattice_phases : lattice -> nat -> (nat -> nat -> Q) -> (nat -> nat -> Q) -> mat Ph)
    (validate_phases : nat -> mat Ph -> bool).

  Lemma tri_lost n1 n2 ph1 ph2 o1 o2 g k l a : (1 <= n1 <= 100000000000000)%Z -> (1 <= n2 <= 100000000000000)%Z ->
    (o1 = false -> 3 <= n1)%Z -> (o2 = false -> 3 <= n2)%Z ->
    triangle_geometry lattice_phases validate_phases float_height n1 n2 ph1 ph2 o1 o2 = Ok g ->
    (k < g_n g)%nat -> (l < g_n g)%nat ->
    stands float_height (spot g k) (2 * a + 3) 3 -> stands float_height (spot g l) (2 * a + 4) 4 -> ent (g_adj g) k l = 0.
  Proof.
    intros N1 N2 M1 M2 HT Hk Hl S T.
    destruct (tri_rows lattice_phases validate_phases _ _ _ _ _ _ _ _ float_triangle N1 N2 HT k l 3 4 _ _ Hk Hl S T) as (_ & Rk & _ & Rl).
    destruct (displaced float_height g k l _ _ _ _ S T) as (e & He & D & Ee).
    replace (2 * a + 3 - (2 * a + 4))%Z with (-1)%Z in D by lia. change (3 - 4)%Z with (-1)%Z in D, Ee.
    destruct (tri_wide _ _ _ o1 o2 float_triangle N1 N2 M1 M2 (-1)%Z (-1)%Z e) as (x & y & C & A & B); [right; lia|assumption|].
    assert (Qh : (2 # 5) < (1 # 2) - half_unit) by reflexivity.
    apply (near_not lattice_phases validate_phases _ _ _ _ _ _ _ _ _ _ (tri_built _ _ _ _ _ _ _ _ _ _ HT) (tri_l1 _ N1) (tri_l2 _ _ float_triangle N2) k l _ x y Hk Hl D C).
    - exact (Qle_lt_trans _ _ _ A Qh).
    - exact (Qle_lt_trans _ _ _ B Qh).
    - rewrite <- (proj1 lost_root). apply root_comp, norm_comp. split; cbn [fst snd]; [reflexivity|].
      rewrite Ee, Rk, Rl. ring.
  Qed.

  Lemma hex_lost n1 n2 ph1 ph2 o1 o2 g k l X X' : (1 <= n1 /\ 6 * n1 <= 100000000000000)%Z -> (1 <= n2 /\ 2 * n2 <= 100000000000000)%Z ->
    hexagonal_geometry lattice_phases validate_phases float_height n1 n2 ph1 ph2 o1 o2 = Ok g ->
    (k < g_n g)%nat -> (l < g_n g)%nat -> (X - X' = 1 \/ X - X' = -1)%Z ->
    stands float_height (spot g k) X 3 -> stands float_height (spot g l) X' 4 -> ent (g_adj g) k l = 0.
  Proof.
    intros N1 N2 HT Hk Hl HX S T.
    destruct (hex_rows lattice_phases validate_phases _ _ _ _ _ _ _ _ float_triangle N1 N2 HT k l 3 4 _ _ Hk Hl S T) as (_ & Rk & _ & Rl).
    destruct (displaced float_height g k l _ _ _ _ S T) as (e & He & D & Ee). change (3 - 4)%Z with (-1)%Z in D, Ee.
    destruct (hex_wide lattice_phases validate_phases _ _ _ _ _ o1 o2 g float_triangle N1 N2 HT (X - X')%Z (-1)%Z e) as (x & y & C & A & B); [right; lia|assumption|].
    assert (Qh : (2 # 5) < (1 # 2) - half_unit) by reflexivity.
    apply (near_not lattice_phases validate_phases _ _ _ _ _ _ _ _ _ _ (hex_built _ _ _ _ _ _ _ _ _ _ HT) (hex_l1 _ N1) (hex_l2 _ _ float_triangle N2) k l _ x y Hk Hl D C).
    - exact (Qle_lt_trans _ _ _ A Qh).
    - exact (Qle_lt_trans _ _ _ B Qh).
    - destruct HX as [-> | ->].
      + rewrite <- (proj2 lost_root). apply root_comp, norm_comp. split; cbn [fst snd]; [reflexivity|]. rewrite Ee, Rk, Rl. ring.
      + rewrite <- (proj1 lost_root). apply root_comp, norm_comp. split; cbn [fst snd]; [reflexivity|]. rewrite Ee, Rk, Rl. ring.
  Qed.

  (** The torus of two by two sites. *)
  Lemma two_lost ph1 ph2 g k l : triangle_geometry lattice_phases validate_phases float_height 2 2 ph1 ph2 false false = Ok g ->
    (k < g_n g)%nat -> (l < g_n g)%nat ->
    stands float_height (spot g k) 1 1 -> stands float_height (spot g l) 2 0 -> ent (g_adj g) k l = 0.
  Proof.
    intros HT Hk Hl S T. assert (N : (1 <= 2 <= 100000000000000)%Z) by lia.
    destruct (tri_rows lattice_phases validate_phases _ _ _ _ _ _ _ _ float_triangle N N HT k l 1 0 _ _ Hk Hl S T) as (_ & Rk & _ & Rl).
    destruct S as [S _], T as [T _].
    apply (near_zero lattice_phases validate_phases _ _ _ _ _ _ _ _ _ _ (tri_built _ _ _ _ _ _ _ _ _ _ HT) (tri_l1 _ N) (tri_l2 _ _ float_triangle N)
      k l (-(1 # 2), round14 (inject_Z 1 * float_height)) Hk Hl).
    - unfold displacement, same_point. cbn [fst snd]. rewrite S, T, Rk, Rl. split; [reflexivity|].
      change (inject_Z 0) with 0. rewrite Qmult_0_l. rewrite round14_0. ring.
    - vm_compute. reflexivity.
    - vm_compute. reflexivity.
  Qed.
End LostTriangle.

(** * Summary *)
Section Summary.
  Context {Ph : Type} (lp : lattice -> nat -> (nat -> nat -> Q) -> (nat -> nat -> Q) -> mat Ph) (vp : nat -> mat Ph -> bool).

  Lemma tri_cell h n1 n2 ph1 ph2 o1 o2 g : triangle_height h -> (1 <= n1 <= 100000000000000)%Z -> (1 <= n2 <= 100000000000000)%Z ->
    triangle_geometry lp vp h n1 n2 ph1 ph2 o1 o2 = Ok g ->
    g_n g = (Z.to_nat n1 * Z.to_nat n2)%nat /\
    (forall k, (k < g_n g)%nat -> exists a b, (0 <= a < n1)%Z /\ (0 <= b < n2)%Z /\ stands h (spot g k) (2 * a + b) b) /\
    (forall a b, (0 <= a < n1)%Z -> (0 <= b < n2)%Z -> exists! k, (k < g_n g)%nat /\ stands h (spot g k) (2 * a + b) b).
  Proof.
    intros Hh N1 N2 HT. split; [|split].
    - exact (tri_count lp vp _ _ _ _ _ _ _ _ Hh N1 N2 HT).
    - intros k Hk. destruct (tri_site lp vp _ _ _ _ _ _ _ _ Hh N1 N2 HT k Hk) as (a & b & A & B & S & _). exists a, b. auto.
    - intros a b A B. destruct (tri_site_exists lp vp _ _ _ _ _ _ _ _ Hh N1 N2 HT a b A B) as (k & Hk & S). exists k. split; [auto|].
      intros l [Hl T]. exact (tri_site_unique lp vp _ _ _ _ _ _ _ _ Hh N1 N2 HT k l _ _ Hk Hl S T).
  Qed.
  Lemma hex_cell h n1 n2 ph1 ph2 o1 o2 g : triangle_height h -> (1 <= n1 /\ 6 * n1 <= 100000000000000)%Z -> (1 <= n2 /\ 2 * n2 <= 100000000000000)%Z ->
    hexagonal_geometry lp vp h n1 n2 ph1 ph2 o1 o2 = Ok g ->
    g_n g = (4 * Z.to_nat n1 * Z.to_nat n2)%nat /\
    (forall k, (k < g_n g)%nat -> exists X K, (0 <= X < 6 * n1)%Z /\ (0 <= K < 2 * n2)%Z /\ corner X K /\ stands h (spot g k) X K) /\
    (forall X K, (0 <= X < 6 * n1)%Z -> (0 <= K < 2 * n2)%Z -> corner X K -> exists! k, (k < g_n g)%nat /\ stands h (spot g k) X K).
  Proof.
    intros Hh N1 N2 HT. split; [|split].
    - exact (hex_count lp vp _ _ _ _ _ _ _ _ Hh N1 N2 HT).
    - intros k Hk. destruct (hex_site lp vp _ _ _ _ _ _ _ _ Hh N1 N2 HT k Hk) as (a & b & A & B & C & S & _). exists a, b. auto.
    - intros a b A B C. destruct (hex_site_exists lp vp _ _ _ _ _ _ _ _ Hh N1 N2 HT a b A B C) as (k & Hk & S). exists k. split; [auto|].
      intros l [Hl T]. exact (hex_site_unique lp vp _ _ _ _ _ _ _ _ Hh N1 N2 HT k l _ _ Hk Hl S T).
  Qed.
  Lemma til_cell nr nu ph1 ph2 o1 o2 g : (1 <= nr * nr + nu * nu <= 100000000000000)%Z ->
    tilted_geometry lp vp nr nu ph1 ph2 o1 o2 = Ok g ->
    g_n g = Z.to_nat (nr * nr + nu * nu) /\
    (forall k, (k < g_n g)%nat -> exists x y, same_point (spot g k) (ipoint x y) /\
       (0 <= x * nr + y * nu < nr * nr + nu * nu)%Z /\ (0 <= y * nr - x * nu < nr * nr + nu * nu)%Z) /\
    (forall x y, (0 <= x * nr + y * nu < nr * nr + nu * nu)%Z -> (0 <= y * nr - x * nu < nr * nr + nu * nu)%Z ->
       exists! k, (k < g_n g)%nat /\ same_point (spot g k) (ipoint x y)).
  Proof.
    intros HN HT. destruct (til_facts lp vp _ _ _ _ _ _ _ HN HT) as (A & B & C). split; [|split].
    - exact (til_count lp vp _ _ _ _ _ _ _ HN HT).
    - exact A.
    - intros x y X Y. destruct (B x y) as (k & c & d & Hk & S).
      assert (S' : same_point (spot g k) (ipoint x y)).
      { destruct (A k Hk) as (x' & y' & T & X' & Y'). destruct (ipoint_inj _ _ _ _ (same_trans _ _ _ (same_sym _ _ S) T)) as [E F].
        set (N := (nr * nr + nu * nu)%Z) in *.
        assert (x' * nr + y' * nu = x * nr + y * nu + c * N)%Z by (subst x' y'; unfold N; ring).
        assert (y' * nr - x' * nu = y * nr - x * nu + d * N)%Z by (subst x' y'; unfold N; ring).
        assert (c = 0)%Z by nia. assert (d = 0)%Z by nia. subst c d. 
        replace x with (x + 0 * nr - 0 * nu)%Z by ring. replace y with (y + 0 * nu + 0 * nr)%Z by ring. assumption. }
      exists k. split; [auto|]. intros l [Hl T]. apply (C k l Hk Hl). apply (same_trans _ _ _ S'), same_sym. assumption.
  Qed.

  Lemma adj_basic v1 v2 basis p1 p2 ph1 ph2 o1 o2 g : create_lattice_geom lp vp v1 v2 basis p1 p2 ph1 ph2 o1 o2 = Ok g -> long p1 -> long p2 ->
    forall k l, (k < g_n g)%nat -> (l < g_n g)%nat -> (ent (g_adj g) k l = 0 \/ ent (g_adj g) k l = 1) /\ ent (g_adj g) k l = ent (g_adj g) l k /\ ent (g_adj g) k k = 0.
  Proof. intros H L1 L2 k l Hk Hl. apply (adj_cases lp vp _ _ _ _ _ _ _ _ _ _ H L1 L2); assumption. Qed.

  Lemma til_neighbours nr nu ph1 ph2 o1 o2 g : (1 <= nr * nr + nu * nu <= 100000000000000)%Z ->
    tilted_geometry lp vp nr nu ph1 ph2 o1 o2 = Ok g ->
    forall k l x y x' y', (k < g_n g)%nat -> (l < g_n g)%nat -> same_point (spot g k) (ipoint x y) -> same_point (spot g l) (ipoint x' y') ->
    (ent (g_adj g) k l = 0 \/ ent (g_adj g) k l = 1) /\ ent (g_adj g) k k = 0 /\
    (k <> l -> (ent (g_adj g) k l = 1 <-> exists c d, (o1 = true -> c = 0)%Z /\ (o2 = true -> d = 0)%Z /\
       square_step (x - x' + c * nr - d * nu) (y - y' + c * nu + d * nr))).
  Proof.
    intros HN HT k l x y x' y' Hk Hl S T.
    destruct (adj_basic _ _ _ _ _ _ _ _ _ _ (til_built lp vp _ _ _ _ _ _ _ HT) (til_l1 _ _ HN) (til_l2 _ _ HN) k l Hk Hl) as (A & _ & B).
    split; [assumption|]. split; [assumption|]. intros O. split.
    - exact (til_sound lp vp _ _ _ _ _ _ _ HN HT k l _ _ _ _ Hk Hl S T).
    - intros (c & d & Hc & Hd & U). exact (til_complete lp vp _ _ _ _ _ _ _ HN HT k l _ _ _ _ c d Hk Hl O S T Hc Hd U).
  Qed.

  Lemma tri_neighbours h n1 n2 ph1 ph2 o1 o2 g : triangle_height h -> (1 <= n1 <= 100000000000000)%Z -> (1 <= n2 <= 100000000000000)%Z ->
    triangle_geometry lp vp h n1 n2 ph1 ph2 o1 o2 = Ok g ->
    forall k l a b a' b', (k < g_n g)%nat -> (l < g_n g)%nat ->
    stands h (spot g k) (2 * a + b) b -> stands h (spot g l) (2 * a' + b') b' ->
    (ent (g_adj g) k l = 0 \/ ent (g_adj g) k l = 1) /\
    (ent (g_adj g) k l = 1 -> exists c d, (o1 = true -> c = 0)%Z /\ (o2 = true -> d = 0)%Z /\ triangular_step (a - a' + c * n1) (b - b' + d * n2)) /\
    ((o1 = false -> 3 <= n1)%Z -> (o2 = false -> 3 <= n2)%Z -> rows_apart h (spot g k) (spot g l) (b - b') ->
     (exists c d, (o1 = true -> c = 0)%Z /\ (o2 = true -> d = 0)%Z /\ triangular_step (a - a' + c * n1) (b - b' + d * n2)) -> ent (g_adj g) k l = 1).
  Proof.
    intros Hh N1 N2 HT k l a b a' b' Hk Hl S T.
    destruct (adj_basic _ _ _ _ _ _ _ _ _ _ (tri_built lp vp _ _ _ _ _ _ _ _ HT) (tri_l1 _ N1) (tri_l2 _ _ Hh N2) k l Hk Hl) as (A & _ & _).
    split; [assumption|]. split.
    - exact (tri_sound lp vp _ _ _ _ _ _ _ _ Hh N1 N2 HT k l _ _ _ _ Hk Hl S T).
    - intros M1 M2 R (c & d & Hc & Hd & U). exact (tri_complete lp vp _ _ _ _ _ _ _ _ Hh N1 N2 HT k l _ _ _ _ c d M1 M2 Hk Hl S T Hc Hd U R).
  Qed.
  Lemma tri_few n1 n2 ph1 ph2 o1 o2 g : (1 <= n1 <= 100000000000000)%Z -> (1 <= n2 <= 4)%Z ->
    (o1 = false -> 3 <= n1)%Z -> (o2 = false -> 3 <= n2)%Z ->
    triangle_geometry lp vp float_height n1 n2 ph1 ph2 o1 o2 = Ok g ->
    forall k l a b a' b', (k < g_n g)%nat -> (l < g_n g)%nat ->
    stands float_height (spot g k) (2 * a + b) b -> stands float_height (spot g l) (2 * a' + b') b' ->
    (ent (g_adj g) k l = 1 <-> exists c d, (o1 = true -> c = 0)%Z /\ (o2 = true -> d = 0)%Z /\ triangular_step (a - a' + c * n1) (b - b' + d * n2)).
  Proof.
    intros N1 N2 M1 M2 HT k l a b a' b' Hk Hl S T. assert (N2' : (1 <= n2 <= 100000000000000)%Z) by lia.
    destruct (tri_neighbours _ _ _ _ _ _ _ _ float_triangle N1 N2' HT k l _ _ _ _ Hk Hl S T) as (_ & A & B).
    split; [exact A|]. intros E. apply B; try assumption.
    destruct (tri_rows lp vp _ _ _ _ _ _ _ _ float_triangle N1 N2' HT k l b b' _ _ Hk Hl S T) as (R1 & R2 & R3 & R4).
    apply few_rows; [lia|lia|assumption|assumption].
  Qed.
  Lemma hex_neighbours h n1 n2 ph1 ph2 o1 o2 g : triangle_height h -> (1 <= n1 /\ 6 * n1 <= 100000000000000)%Z -> (1 <= n2 /\ 2 * n2 <= 100000000000000)%Z ->
    hexagonal_geometry lp vp h n1 n2 ph1 ph2 o1 o2 = Ok g ->
    forall k l X K X' K', (k < g_n g)%nat -> (l < g_n g)%nat -> stands h (spot g k) X K -> stands h (spot g l) X' K' ->
    (ent (g_adj g) k l = 0 \/ ent (g_adj g) k l = 1) /\
    (ent (g_adj g) k l = 1 -> exists c d, (o1 = true -> c = 0)%Z /\ (o2 = true -> d = 0)%Z /\ unit_step (X - X' + c * (6 * n1)) (K - K' + d * (2 * n2))) /\
    (rows_apart h (spot g k) (spot g l) (K - K') ->
     (exists c d, (o1 = true -> c = 0)%Z /\ (o2 = true -> d = 0)%Z /\ unit_step (X - X' + c * (6 * n1)) (K - K' + d * (2 * n2))) -> ent (g_adj g) k l = 1).
  Proof.
    intros Hh N1 N2 HT k l X K X' K' Hk Hl S T.
    destruct (adj_basic _ _ _ _ _ _ _ _ _ _ (hex_built lp vp _ _ _ _ _ _ _ _ HT) (hex_l1 _ N1) (hex_l2 _ _ Hh N2) k l Hk Hl) as (A & _ & _).
    split; [assumption|]. split.
    - exact (hex_sound lp vp _ _ _ _ _ _ _ _ Hh N1 N2 HT k l _ _ _ _ Hk Hl S T).
    - intros R (c & d & Hc & Hd & U). exact (hex_complete lp vp _ _ _ _ _ _ _ _ Hh N1 N2 HT k l _ _ _ _ c d Hk Hl S T Hc Hd U R).
  Qed.
  Lemma hex_few n1 n2 ph1 ph2 o1 o2 g : (1 <= n1 /\ 6 * n1 <= 100000000000000)%Z -> (1 <= n2 <= 2)%Z ->
    hexagonal_geometry lp vp float_height n1 n2 ph1 ph2 o1 o2 = Ok g ->
    forall k l X K X' K', (k < g_n g)%nat -> (l < g_n g)%nat -> stands float_height (spot g k) X K -> stands float_height (spot g l) X' K' ->
    (ent (g_adj g) k l = 1 <-> exists c d, (o1 = true -> c = 0)%Z /\ (o2 = true -> d = 0)%Z /\ unit_step (X - X' + c * (6 * n1)) (K - K' + d * (2 * n2))).
  Proof.
    intros N1 N2 HT k l X K X' K' Hk Hl S T. assert (N2' : (1 <= n2 /\ 2 * n2 <= 100000000000000)%Z) by lia.
    destruct (hex_neighbours _ _ _ _ _ _ _ _ float_triangle N1 N2' HT k l _ _ _ _ Hk Hl S T) as (_ & A & B).
    split; [exact A|]. intros E. apply B; try assumption.
    destruct (hex_rows lp vp _ _ _ _ _ _ _ _ float_triangle N1 N2' HT k l K K' _ _ Hk Hl S T) as (R1 & R2 & R3 & R4).
    apply few_rows; [lia|lia|assumption|assumption].
  Qed.
End Summary.

(** Witnesses. *)
Lemma rows_lost : exists g k l, triangle_geometry phase_matrix valid_phases float_height 1 5 0 0 true true = Ok g /\
  (k < g_n g)%nat /\ (l < g_n g)%nat /\ stands float_height (spot g k) 3 3 /\ stands float_height (spot g l) 4 4 /\ ent (g_adj g) k l = 0.
Proof.
  destruct (tri_total float_height 1 5 0 0 true true float_triangle ltac:(lia) ltac:(lia) ltac:(reflexivity) ltac:(reflexivity)) as [g HT].
  assert (N1 : (1 <= 1 <= 100000000000000)%Z) by lia. assert (N2 : (1 <= 5 <= 100000000000000)%Z) by lia.
  destruct (tri_site_exists _ _ _ _ _ _ _ _ _ _ float_triangle N1 N2 HT 0 3) as (k & Hk & S); [lia|lia|].
  destruct (tri_site_exists _ _ _ _ _ _ _ _ _ _ float_triangle N1 N2 HT 0 4) as (l & Hl & T); [lia|lia|].
  exists g, k, l. repeat (split; [assumption|]).
  apply (tri_lost phase_matrix valid_phases 1 5 0 0 true true g k l 0 N1 N2); try assumption; discriminate.
Qed.
Lemma hexagon_rows_lost : exists g k l, hexagonal_geometry phase_matrix valid_phases float_height 1 3 0 0 true true = Ok g /\
  (k < g_n g)%nat /\ (l < g_n g)%nat /\ stands float_height (spot g k) 1 3 /\ stands float_height (spot g l) 2 4 /\ ent (g_adj g) k l = 0.
Proof.
  destruct (hex_total float_height 1 3 0 0 true true float_triangle ltac:(lia) ltac:(lia) ltac:(reflexivity) ltac:(reflexivity)) as [g HT].
  assert (N1 : (1 <= 1 /\ 6 * 1 <= 100000000000000)%Z) by lia. assert (N2 : (1 <= 3 /\ 2 * 3 <= 100000000000000)%Z) by lia.
  destruct (hex_site_exists _ _ _ _ _ _ _ _ _ _ float_triangle N1 N2 HT 1 3) as (k & Hk & S); [lia|lia|split; [exists (-1)%Z; lia|intros [z Hz]; lia]|].
  destruct (hex_site_exists _ _ _ _ _ _ _ _ _ _ float_triangle N1 N2 HT 2 4) as (l & Hl & T); [lia|lia|split; [exists (-1)%Z; lia|intros [z Hz]; lia]|].
  exists g, k, l. repeat (split; [assumption|]).
  apply (hex_lost phase_matrix valid_phases 1 3 0 0 true true g k l 1 2 N1 N2); try assumption. right. reflexivity.
Qed.
Lemma torus_lost : exists g k l, triangle_geometry phase_matrix valid_phases float_height 2 2 0 0 false false = Ok g /\
  (k < g_n g)%nat /\ (l < g_n g)%nat /\ stands float_height (spot g k) 1 1 /\ stands float_height (spot g l) 2 0 /\ ent (g_adj g) k l = 0.
Proof.
  destruct (tri_total float_height 2 2 0 0 false false float_triangle ltac:(lia) ltac:(lia) ltac:(discriminate) ltac:(discriminate)) as [g HT].
  assert (N1 : (1 <= 2 <= 100000000000000)%Z) by lia.
  destruct (tri_site_exists _ _ _ _ _ _ _ _ _ _ float_triangle N1 N1 HT 0 1) as (k & Hk & S); [lia|lia|].
  destruct (tri_site_exists _ _ _ _ _ _ _ _ _ _ float_triangle N1 N1 HT 1 0) as (l & Hl & T); [lia|lia|].
  exists g, k, l. repeat (split; [assumption|]). apply (two_lost phase_matrix valid_phases 0 0 g k l); assumption.
Qed.
