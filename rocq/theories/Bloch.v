(** The motion of one spin in the field and next to the others. *)
From Coq Require Import List Arith Lia Reals Lra ZArith QArith Bool.
From Verif Require Import Scalars Res Matrix Sums SqMat SpecMat ModelBase ModelFermions ModelSpins SpecSpins Digits SpinAlg SpinOps HamProofs SpinHam SpinSym SpinApi Sectors ModelGeometry ModelPhase
  SpecPrecess Precess SpecLongtime Longtime SpecEcho Echo SpecRates Rates Uncertain Equil SpecFlow Flow
  ModelSymmetry SymBase ModelThermal SpecThermal ThermalBase ThermalBasis SpecReversal Reversal ReversalSpins SpecBloch.
Import ListNotations.
Local Open Scope R_scope.

Lemma expect_plus N (A B C : mat CR) psi : (forall a b, (a < N)%nat -> (b < N)%nat -> ent A a b = ent B a b +c ent C a b) -> expect N A psi = expect N B psi + expect N C psi.
Proof.
  intros X. unfold expect. transitivity (fst (inner N psi (apply N B psi) +c inner N psi (apply N C psi))); [|reflexivity]. f_equal. unfold inner, apply. rewrite <- ksum_add. apply ksum_ext. intros a Ha.
  transitivity (conj (psi a) *c (ksum N (fun b => ent B a b *c psi b) +c ksum N (fun b => ent C a b *c psi b))); [|ring]. f_equal. rewrite <- ksum_add. apply ksum_ext. intros b Hb. rewrite (X a b Ha Hb). ring.
Qed.
Lemma expect_times N (A B : mat CR) c psi : (forall a b, (a < N)%nat -> (b < N)%nat -> ent A a b = real c *c ent B a b) -> expect N A psi = c * expect N B psi.
Proof.
  intros X. unfold expect. transitivity (fst (real c *c inner N psi (apply N B psi))); [|generalize (inner N psi (apply N B psi)); intros (u, v); cbn; ring]. f_equal. unfold inner, apply. rewrite <- ksum_mul_l. apply ksum_ext. intros a Ha.
  transitivity (conj (psi a) *c (real c *c ksum N (fun b => ent B a b *c psi b))); [|ring]. f_equal. rewrite <- ksum_mul_l. apply ksum_ext. intros b Hb. rewrite (X a b Ha Hb). ring.
Qed.
Lemma pair_swap n i j (A B : nat -> nat -> CR) a b : pair_elem 2 n i j A B a b = pair_elem 2 n j i B A a b.
Proof.
  unfold pair_elem. replace (agree_off 2 n [j; i] a b) with (agree_off 2 n [i; j] a b).
  - destruct (agree_off 2 n [i; j] a b); [ring | reflexivity].
  - apply eq_true_iff_eq. rewrite !agree_off_spec. cbn [In]. split; intros X p Hp NI; apply X; auto; tauto.
Qed.

Section Bloch.
  Variables (rt : nat -> CR) (s : spins CR).
  Notation n := (sg_nsites (sp_geom s)).
  Notation D := (2 ^ n)%nat.
  Hypothesis root : rt 1%nat = k1.
  Hypothesis half : sp_two s = 1%nat.
  Variable i0 : nat.
  Hypothesis Hi0 : (i0 < n)%nat.
  Notation X := (ent (sx_op rt 1)).
  Notation Y := (ent (sy_op rt 1)).
  Notation Z := (ent (sz_op (K:=CR) 1)).
  Notation dg p a := (digit 2 n p a).
  Definition zv (p : nat) : R := if (p =? 0)%nat then / 2 else - / 2.
  Notation dz a b := ((0, zv (dg i0 b) - zv (dg i0 a)) : CR).
  Lemma bits p a : dg p a = 0%nat \/ dg p a = 1%nat.
  Proof using. clear. pose proof (digit_lt 2 ltac:(lia) n p a). lia. Qed.
  Lemma turn_x p q : (p < 2)%nat -> (q < 2)%nat -> (0, zv q - zv p) *c X p q = kopp (Y p q).
  Proof using root. clear half Hi0. intros Hp Hq. rewrite (half_x rt root p q Hp Hq), (half_y rt root p q Hp Hq). assert (p = 0 \/ p = 1)%nat as [-> | ->] by lia; assert (q = 0 \/ q = 1)%nat as [-> | ->] by lia; unfold zv; apply injective_projections; cbn; field. Qed.
  Lemma turn_y p q : (p < 2)%nat -> (q < 2)%nat -> (0, zv q - zv p) *c Y p q = X p q.
  Proof using root. clear half Hi0. intros Hp Hq. rewrite (half_x rt root p q Hp Hq), (half_y rt root p q Hp Hq). assert (p = 0 \/ p = 1)%nat as [-> | ->] by lia; assert (q = 0 \/ q = 1)%nat as [-> | ->] by lia; unfold zv; apply injective_projections; cbn; field. Qed.
  Lemma turn_z p q : (p < 2)%nat -> (q < 2)%nat -> (0, zv q - zv p) *c Z p q = c0.
  Proof using. clear half Hi0. intros Hp Hq. rewrite (half_z p q Hp Hq). assert (p = 0 \/ p = 1)%nat as [-> | ->] by lia; assert (q = 0 \/ q = 1)%nat as [-> | ->] by lia; unfold zv; apply injective_projections; cbn; field. Qed.
  Lemma dlt p a : (dg p a < 2)%nat. Proof using. clear. apply digit_lt. lia. Qed.
  Lemma turn_site i (A : nat -> nat -> CR) a b : (i < n)%nat -> i <> i0 -> dz a b *c site_elem 2 n i A a b = c0.
  Proof using Hi0.
    intros Hi NE. unfold site_elem. destruct (agree_off 2 n [i] a b) eqn:AG; [|apply injective_projections; cbn; ring]. rewrite agree_off_spec in AG. rewrite (AG i0 Hi0) by (cbn; intros [Q|[]]; congruence). generalize (A (dg i a) (dg i b)). intros (u, v). apply injective_projections; cbn; ring.
  Qed.
  Lemma turn_far i j (A B : nat -> nat -> CR) a b : i <> i0 -> j <> i0 -> dz a b *c pair_elem 2 n i j A B a b = c0.
  Proof using Hi0.
    intros NE NJ. unfold pair_elem. destruct (agree_off 2 n [i; j] a b) eqn:AG; [|apply injective_projections; cbn; ring]. rewrite agree_off_spec in AG. rewrite (AG i0 Hi0) by (cbn; intros [Q|[Q|[]]]; congruence). generalize (A (dg i a) (dg i b) *c B (dg j a) (dg j b)). intros (u, v). apply injective_projections; cbn; ring.
  Qed.
  Lemma turn_near j (A A' B : nat -> nat -> CR) (c : CR) a b : (forall p q, (p < 2)%nat -> (q < 2)%nat -> (0, zv q - zv p) *c A p q = c *c A' p q) -> dz a b *c pair_elem 2 n i0 j A B a b = c *c pair_elem 2 n i0 j A' B a b.
  Proof using.
    clear. intros T. unfold pair_elem. destruct (agree_off 2 n [i0; j] a b); [|apply injective_projections; cbn; ring]. specialize (T (dg i0 a) (dg i0 b) (dlt _ _) (dlt _ _)).
    transitivity ((dz a b *c A (dg i0 a) (dg i0 b)) *c B (dg j a) (dg j b)); [ring|]. rewrite T. ring.
  Qed.
  Lemma turn_here (A A' : nat -> nat -> CR) (c : CR) a b : (forall p q, (p < 2)%nat -> (q < 2)%nat -> (0, zv q - zv p) *c A p q = c *c A' p q) -> dz a b *c site_elem 2 n i0 A a b = c *c site_elem 2 n i0 A' a b.
  Proof using. clear. intros T. unfold site_elem. destruct (agree_off 2 n [i0] a b); [|apply injective_projections; cbn; ring]. apply T; apply dlt. Qed.
  Hypothesis re : real_terms s.
  Notation HE := (spin_elem 2 n (kofnat 2) k1 X Y Z (sp_jx s) (sp_jy s) (sp_jz s) (sp_hx s) (sp_hy s) (sp_hz s)).
  Notation yx j a b := (pair_elem 2 n i0 j Y X a b).
  Notation xy j a b := (pair_elem 2 n i0 j X Y a b).
  Lemma pairs_sum (T : nat -> nat -> CR) : (forall i j, (j < i < n)%nat -> i <> i0 -> j <> i0 -> T i j = c0) ->
    ksum n (fun i => ksum i (fun j => T i j)) = ksum n (fun j => if (j =? i0)%nat then c0 else T (Nat.max i0 j) (Nat.min i0 j)).
  Proof using Hi0.
    clear re root half. intros T0.
    rewrite (ksum_ext n _ (fun i => (if (i =? i0)%nat then ksum i0 (T i0) else c0) +c (if (i0 <? i)%nat then T i i0 else c0))).
    - rewrite ksum_add. rewrite (ksum_single n i0 _ Hi0) by (intros k _ NE; rewrite (proj2 (Nat.eqb_neq _ _) NE); reflexivity). rewrite Nat.eqb_refl. rewrite <- (ksum_below n i0 (T i0)) by lia. rewrite <- ksum_add. apply ksum_ext. intros j Hj.
      destruct (Nat.eqb_spec j i0) as [->|NE]; [rewrite Nat.ltb_irrefl; ring|]. destruct (Nat.ltb_spec j i0) as [L|L].
      + rewrite (proj2 (Nat.ltb_ge i0 j)) by lia. rewrite Nat.max_l, Nat.min_r by lia. ring.
      + rewrite (proj2 (Nat.ltb_lt i0 j)) by lia. rewrite Nat.max_r, Nat.min_l by lia. ring.
    - intros i Hi. destruct (Nat.eqb_spec i i0) as [->|NE]; [rewrite Nat.ltb_irrefl; change (ksum i0 (fun j => T i0 j)) with (ksum i0 (T i0)); ring|]. destruct (Nat.ltb_spec i0 i) as [L|L].
      + rewrite (ksum_single i i0 _ L); [ring|]. intros j Hj NJ. apply T0; lia.
      + rewrite ksum_zero; [ring|]. intros j Hj. apply T0; lia.
  Qed.
  Definition cy (j : nat) : R := if (j =? i0)%nat then 0 else -2 * bond_along (sp_jx s) i0 j.
  Definition cx (j : nat) : R := if (j =? i0)%nat then 0 else 2 * bond_along (sp_jy s) i0 j.
  Lemma two_real : kofnat (K:=CR) 2 = real 2. Proof using. rewrite !kofnat_S, kofnat_0. apply injective_projections; cbn; ring. Qed.
  Lemma torque a b : dz a b *c HE a b =
    (ksum n (fun j => real (cy j) *c yx j a b) +c ksum n (fun j => real (cx j) *c xy j a b)) +c (real (fst (sp_hx s i0)) *c site_elem 2 n i0 Y a b +c real (- fst (sp_hy s i0)) *c site_elem 2 n i0 X a b).
  Proof using root half Hi0 re.
    destruct re as (RJ & RH). unfold spin_elem.
    assert (TX : forall p q, (p < 2)%nat -> (q < 2)%nat -> (0, zv q - zv p) *c X p q = real (-1) *c Y p q) by (intros p q Hp Hq; rewrite turn_x by assumption; generalize (Y p q); intros (u, v); apply injective_projections; cbn; ring).
    assert (TY : forall p q, (p < 2)%nat -> (q < 2)%nat -> (0, zv q - zv p) *c Y p q = real 1 *c X p q) by (intros p q Hp Hq; rewrite turn_y by assumption; generalize (X p q); intros (u, v); apply injective_projections; cbn; ring).
    assert (TZ : forall p q, (p < 2)%nat -> (q < 2)%nat -> (0, zv q - zv p) *c Z p q = real 0 *c Z p q) by (intros p q Hp Hq; rewrite turn_z by assumption; generalize (Z p q); intros (u, v); apply injective_projections; cbn; ring).
    match goal with |- _ *c (?P -c ?F) = _ => transitivity (dz a b *c P -c dz a b *c F); [ring|] end. transitivity (
      ksum n (fun j => real (cy j) *c yx j a b +c real (cx j) *c xy j a b) -c (real (- fst (sp_hx s i0)) *c site_elem 2 n i0 Y a b +c real (fst (sp_hy s i0)) *c site_elem 2 n i0 X a b)).
    2:{ rewrite ksum_add. generalize (site_elem 2 n i0 Y a b), (site_elem 2 n i0 X a b). intros (u, u') (v, v'). apply injective_projections; cbn; ring. }
    f_equal.
    - rewrite <- ksum_mul_l. rewrite (ksum_ext n _ (fun i => ksum i (fun j => dz a b *c (kofnat 2 *c (sp_jx s i j *c pair_elem 2 n i j X X a b +c sp_jy s i j *c pair_elem 2 n i j Y Y a b +c sp_jz s i j *c pair_elem 2 n i j Z Z a b)))))
        by (intros i Hi; rewrite <- ksum_mul_l; reflexivity).
      rewrite (pairs_sum (fun i j => dz a b *c (kofnat 2 *c (sp_jx s i j *c pair_elem 2 n i j X X a b +c sp_jy s i j *c pair_elem 2 n i j Y Y a b +c sp_jz s i j *c pair_elem 2 n i j Z Z a b)))).
      + apply ksum_ext. intros j Hj. unfold cy, cx, bond_along. destruct (Nat.eqb_spec j i0) as [->|NE]; [generalize (yx i0 a b), (xy i0 a b); intros (u, u') (v, v'); apply injective_projections; cbn; ring|].
        assert (SW : forall A, pair_elem 2 n (Nat.max i0 j) (Nat.min i0 j) A A a b = pair_elem (K:=CR) 2 n i0 j A A a b).
        { intros A. destruct (Nat.lt_ge_cases j i0) as [L|L]; [rewrite Nat.max_l, Nat.min_r by lia; reflexivity | rewrite Nat.max_r, Nat.min_l by lia; apply pair_swap]. }
        rewrite !SW. destruct (RJ (Nat.max i0 j) (Nat.min i0 j) ltac:(lia)) as (R1 & R2 & _).
        destruct (sp_jx s (Nat.max i0 j) (Nat.min i0 j)) as (jx, jx'), (sp_jy s (Nat.max i0 j) (Nat.min i0 j)) as (jy, jy'). cbn [fst snd] in *. subst jx' jy'. rewrite two_real. set (jz := sp_jz s (Nat.max i0 j) (Nat.min i0 j)). clearbody jz.
        pose proof (turn_near j X Y X (real (-1)) a b TX) as P1. pose proof (turn_near j Y X Y (real 1) a b TY) as P2. pose proof (turn_near j Z Z Z (real 0) a b TZ) as P3.
        transitivity (real 2 *c ((jx, 0) *c (dz a b *c pair_elem 2 n i0 j X X a b) +c (jy, 0) *c (dz a b *c pair_elem 2 n i0 j Y Y a b) +c jz *c (dz a b *c pair_elem 2 n i0 j Z Z a b))); [ring|]. rewrite P1, P2, P3.
        generalize (yx j a b), (xy j a b), (pair_elem 2 n i0 j Z Z a b). clear. destruct jz as (z, z'). intros (u, u') (v, v') (w, w'). apply injective_projections; cbn; ring.
      + intros i j Hij NI NJ. cbn beta. pose proof (turn_far i j X X a b NI NJ) as P1. pose proof (turn_far i j Y Y a b NI NJ) as P2. pose proof (turn_far i j Z Z a b NI NJ) as P3.
        transitivity (kofnat 2 *c (sp_jx s i j *c (dz a b *c pair_elem 2 n i j X X a b) +c sp_jy s i j *c (dz a b *c pair_elem 2 n i j Y Y a b) +c sp_jz s i j *c (dz a b *c pair_elem 2 n i j Z Z a b))); [ring|]. rewrite P1, P2, P3. ring.
    - rewrite <- ksum_mul_l. rewrite (ksum_single n i0 _ Hi0).
      + destruct (RH i0 Hi0) as (R1 & R2 & _). destruct (sp_hx s i0) as (hx, hx'), (sp_hy s i0) as (hy, hy'). cbn [fst snd] in *. subst hx' hy'. set (hz := sp_hz s i0). clearbody hz.
        pose proof (turn_here X Y (real (-1)) a b TX) as P1. pose proof (turn_here Y X (real 1) a b TY) as P2. pose proof (turn_here Z Z (real 0) a b TZ) as P3.
        transitivity ((hx, 0) *c (dz a b *c site_elem 2 n i0 X a b) +c (hy, 0) *c (dz a b *c site_elem 2 n i0 Y a b) +c hz *c (dz a b *c site_elem 2 n i0 Z a b)); [ring|]. rewrite P1, P2, P3.
        generalize (site_elem 2 n i0 X a b), (site_elem 2 n i0 Y a b), (site_elem 2 n i0 Z a b). clear. destruct hz as (z, z'). intros (u, u') (v, v') (w, w'). apply injective_projections; cbn; ring.
      + intros i Hi NE. pose proof (turn_site i X a b Hi NE) as P1. pose proof (turn_site i Y a b Hi NE) as P2. pose proof (turn_site i Z a b Hi NE) as P3.
        transitivity (sp_hx s i *c (dz a b *c site_elem 2 n i X a b) +c sp_hy s i *c (dz a b *c site_elem 2 n i Y a b) +c sp_hz s i *c (dz a b *c site_elem 2 n i Z a b)); [ring|]. rewrite P1, P2, P3. ring.
  Qed.

  (** ** For selected basis states *)
  Variables (P : mat CR) (idx : list nat) (H V : mat CR) (E : list R).
  Notation N := (length idx).
  Notation at_ p := (nth p idx 0%nat).
  Hypothesis sec : rows_are D P idx.
  Hypothesis once : NoDup idx.
  Hypothesis inside : forall a, In a idx -> (a < D)%nat.
  Hypothesis EH : sp_createH rt s (Some P) = Ok H.
  Hypothesis basis : eigenbasis H V E.
  Lemma at_D a : (a < N)%nat -> (at_ a < D)%nat. Proof using inside. intros Ha. apply inside, nth_In, Ha. Qed.
  Lemma spin_rows : nrow H = N /\ forall a b, (a < N)%nat -> (b < N)%nat -> ent H a b = HE (at_ a) (at_ b).
  Proof using half sec inside EH.
    pose proof sec as (R1 & R2 & R3). assert (R2' : ncol P = ((sp_two s + 1) ^ n)%nat) by (rewrite half; exact R2).
    destruct (createH_proj rt s P R2' (half_fields s half)) as (H' & E' & (S1 & S2) & W). rewrite EH in E'. injection E' as <-. split; [congruence|]. intros a b Ha Hb. rewrite W. unfold H_elem. rewrite half. cbn [Nat.add]. apply (sand_rows D P idx HE a b sec inside Ha Hb).
  Qed.
  Lemma site_rows A T B : square 2 A -> single_site_op (sp_sys s) i0 0 A Boson = Ok T -> sandwich P T = Ok B -> nrow B = N /\ ncol B = N /\ forall a b, (a < N)%nat -> (b < N)%nat -> ent B a b = site_elem 2 n i0 (ent A) (at_ a) (at_ b).
  Proof using half Hi0 sec inside.
    intros SA ET EB. destruct (single_elem 2 ltac:(lia) n i0 A SA Hi0 (or_introl eq_refl)) as (T' & ET' & ST & W). rewrite sp_sys_dsys, half in ET. cbn [Nat.add] in ET. rewrite ET in ET'. injection ET' as <-.
    pose proof sec as (R1 & R2 & R3). destruct (sandwich_ok D P T R2 ST) as (B' & EB' & (S1 & S2) & W2). rewrite EB in EB'. injection EB' as <-. split; [congruence|]. split; [congruence|].
    intros a b Ha Hb. rewrite W2, (sand_rows D P idx (ent T) a b sec inside Ha Hb). apply W; apply at_D; assumption.
  Qed.
  Lemma pair_rows j A A' T B : (j < n)%nat -> j <> i0 -> square 2 A -> square 2 A' -> two_site_op (sp_sys s) i0 0 j 0 A A' Boson = Ok T -> sandwich P T = Ok B ->
    nrow B = N /\ ncol B = N /\ forall a b, (a < N)%nat -> (b < N)%nat -> ent B a b = pair_elem 2 n i0 j (ent A) (ent A') (at_ a) (at_ b).
  Proof using half Hi0 sec inside.
    intros Hj NE SA SA' ET EB. destruct (two_elem 2 ltac:(lia) n i0 j A A' SA SA' Hi0 Hj (fun q => NE (eq_sym q))) as (T' & ET' & ST & W). rewrite sp_sys_dsys, half in ET. cbn [Nat.add] in ET. rewrite ET in ET'. injection ET' as <-.
    pose proof sec as (R1 & R2 & R3). destruct (sandwich_ok D P T R2 ST) as (B' & EB' & (S1 & S2) & W2). rewrite EB in EB'. injection EB' as <-. split; [congruence|]. split; [congruence|].
    intros a b Ha Hb. rewrite W2, (sand_rows D P idx (ent T) a b sec inside Ha Hb). apply W; apply at_D; assumption.
  Qed.
  Lemma z_rows B : (forall a b, (a < N)%nat -> (b < N)%nat -> ent B a b = site_elem 2 n i0 Z (at_ a) (at_ b)) -> forall a b, (a < N)%nat -> (b < N)%nat -> ent B a b = if (a =? b)%nat then real (zv (dg i0 (at_ a))) else c0.
  Proof using once inside Hi0.
    intros W a b Ha Hb. rewrite (W a b Ha Hb). unfold site_elem. destruct (Nat.eqb_spec a b) as [<-|NE].
    - rewrite (proj2 (agree_off_spec 2 n [i0] (at_ a) (at_ a))) by reflexivity. rewrite (half_z _ _ (dlt _ _) (dlt _ _)). unfold sigma_z, zv. rewrite Nat.eqb_refl. destruct (dg i0 (at_ a) =? 0)%nat; apply injective_projections; cbn; unfold Q2R; cbn; field.
    - destruct (agree_off 2 n [i0] (at_ a) (at_ b)) eqn:AG; [|reflexivity]. rewrite (half_z _ _ (dlt _ _) (dlt _ _)). unfold sigma_z. destruct (Nat.eqb_spec (dg i0 (at_ a)) (dg i0 (at_ b))) as [Q|]; [|apply injective_projections; cbn; ring].
      exfalso. apply NE. apply (proj1 (NoDup_nth idx 0%nat) once); [assumption..|]. apply Nat.eqb_eq. rewrite <- (agree_off_nil 2 n (at_ a) (at_ b)); [|discriminate | apply at_D; assumption..]. rewrite agree_off_spec in *. intros p Hp _. destruct (Nat.eq_dec p i0) as [->|NP]; [exact Q|]. apply AG; [exact Hp|]. cbn. intros [F|[]]; congruence.
  Qed.
  Theorem bloch (OX OY OZ BX BY BZ : mat CR) (YX XY : nat -> mat CR) (BYX BXY : nat -> mat CR) st k :
    single_site_op (sp_sys s) i0 0 (sx_op rt 1) Boson = Ok OX -> sandwich P OX = Ok BX -> single_site_op (sp_sys s) i0 0 (sy_op rt 1) Boson = Ok OY -> sandwich P OY = Ok BY ->
    single_site_op (sp_sys s) i0 0 (sz_op 1) Boson = Ok OZ -> sandwich P OZ = Ok BZ ->
    (forall j, (j < n)%nat -> j <> i0 -> two_site_op (sp_sys s) i0 0 j 0 (sy_op rt 1) (sx_op rt 1) Boson = Ok (YX j) /\ sandwich P (YX j) = Ok (BYX j) /\
      two_site_op (sp_sys s) i0 0 j 0 (sx_op rt 1) (sy_op rt 1) Boson = Ok (XY j) /\ sandwich P (XY j) = Ok (BXY j)) ->
    (k < ncol (as_columns st))%nat ->
    exists z z', (forall t, derivable_pt_lim z t (z' t)) /\
      forall times Ms vx vy vz vyx vxy, quench st V E times = Ok Ms -> exp_vals (Columns (nth k Ms (mzero 0 0))) BX = Ok vx -> exp_vals (Columns (nth k Ms (mzero 0 0))) BY = Ok vy -> exp_vals (Columns (nth k Ms (mzero 0 0))) BZ = Ok vz ->
        (forall j, (j < n)%nat -> j <> i0 -> exp_vals (Columns (nth k Ms (mzero 0 0))) (BYX j) = Ok (vyx j) /\ exp_vals (Columns (nth k Ms (mzero 0 0))) (BXY j) = Ok (vxy j)) ->
        forall a, (a < length times)%nat -> nth a vz 0 = z (nth a times 0) /\
          total (fun j => if (j =? i0)%nat then 0 else 2 * (bond_along (sp_jy s) i0 j * nth a (vxy j) 0 - bond_along (sp_jx s) i0 j * nth a (vyx j) 0)) (seq 0 n)
            + (fst (sp_hx s i0) * nth a vy 0 - fst (sp_hy s i0) * nth a vx 0) = z' (nth a times 0).
  Proof using All.
    intros EX SX EY SY EZ SZ EP Hk. destruct (site_rows (sx_op rt 1) OX BX ltac:(split; reflexivity) EX SX) as (X1 & X2 & XE). destruct (site_rows (sy_op rt 1) OY BY ltac:(split; reflexivity) EY SY) as (Y1 & Y2 & YE). destruct (site_rows (sz_op 1) OZ BZ ltac:(split; reflexivity) EZ SZ) as (Z1 & Z2 & ZE).
    destruct spin_rows as (H1 & HH). assert (VN : nrow V = N) by (assert (HN : nrow H = nrow V) by apply basis; congruence).
    set (g1 := fun j a b => yx j (at_ a) (at_ b)). set (g2 := fun j a b => xy j (at_ a) (at_ b)).
    set (M1 := Mat N N (fun a b => ksum n (fun j => real (cy j) *c g1 j a b)) : mat CR). set (M2 := Mat N N (fun a b => ksum n (fun j => real (cx j) *c g2 j a b)) : mat CR).
    set (M3 := Mat N N (fun a b => real (fst (sp_hx s i0)) *c ent BY a b) : mat CR). set (M4 := Mat N N (fun a b => real (- fst (sp_hy s i0)) *c ent BX a b) : mat CR).
    set (M12 := Mat N N (fun a b => ent M1 a b +c ent M2 a b) : mat CR). set (M34 := Mat N N (fun a b => ent M3 a b +c ent M4 a b) : mat CR).
    assert (RE : forall a b, (a < N)%nat -> (b < N)%nat -> ent (rate_op H BZ) a b = ent M12 a b +c ent M34 a b).
    { intros a b Ha Hb. rewrite (diagonal_rate N H BZ (fun a => zv (dg i0 (at_ a))) a b H1 (z_rows BZ ZE) Ha Hb), HH by assumption. rewrite torque. cbn [M12 M34 M1 M2 M3 M4 ent]. rewrite XE, YE by assumption. reflexivity. }
    exists (fun t => expect N BZ (evolve V E (col (as_columns st) k) t)), (fun t => expect N (rate_op H BZ) (evolve V E (col (as_columns st) k) t)). split.
    - intros t. rewrite <- VN. apply (motion H V BZ E _ basis).
    - intros times Ms vx vy vz vyx vxy Q QX QY QZ QP a Ha. rewrite <- VN at 1. split; [apply (path_entries V E st times Ms k BZ vz Q Hk); try assumption; congruence|].
      set (phi := evolve V E (col (as_columns st) k) (nth a times 0)).
      rewrite (expect_plus N (rate_op H BZ) M12 M34 phi RE). rewrite (expect_plus N M12 M1 M2 phi) by reflexivity. rewrite (expect_plus N M34 M3 M4 phi) by reflexivity.
      rewrite (expect_times N M3 BY _ phi ltac:(reflexivity)), (expect_times N M4 BX _ phi ltac:(reflexivity)).
      rewrite (expect_comb N n M1 cy g1 phi ltac:(reflexivity)), (expect_comb N n M2 cx g2 phi ltac:(reflexivity)).
      rewrite (path_entries V E st times Ms k BX vx Q Hk) by (assumption || congruence). rewrite (path_entries V E st times Ms k BY vy Q Hk) by (assumption || congruence). rewrite VN. fold phi.
      rewrite <- total_add. f_equal; [|ring]. apply total_ext. intros j Hj. apply in_seq in Hj. unfold cy, cx. destruct (Nat.eqb_spec j i0) as [->|NE]; [ring|].
      destruct (EP j ltac:(lia) NE) as (E1 & E2 & E3 & E4). destruct (QP j ltac:(lia) NE) as (Q1 & Q2).
      destruct (pair_rows j (sy_op rt 1) (sx_op rt 1) (YX j) (BYX j) ltac:(lia) NE ltac:(split; reflexivity) ltac:(split; reflexivity) E1 E2) as (A1 & A2 & AE). destruct (pair_rows j (sx_op rt 1) (sy_op rt 1) (XY j) (BXY j) ltac:(lia) NE ltac:(split; reflexivity) ltac:(split; reflexivity) E3 E4) as (B1 & B2 & BE).
      rewrite (path_entries V E st times Ms k (BYX j) (vyx j) Q Hk) by (assumption || congruence). rewrite (path_entries V E st times Ms k (BXY j) (vxy j) Q Hk) by (assumption || congruence). rewrite VN. fold phi.
      rewrite (expect_same idx (BYX j) (Mat N N (g1 j))) by (intros p q Hp Hq; rewrite AE by assumption; reflexivity). rewrite (expect_same idx (BXY j) (Mat N N (g2 j))) by (intros p q Hp Hq; rewrite BE by assumption; reflexivity). ring.
  Qed.
End Bloch.
Theorem bloch_runs (s : spins CR) i j A B P : sp_two s = 1%nat -> (i < sg_nsites (sp_geom s))%nat -> (j < sg_nsites (sp_geom s))%nat -> i <> j -> square 2 A -> square 2 B -> ncol P = (2 ^ sg_nsites (sp_geom s))%nat ->
  exists O O' T T', single_site_op (sp_sys s) i 0 A Boson = Ok O /\ sandwich P O = Ok O' /\ two_site_op (sp_sys s) i 0 j 0 A B Boson = Ok T /\ sandwich P T = Ok T'.
Proof.
  intros half Hi Hj NE SA SB HP. rewrite sp_sys_dsys, half. cbn [Nat.add].
  destruct (single_elem 2 ltac:(lia) _ i A SA Hi (or_introl eq_refl)) as (O & EO & SO & _). destruct (two_elem 2 ltac:(lia) _ i j A B SA SB Hi Hj NE) as (T & ET & ST & _).
  destruct (sandwich_ok _ P O HP SO) as (O' & EO' & _). destruct (sandwich_ok _ P T HP ST) as (T' & ET' & _). exists O, O', T, T'. auto.
Qed.
