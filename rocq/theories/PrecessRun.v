(** Spins 1/2 in a uniform field: the total spin turns about the field. *)
From Coq Require Import List Arith Lia Reals Lra ZArith QArith Bool Permutation.
From Verif Require Import Scalars Res Matrix Sums SqMat SpecMat ModelBase ModelSpins SpecSpins Digits SpinOps SpinAlg SpinHam SpinApi SpinSwap SpinSym HamProofs SpecPerm
  ModelGeometry ModelPhase ModelSymmetry SymBase ModelThermal SpecThermal ThermalBase ThermalFacts ThermalBasis SpecSigns Signs SignsSpins SpecSectors Sectors Ladder SpecSinglet Heis SingletRun SpecPrecess Precess.
From Verif Require SymAverage Convex.
Import ListNotations.
Local Open Scope R_scope.

Section Field.
  Variables (rt : nat -> CR) (s : spins CR) (J : nat -> nat -> R) (X Y Z F V : mat CR) (E : list R) (u : vec) (w : R).
  Hypothesis root : rt 1%nat = k1.
  Hypothesis half : sp_two s = 1%nat.
  Hypothesis fld : in_field s J (scaled w u).
  Hypothesis unit : vdot u u = 1.
  Hypothesis tot : total_spin rt s X Y Z.
  Hypothesis made : sp_createH rt s None = Ok F.
  Hypothesis basis : eigenbasis F V E.
  Notation n := (sg_nsites (sp_geom s)).
  Notation D := (2 ^ n)%nat.
  Definition bare : spins CR := Spins (sp_geom s) (sp_two s) (sp_jx s) (sp_jy s) (sp_jz s) (fun _ => c0) (fun _ => c0) (fun _ => c0).
  Lemma bare_iso : isotropic bare J.
  Proof using fld. destruct fld as (A & _). split; [exact A | intros i _; repeat split; reflexivity]. Qed.
  Lemma bare_tot : total_spin rt bare X Y Z. Proof using tot. exact tot. Qed.
  Notation ap M psi := (apply D M psi).

  (** The algebra of the total spin. *)
  Lemma z_mv0 psi a : (a < D)%nat -> mv n 0 (ap Z psi) a = real (INR n / 2 - INR (digit_sum 2 n a)) *c mv n 0 psi a -c mv n 0 psi a.
  Proof using half tot.
    intros Ha. unfold mv. rewrite <- ksum_mul_l, <- Convex.ksum_minus. apply ksum_ext. intros i Hi. destruct (Nat.eqb_spec (digit 2 n i a) 0) as [Q|Q]; [|apply injective_projections; cbn; ring].
    rewrite (z_value rt s X Y Z half tot psi _ (fl_lt n i a)). pose proof (fl_sum n i a Hi) as SU. rewrite Q in SU. replace (digit_sum 2 n (fl n i a)) with (S (digit_sum 2 n a)) by lia. rewrite S_INR. apply injective_projections; cbn; ring.
  Qed.
  Lemma z_mv1 psi a : (a < D)%nat -> mv n 1 (ap Z psi) a = real (INR n / 2 - INR (digit_sum 2 n a)) *c mv n 1 psi a +c mv n 1 psi a.
  Proof using half tot.
    intros Ha. unfold mv. rewrite <- ksum_mul_l, <- ksum_add. apply ksum_ext. intros i Hi. destruct (Nat.eqb_spec (digit 2 n i a) 1) as [Q|Q]; [|apply injective_projections; cbn; ring].
    rewrite (z_value rt s X Y Z half tot psi _ (fl_lt n i a)). pose proof (fl_sum n i a Hi) as SU. rewrite Q in SU. replace (digit_sum 2 n a) with (digit_sum 2 n (fl n i a) + 1)%nat by lia. rewrite plus_INR. apply injective_projections; cbn; ring.
  Qed.
  Lemma mv_x v psi a : mv n v (ap X psi) a = real (1 / 2) *c (mv n v (mv n 0 psi) a +c mv n v (mv n 1 psi) a).
  Proof using root half tot.
    rewrite (mv_ext n v _ (fun b => real (1 / 2) *c (mv n 0 psi b -c (real (-1) *c mv n 1 psi b)))) by (intros b Hb; rewrite (x_moves rt s X Y Z root half tot psi b Hb); apply injective_projections; cbn; ring). rewrite mv_scale, mv_minus, mv_scale. apply injective_projections; cbn; ring.
  Qed.
  Lemma mv_y v psi a : mv n v (ap Y psi) a = ((0, 1 / 2) : CR) *c (mv n v (mv n 0 psi) a -c mv n v (mv n 1 psi) a).
  Proof using root half tot.
    rewrite (mv_ext n v _ (fun b => ((0, 1 / 2) : CR) *c (mv n 0 psi b -c mv n 1 psi b))) by (intros b Hb; apply (y_moves rt s X Y Z root half tot psi b Hb)). rewrite mv_scale, mv_minus. reflexivity.
  Qed.
  Definition mi : CR := (0, -1).
  Lemma comm_xy psi a : (a < D)%nat -> ap X (ap Y psi) a -c ap Y (ap X psi) a = mi *c ap Z psi a.
  Proof using root half tot.
    intros Ha. rewrite (x_moves rt s X Y Z root half tot _ a Ha), (y_moves rt s X Y Z root half tot _ a Ha), (z_value rt s X Y Z half tot _ a Ha), !mv_x, !mv_y, (mv_comm n psi a Ha).
    apply injective_projections; cbn; field.
  Qed.
  Lemma comm_yz psi a : (a < D)%nat -> ap Y (ap Z psi) a -c ap Z (ap Y psi) a = mi *c ap X psi a.
  Proof using root half tot.
    intros Ha. rewrite (y_moves rt s X Y Z root half tot _ a Ha), (x_moves rt s X Y Z root half tot _ a Ha), (z_value rt s X Y Z half tot _ a Ha), (y_moves rt s X Y Z root half tot _ a Ha), (z_mv0 psi a Ha), (z_mv1 psi a Ha).
    apply injective_projections; cbn; field.
  Qed.
  Lemma comm_zx psi a : (a < D)%nat -> ap Z (ap X psi) a -c ap X (ap Z psi) a = mi *c ap Y psi a.
  Proof using root half tot.
    intros Ha. rewrite (x_moves rt s X Y Z root half tot _ a Ha), (y_moves rt s X Y Z root half tot _ a Ha), (z_value rt s X Y Z half tot _ a Ha), (x_moves rt s X Y Z root half tot _ a Ha), (z_mv0 psi a Ha), (z_mv1 psi a Ha).
    apply injective_projections; cbn; field.
  Qed.

  (** Entries of the total spin, and the Hamiltonian as couplings and field. *)
  Lemma tot_ent : (nrow X = D /\ ncol X = D /\ forall a b, (a < D)%nat -> (b < D)%nat -> ent X a b = ksum n (fun i => site_elem 2 n i (ent (sx_op rt 1)) a b)) /\
    (nrow Y = D /\ ncol Y = D /\ forall a b, (a < D)%nat -> (b < D)%nat -> ent Y a b = ksum n (fun i => site_elem 2 n i (ent (sy_op rt 1)) a b)) /\
    (nrow Z = D /\ ncol Z = D /\ forall a b, (a < D)%nat -> (b < D)%nat -> ent Z a b = ksum n (fun i => site_elem 2 n i (ent (sz_op 1)) a b)).
  Proof using half tot.
    assert (G : forall A T, square 2 A -> sum_op (sp_sys s) A 0 Boson = Ok T -> nrow T = D /\ ncol T = D /\ forall a b, (a < D)%nat -> (b < D)%nat -> ent T a b = ksum n (fun i => site_elem 2 n i (ent A) a b)).
    { intros A T SA ET. destruct (sum_op_half (K:=CR) n A SA (sites_exist rt s X Y Z tot)) as (T' & ET' & (S1 & S2) & VT).
      assert (T = T') as -> by (unfold sp_sys in ET; rewrite half in ET; change (Sys n 1 (1 + 1)) with (dsys 2 n) in ET; congruence). auto. }
    destruct tot as (EX & EY & EZ). split; [|split]; (apply G; [split; reflexivity|]); assumption.
  Qed.
  Lemma ham_split F0 psi a : sp_createH rt bare None = Ok F0 -> (a < D)%nat ->
    ap F psi a = ap F0 psi a -c real w *c (real (vx u) *c ap X psi a +c real (vy u) *c ap Y psi a +c real (vz u) *c ap Z psi a).
  Proof using half fld tot made.
    intros E0 Ha. destruct tot_ent as ((_ & _ & VX) & (_ & _ & VY) & (_ & _ & VZ)). unfold apply.
    rewrite <- !ksum_mul_l, <- !ksum_add, <- ksum_mul_l, <- Convex.ksum_minus. apply ksum_ext. intros b Hb.
    rewrite (spin_parts rt s F half made a b Ha Hb), (spin_parts rt bare F0 half E0 a b Ha Hb), (VX a b Ha Hb), (VY a b Ha Hb), (VZ a b Ha Hb).
    rewrite (ksum_zero n (field_part rt bare a b)) by (intros i Hi; unfold field_part; cbn [bare sp_hx sp_hy sp_hz]; change k0 with c0; ring).
    rewrite (ksum_ext n (field_part rt s a b) (fun i => real (w * vx u) *c site_elem 2 n i (ent (sx_op rt 1)) a b +c real (w * vy u) *c site_elem 2 n i (ent (sy_op rt 1)) a b +c real (w * vz u) *c site_elem 2 n i (ent (sz_op 1)) a b)).
    - rewrite !ksum_add, !ksum_mul_l, !real_mul. change (ksum (sg_nsites (sp_geom bare)) (fun i => ksum i (pair_part rt bare a b i))) with (ksum n (fun i => ksum i (pair_part rt s a b i))). change (@k0 CR CR_StarRing) with c0. ring.
    - intros i Hi. unfold field_part. destruct fld as (_ & W). destruct (W i Hi) as (-> & -> & ->). cbn [scaled vx vy vz]. unfold real. ring.
  Qed.

  (** Combinations of the components. *)
  Definition combo (e1 e2 e3 : CR) : mat CR := Mat D D (fun a b => e1 *c ent X a b +c e2 *c ent Y a b +c e3 *c ent Z a b).
  Lemma ap_combo e1 e2 e3 psi a : ap (combo e1 e2 e3) psi a = e1 *c ap X psi a +c e2 *c ap Y psi a +c e3 *c ap Z psi a.
  Proof using. clear. unfold apply. rewrite <- !ksum_mul_l, <- !ksum_add. apply ksum_ext. intros b Hb. cbn [combo ent]. ring. Qed.
  Lemma ap_lin M (e1 e2 e3 : CR) x y z a : ap M (fun b => e1 *c x b +c e2 *c y b +c e3 *c z b) a = e1 *c ap M x a +c e2 *c ap M y a +c e3 *c ap M z a.
  Proof using. clear. unfold apply. rewrite <- !ksum_mul_l, <- !ksum_add. apply ksum_ext. intros b Hb. ring. Qed.
  Lemma ap_lin4 M (e1 e2 e3 e0 : CR) v x y z a : ap M (fun b => v b -c e0 *c (e1 *c x b +c e2 *c y b +c e3 *c z b)) a = ap M v a -c e0 *c (e1 *c ap M x a +c e2 *c ap M y a +c e3 *c ap M z a).
  Proof using. clear. unfold apply. rewrite <- !ksum_mul_l, <- !ksum_add, <- ksum_mul_l, <- Convex.ksum_minus. apply ksum_ext. intros b Hb. ring. Qed.

  Lemma combo_comm e1 e2 e3 psi a : (a < D)%nat ->
    ap F (ap (combo e1 e2 e3) psi) a = ap (combo e1 e2 e3) (ap F psi) a +c
      (0, w) *c ((real (vy u) *c e3 -c real (vz u) *c e2) *c ap X psi a +c (real (vz u) *c e1 -c real (vx u) *c e3) *c ap Y psi a +c (real (vx u) *c e2 -c real (vy u) *c e1) *c ap Z psi a).
  Proof using root half fld tot made.
    intros Ha. destruct (full_exists rt bare half) as (F0 & E0).
    rewrite (apply_ext D F _ (fun b => e1 *c ap X psi b +c e2 *c ap Y psi b +c e3 *c ap Z psi b)) by (intros b Hb; apply ap_combo).
    rewrite ap_lin, ap_combo, !(ham_split F0 _ a E0 Ha).
    assert (W : forall M, ap M (ap F psi) a = ap M (fun b => ap F0 psi b -c real w *c (real (vx u) *c ap X psi b +c real (vy u) *c ap Y psi b +c real (vz u) *c ap Z psi b)) a) by (intros M; apply apply_ext; intros b Hb; apply (ham_split F0 psi b E0 Hb)).
    rewrite !W, !ap_lin4.
    destruct (rotations rt bare J root half bare_iso F0 X Y Z psi a E0 bare_tot Ha) as (RX & RY & RZ). change (sg_nsites (sp_geom bare)) with n in RX, RY, RZ. rewrite RX, RY, RZ.
    pose proof (comm_xy psi a Ha) as CXY. pose proof (comm_yz psi a Ha) as CYZ. pose proof (comm_zx psi a Ha) as CZX.
    assert (I : ((0, w) : CR) = kopp (real w) *c mi) by (apply injective_projections; cbn; ring). rewrite I.
    transitivity (e1 *c ap F0 (ap X psi) a +c e2 *c ap F0 (ap Y psi) a +c e3 *c ap F0 (ap Z psi) a
      -c real w *c (e1 *c (real (vx u) *c ap X (ap X psi) a +c real (vy u) *c ap X (ap Y psi) a +c real (vz u) *c ap X (ap Z psi) a)
        +c e2 *c (real (vx u) *c ap Y (ap X psi) a +c real (vy u) *c ap Y (ap Y psi) a +c real (vz u) *c ap Y (ap Z psi) a)
        +c e3 *c (real (vx u) *c ap Z (ap X psi) a +c real (vy u) *c ap Z (ap Y psi) a +c real (vz u) *c ap Z (ap Z psi) a))
      -c real w *c ((real (vy u) *c e3 -c real (vz u) *c e2) *c (mi *c ap X psi a) +c (real (vz u) *c e1 -c real (vx u) *c e3) *c (mi *c ap Y psi a) +c (real (vx u) *c e2 -c real (vy u) *c e1) *c (mi *c ap Z psi a))); [|ring].
    rewrite <- CXY, <- CYZ, <- CZX. ring.
  Qed.

  (** The parts of a vector along and across the field. *)
  Variable e : vec.
  Notation uv := (vdot u e).
  Notation f := (vcross u e).
  Lemma along : shifts D F (combo (real (vx u)) (real (vy u)) (real (vz u))) 0.
  Proof using root half fld tot made.
    intros psi a Ha. rewrite (combo_comm _ _ _ psi a Ha). change ((0, 0) : CR) with c0. ring.
  Qed.
  Lemma across : shifts D F (combo (vx e - vx u * uv, vx f) (vy e - vy u * uv, vy f) (vz e - vz u * uv, vz f)) w.
  Proof using root half fld unit tot made.
    intros psi a Ha. rewrite (combo_comm _ _ _ psi a Ha), (ap_combo _ _ _ psi a). f_equal.
    generalize (ap X psi a) (ap Y psi a) (ap Z psi a). intros x y z. clear - unit. unfold vdot in unit.
    assert (A : forall p q r : CR, forall p' q' r' : CR, p' = (0, -1) *c p -> q' = (0, -1) *c q -> r' = (0, -1) *c r -> (0, w) *c (p' *c x +c q' *c y +c r' *c z) = (w, 0) *c (p *c x +c q *c y +c r *c z)).
    { intros p q r p' q' r' -> -> ->. replace ((w, 0) : CR) with (((0, w) : CR) *c (0, -1)) by (apply injective_projections; cbn; ring). ring. }
    destruct u as (u1, u2, u3), e as (e1, e2, e3). unfold vdot, vcross in *. cbn [vx vy vz] in *.
    assert (G : forall k l r, l - r = k * (u1 * u1 + u2 * u2 + u3 * u3 - 1) -> l = r) by (intros k l r Q; rewrite unit in Q; lra).
    apply A; apply injective_projections; cbn; first [ring | apply (G (- e1)); ring | apply (G (- e2)); ring | apply (G (- e3)); ring].
  Qed.

  (** Expectation values. *)
  Lemma rows_field : nrow V = D.
  Proof using half made basis. destruct (spin_ent rt s F half made) as (A & _). destruct basis as ((_ & B & _) & _). congruence. Qed.
  Lemma herm_of A T : square 2 A -> (forall x y, (x < 2)%nat -> (y < 2)%nat -> ent A y x = conj (ent A x y)) ->
    (forall a b, (a < D)%nat -> (b < D)%nat -> ent T a b = ksum n (fun i => site_elem 2 n i (ent A) a b)) -> hermitian D T.
  Proof using.
    clear. intros SA HA VT a b Ha Hb. rewrite (VT a b Ha Hb), (VT b a Hb Ha), ksum_conj. apply ksum_ext. intros i Hi. unfold site_elem.
    rewrite (agree_off_sym 2 n [i] b a). destruct (agree_off 2 n [i] a b); [|apply injective_projections; cbn; ring]. rewrite (HA (digit 2 n i a) (digit 2 n i b)) by apply bit. destruct (ent A (digit 2 n i a) (digit 2 n i b)) as (p, q). apply injective_projections; cbn; ring.
  Qed.
  Lemma amp_real M psi : hermitian D M -> amplitude D M psi = (expect D M psi, 0).
  Proof using.
    clear. intros HM. apply injective_projections; [reflexivity|]. cbn [snd]. unfold amplitude.
    pose proof (inner_apply_herm D M psi psi HM) as A. pose proof (inner_conj D psi (apply D M psi)) as B. rewrite <- A in B. destruct (inner D psi (apply D M psi)) as (p, q). injection B as B. cbn. lra.
  Qed.
  Lemma tot_herm : hermitian D X /\ hermitian D Y /\ hermitian D Z.
  Proof using root half tot.
    destruct tot_ent as ((_ & _ & VX) & (_ & _ & VY) & (_ & _ & VZ)). split; [|split].
    - apply (herm_of (sx_op rt 1)); [split; reflexivity | | exact VX]. intros x y Hx Hy. rewrite !(sx_val rt root) by assumption. rewrite (Nat.eqb_sym y x). destruct (x =? y)%nat; apply injective_projections; cbn; ring.
    - apply (herm_of (sy_op rt 1)); [split; reflexivity | | exact VY]. intros x y Hx Hy. rewrite !(sy_val rt root) by assumption. destruct x as [|[|]], y as [|[|]]; try lia; cbn [Nat.eqb]; apply injective_projections; cbn; lra.
    - apply (herm_of (sz_op 1)); [split; reflexivity | | exact VZ]. intros x y Hx Hy. rewrite !sz_val by assumption. rewrite (Nat.eqb_sym y x). destruct (Nat.eqb_spec x y) as [->|]; apply injective_projections; cbn; ring.
  Qed.
  Notation sv psi := (spin_vector D X Y Z psi).
  Lemma amp_combo e1 e2 e3 psi : amplitude D (combo e1 e2 e3) psi = e1 *c real (vx (sv psi)) +c e2 *c real (vy (sv psi)) +c e3 *c real (vz (sv psi)).
  Proof using root half tot.
    destruct tot_herm as (HX & HY & HZ). cbn [spin_vector vx vy vz]. unfold real. rewrite <- (amp_real X psi HX), <- (amp_real Y psi HY), <- (amp_real Z psi HZ).
    unfold amplitude. rewrite (inner_ext D psi psi _ (fun a => e1 *c apply D X psi a +c e2 *c apply D Y psi a +c e3 *c apply D Z psi a)); [|reflexivity | intros a Ha; apply ap_combo].
    unfold inner. rewrite <- !ksum_mul_l, <- !ksum_add. apply ksum_ext. intros a Ha. ring.
  Qed.
  Lemma turn_e psi t : vdot e (sv (evolve V E psi t)) = vdot e (turned u (w * t) (sv psi)).
  Proof using root half fld unit tot made basis.
    pose proof (precess F V _ E D 0 basis rows_field along psi t) as P0. rewrite !amp_combo in P0.
    pose proof (precess F V _ E D w basis rows_field across psi t) as P1. rewrite !amp_combo in P1.
    revert P0 P1. generalize (sv (evolve V E psi t)) (sv psi). intros (x', y', z') (x, y, z) P0 P1. clear - P0 P1 unit.
    replace (0 * t) with 0 in P0 by ring. rewrite cexp_0 in P0. unfold cexp in P1. apply pair_equal_spec in P0 as (A0 & _). apply pair_equal_spec in P1 as (A1 & _).
    destruct u as (u1, u2, u3), e as (e1, e2, e3). unfold turned, vdot, vcross in *. cbn in *. set (c := cos (w * t)) in *. set (sn := sin (w * t)) in *.
    set (k := u1 * e1 + u2 * e2 + u3 * e3) in *.
    assert (B0 : u1 * x' + u2 * y' + u3 * z' = u1 * x + u2 * y + u3 * z) by lra.
    transitivity (((e1 - u1 * k) * x' + (e2 - u2 * k) * y' + (e3 - u3 * k) * z') + k * (u1 * x' + u2 * y' + u3 * z')); [ring|]. rewrite B0.
    transitivity ((c * ((e1 - u1 * k) * x + (e2 - u2 * k) * y + (e3 - u3 * k) * z) - sn * ((u2 * e3 - u3 * e2) * x + (u3 * e1 - u1 * e3) * y + (u1 * e2 - u2 * e1) * z)) + k * (u1 * x + u2 * y + u3 * z)); [f_equal; lra|].
    unfold k. ring.
  Qed.
End Field.

Section Turn.
  Variables (rt : nat -> CR) (s : spins CR) (J : nat -> nat -> R) (X Y Z F V : mat CR) (E : list R) (u : vec) (w : R).
  Hypothesis root : rt 1%nat = k1.
  Hypothesis half : sp_two s = 1%nat.
  Hypothesis fld : in_field s J (scaled w u).
  Hypothesis unit : vdot u u = 1.
  Hypothesis tot : total_spin rt s X Y Z.
  Hypothesis made : sp_createH rt s None = Ok F.
  Hypothesis basis : eigenbasis F V E.
  Notation n := (sg_nsites (sp_geom s)).
  Notation D := (2 ^ n)%nat.
  Theorem turning psi t : spin_vector D X Y Z (evolve V E psi t) = turned u (w * t) (spin_vector D X Y Z psi).
  Proof using All.
    pose proof (fun e => turn_e rt s J X Y Z F V E u w root half fld unit tot made basis e psi t) as T.
    pose proof (T (Vec 1 0 0)) as T1. pose proof (T (Vec 0 1 0)) as T2. pose proof (T (Vec 0 0 1)) as T3. clear T.
    destruct (spin_vector D X Y Z (evolve V E psi t)) as (x', y', z'), (turned u (w * t) (spin_vector D X Y Z psi)) as (x, y, z). unfold vdot in T1, T2, T3. cbn in T1, T2, T3. f_equal; lra.
  Qed.
  Theorem turning_api st times Ms x0 y0 z0 k : quench st V E times = Ok Ms -> (k < ncol (as_columns st))%nat ->
    exp_vals st X = Ok x0 -> exp_vals st Y = Ok y0 -> exp_vals st Z = Ok z0 ->
    exists x y z, exp_vals (Columns (nth k Ms (mzero 0 0))) X = Ok x /\ exp_vals (Columns (nth k Ms (mzero 0 0))) Y = Ok y /\ exp_vals (Columns (nth k Ms (mzero 0 0))) Z = Ok z /\
      length x = length times /\ length y = length times /\ length z = length times /\
      forall a, (a < length times)%nat -> Vec (nth a x 0) (nth a y 0) (nth a z 0) = turned u (w * nth a times 0) (Vec (nth k x0 0) (nth k y0 0) (nth k z0 0)).
  Proof using All.
    intros EQ Hk EX EY EZ. pose proof (rows_field rt s F V E half made basis) as RV.
    destruct (tot_ent rt s X Y Z half tot) as ((X1 & X2 & _) & (Y1 & Y2 & _) & (Z1 & Z2 & _)).
    pose proof (path_of V E st times Ms k X EQ Hk ltac:(congruence) ltac:(congruence)) as PX. pose proof (path_of V E st times Ms k Y EQ Hk ltac:(congruence) ltac:(congruence)) as PY. pose proof (path_of V E st times Ms k Z EQ Hk ltac:(congruence) ltac:(congruence)) as PZ.
    do 3 eexists. split; [exact PX|]. split; [exact PY|]. split; [exact PZ|]. rewrite !map_length, !seq_length. do 3 (split; [reflexivity|]). intros a Ha. rewrite !map_seq_nth by exact Ha.
    assert (S1 : nrow V = nrow (as_columns st)) by (unfold quench in EQ; destruct (Nat.eqb_spec (nrow V) (nrow (as_columns st))) as [A|A]; [exact A | discriminate EQ]).
    rewrite exp_vals_of in EX, EY, EZ by congruence. injection EX as <-. injection EY as <-. injection EZ as <-. rewrite !map_seq_nth by exact Hk. rewrite RV, X1, Y1, Z1. exact (turning _ _).
  Qed.
End Turn.
