(** Standing waves on an open side, products of waves, and free particles on a rectangle. *)
From Coq Require Import List Arith Lia Reals Lra ZArith Bool.
From Verif Require Import Scalars Res Sums Matrix ModelFermions ModelPhase ModelSymmetry SymBase SpecThermal SpecFermiGas SpecGeometry SpecFreeLattice FreeFermi PlaneWaves SpecRect.
Import ListNotations.
Local Open Scope R_scope.

Fixpoint rs (n : nat) (F : nat -> R) : R := match n with O => 0 | S k => rs k F + F k end.
Lemma rs_ext n F G : (forall i, (i < n)%nat -> F i = G i) -> rs n F = rs n G.
Proof. induction n as [|n IH]; intros H; cbn; [reflexivity|]. rewrite IH, H by (intros; auto). reflexivity. Qed.
Lemma rs_first n F : rs (S n) F = F 0%nat + rs n (fun j => F (S j)).
Proof. induction n as [|n IH]; [cbn; ring|]. change (rs (S (S n)) F) with (rs (S n) F + F (S n)). rewrite IH. cbn. ring. Qed.
Lemma rs_lin n F G c d : rs n (fun i => c * F i + d * G i) = c * rs n F + d * rs n G.
Proof. induction n as [|n IH]; cbn; [ring|]. rewrite IH. ring. Qed.
Lemma rs_const n c : rs n (fun _ => c) = INR n * c.
Proof. induction n as [|n IH]; [cbn; ring|]. rewrite S_INR. cbn [rs]. rewrite IH. ring. Qed.
Lemma ksum_real n F : ksum n (fun i => real (F i)) = real (rs n F).
Proof. induction n as [|n IH]; [reflexivity|]. cbn [ksum rs]. rewrite IH. apply injective_projections; cbn; ring. Qed.

Lemma nat_pi m : cos (INR m * PI) = (-1) ^ m /\ sin (INR m * PI) = 0.
Proof.
  induction m as [|m [C S]]; [cbn [INR pow]; rewrite Rmult_0_l, cos_0, sin_0; split; reflexivity|].
  rewrite S_INR, Rmult_plus_distr_r, Rmult_1_l, cos_plus, sin_plus, C, S, cos_PI, sin_PI. cbn [pow]. split; ring.
Qed.
Lemma cos_sum n x : 2 * sin (x / 2) * rs (S n) (fun j => cos (INR j * x)) = sin ((INR n + 1 / 2) * x) + sin (x / 2).
Proof.
  induction n as [|n IH].
  - cbn [rs INR]. rewrite Rmult_0_l, cos_0. replace ((0 + 1 / 2) * x) with (x / 2) by field. ring.
  - change (rs (S (S n)) (fun j => cos (INR j * x))) with (rs (S n) (fun j => cos (INR j * x)) + cos (INR (S n) * x)).
    rewrite Rmult_plus_distr_l, IH, S_INR.
    replace ((INR n + 1 / 2) * x) with ((INR n + 1) * x - x / 2) by field. replace ((INR n + 1 + 1 / 2) * x) with ((INR n + 1) * x + x / 2) by field.
    rewrite sin_minus, sin_plus. ring.
Qed.
(** Sums of cosines over an open side with its two ends. *)
Lemma cos_total n m : (0 < m < 2 * S n)%nat -> rs (S n) (fun j => cos (INR j * (INR m * PI / INR (S n)))) = (1 - (-1) ^ m) / 2.
Proof.
  intros Hm. set (x := INR m * PI / INR (S n)). assert (NP : 0 < INR (S n)) by (apply lt_0_INR; lia). assert (MP : 0 < INR m) by (apply lt_0_INR; lia).
  assert (M2 : INR m < 2 * INR (S n)). { replace 2 with (INR 2) by (cbn; ring). rewrite <- mult_INR. apply lt_INR. lia. }
  assert (SP : 0 < sin (x / 2)).
  { pose proof PI_RGT_0. apply sin_gt_0; unfold x.
    - apply Rdiv_lt_0_compat; [|lra]. apply Rdiv_lt_0_compat; [|exact NP]. apply Rmult_lt_0_compat; assumption.
    - apply (Rmult_lt_reg_r (2 * INR (S n))); [lra|]. replace (INR m * PI / INR (S n) / 2 * (2 * INR (S n))) with (INR m * PI) by (field; lra). rewrite (Rmult_comm PI). apply Rmult_lt_compat_r; assumption. }
  pose proof (cos_sum n x) as S. replace ((INR n + 1 / 2) * x) with (INR m * PI - x / 2) in S.
  2: { unfold x. rewrite S_INR in *. field. lra. }
  rewrite sin_minus in S. destruct (nat_pi m) as [C Z]. rewrite C, Z in S.
  apply (Rmult_eq_reg_l (2 * sin (x / 2))); [|lra]. rewrite S. field.
Qed.
Lemma sine_orth n a b : (a < n)%nat -> (b < n)%nat ->
  rs n (fun x => sin (INR (S x) * (PI * INR (S a) / INR (S n))) * sin (INR (S x) * (PI * INR (S b) / INR (S n)))) = if (a =? b)%nat then INR (S n) / 2 else 0.
Proof.
  assert (NP : 0 < INR (S n)) by (apply lt_0_INR; lia).
  assert (G : forall a b, (a < n)%nat -> (b <= a)%nat ->
    rs n (fun x => sin (INR (S x) * (PI * INR (S a) / INR (S n))) * sin (INR (S x) * (PI * INR (S b) / INR (S n)))) = if (a =? b)%nat then INR (S n) / 2 else 0).
  { clear a b. intros a b Ha Hb. set (F := fun x => sin (INR x * (PI * INR (S a) / INR (S n))) * sin (INR x * (PI * INR (S b) / INR (S n)))).
    assert (E : rs (S n) F = rs n (fun x => F (S x))). { rewrite rs_first. unfold F at 1. change (INR 0) with 0. rewrite !Rmult_0_l, sin_0. ring. }
    change (rs n (fun x => F (S x)) = if (a =? b)%nat then INR (S n) / 2 else 0). rewrite <- E.
    rewrite (rs_ext _ F (fun j => 1 / 2 * cos (INR j * (INR (a - b) * PI / INR (S n))) + (- (1 / 2)) * cos (INR j * (INR (S a + S b) * PI / INR (S n))))).
    2: { intros j _. unfold F. rewrite (plus_INR (S a)). rewrite (minus_INR a b Hb).
         replace (INR j * ((INR a - INR b) * PI / INR (S n))) with (INR j * (PI * INR (S a) / INR (S n)) - INR j * (PI * INR (S b) / INR (S n))).
         2: { rewrite (S_INR a), (S_INR b). field. lra. }
         replace (INR j * ((INR (S a) + INR (S b)) * PI / INR (S n))) with (INR j * (PI * INR (S a) / INR (S n)) + INR j * (PI * INR (S b) / INR (S n))) by (field; lra).
         rewrite cos_minus, cos_plus. field. }
    rewrite rs_lin. rewrite (cos_total n (S a + S b)) by lia.
    destruct (Nat.eqb_spec a b) as [->|Ne].
    - rewrite Nat.sub_diag. rewrite (rs_ext _ _ (fun _ => 1)).
      2: { intros j _. change (INR 0) with 0. replace (INR j * (0 * PI / INR (S n))) with 0 by (field; lra). apply cos_0. }
      rewrite rs_const. replace (S b + S b)%nat with (2 * S b)%nat by lia. rewrite pow_1_even. field.
    - rewrite cos_total by lia. replace (S a + S b)%nat with (a - b + 2 * S b)%nat by lia. rewrite pow_add, pow_1_even. field. }
  intros Ha Hb. destruct (Nat.le_ge_cases b a) as [L|L]; [apply G; assumption|]. rewrite Nat.eqb_sym. rewrite <- (G b a Hb L). apply rs_ext. intros. ring.
Qed.

(** One side of the rectangle: who is next to whom. *)
Definition side_next (open : bool) (n x y : nat) : bool :=
  if ring_side open n then stepb n (Z.of_nat x - Z.of_nat y) else (x =? S y)%nat || (y =? S x)%nat.
Definition side_ok (open : bool) (n : nat) : Prop :=
  (forall x a, (x < n)%nat -> (a < n)%nat -> ksum n (fun y => kb (side_next open n x y) *c side_wave open n y a) = real (side_level open n a) *c side_wave open n x a) /\
  (forall a b, (a < n)%nat -> (b < n)%nat -> ksum n (fun x => conj (side_wave open n x a) *c side_wave open n x b) = kb (a =? b)%nat) /\
  (forall x y, (x < n)%nat -> (y < n)%nat -> ksum n (fun a => side_wave open n x a *c conj (side_wave open n y a)) = kb (x =? y)%nat).

Lemma pick_or n' (i : nat) (F : nat -> CR) : ksum n' (fun j => kb (j =? i)%nat *c F j) = kb (i <? n')%nat *c F i.
Proof.
  destruct (Nat.ltb_spec i n') as [L|L].
  - rewrite (ksum_pick n' i F L). cbn [kb]. ring.
  - rewrite ksum_zero; [cbn [kb]; ring|]. intros j Hj. rewrite (proj2 (Nat.eqb_neq j i)) by lia. cbn [kb]. ring.
Qed.
Lemma open_side open n : ring_side open n = false -> (1 <= n)%nat -> side_ok open n.
Proof.
  intros RS Hn. assert (NP : 0 < INR (S n)) by (apply lt_0_INR; lia).
  assert (SQ : sqrt (2 / INR (S n)) * sqrt (2 / INR (S n)) = 2 / INR (S n)) by (apply sqrt_sqrt; left; apply Rdiv_lt_0_compat; lra).
  assert (OR : forall a b, (a < n)%nat -> (b < n)%nat -> ksum n (fun x => side_wave open n x a *c side_wave open n x b) = kb (a =? b)%nat).
  { intros a b Ha Hb. unfold side_wave. rewrite RS.
    rewrite (ksum_ext _ _ (fun x => real (2 / INR (S n)) *c real (sin (INR (S x) * (PI * INR (S a) / INR (S n))) * sin (INR (S x) * (PI * INR (S b) / INR (S n)))))).
    2: { intros x _. assert (L : forall q s1 s2, re (q * s1) *c re (q * s2) = real (q * q) *c real (s1 * s2)) by (intros; apply injective_projections; cbn; ring).
         rewrite L, SQ. reflexivity. }
    rewrite (ksum_mul_l n), ksum_real, sine_orth by assumption. revert NP. generalize (INR (S n)). intros r NP. destruct (a =? b)%nat; apply injective_projections; cbn; field; lra. }
  assert (CJ : forall x a, conj (side_wave open n x a) = side_wave open n x a). { intros x a. unfold side_wave. rewrite RS. apply real_conj. }
  assert (SY : forall x a, side_wave open n x a = side_wave open n a x).
  { intros x a. unfold side_wave. rewrite RS. do 3 f_equal. field. lra. }
  split; [|split].
  - intros x a Hx Ha. unfold side_next, side_level. rewrite RS. set (h := PI * INR (S a) / INR (S n)).
    set (W := fun y => side_wave open n y a).
    assert (WV : forall y, W y = real (sqrt (2 / INR (S n)) * sin (INR (S y) * h))) by (intros y; unfold W, side_wave; rewrite RS; reflexivity).
    change (ksum n (fun y => kb ((x =? S y) || (y =? S x))%nat *c W y) = real (2 * cos h) *c W x).
    rewrite (ksum_ext _ _ (fun y => (if (x =? 0)%nat then c0 else kb (y =? x - 1)%nat *c W y) +c kb (y =? S x)%nat *c W y)).
    2: { intros y Hy. destruct (Nat.eqb_spec x 0) as [->|Z].
         - replace (0 =? S y)%nat with false by reflexivity. cbn [orb]. ring.
         - destruct (Nat.eqb_spec x (S y)), (Nat.eqb_spec y (x - 1)), (Nat.eqb_spec y (S x)); try lia; cbn [orb kb]; ring. }
    assert (N0 : sin (INR (S n) * h) = 0). { unfold h. replace (INR (S n) * (PI * INR (S a) / INR (S n))) with (INR (S a) * PI) by (field; lra). apply nat_pi. }
    assert (UP : kb (S x <? n)%nat *c W (S x) = real (sqrt (2 / INR (S n)) * sin (INR (S (S x)) * h))).
    { rewrite WV. destruct (Nat.ltb_spec (S x) n) as [L|L]; cbn [kb]; [ring|]. replace (S (S x)) with (S n) by lia. rewrite N0. apply injective_projections; cbn; ring. }
    assert (DN : ksum n (fun y => if (x =? 0)%nat then c0 else kb (y =? x - 1)%nat *c W y) = real (sqrt (2 / INR (S n)) * sin (INR x * h))).
    { destruct (Nat.eqb_spec x 0) as [->|Z].
      - rewrite ksum_zero by reflexivity. change (INR 0) with 0. rewrite Rmult_0_l, sin_0. apply injective_projections; cbn; ring.
      - rewrite pick_or, WV. rewrite (proj2 (Nat.ltb_lt (x - 1) n)) by lia. replace (S (x - 1)) with x by lia. cbn [kb]. ring. }
    rewrite ksum_add, DN, pick_or, UP, WV. rewrite (S_INR (S x)). replace (INR x) with (INR (S x) - 1) by (rewrite S_INR; ring).
    rewrite Rmult_minus_distr_r, Rmult_plus_distr_r, Rmult_1_l, sin_minus, sin_plus. apply injective_projections; cbn -[INR]; ring.
  - intros a b Ha Hb. rewrite <- OR by assumption. apply ksum_ext. intros x _. rewrite CJ. reflexivity.
  - intros x y Hx Hy. rewrite <- OR by assumption. apply ksum_ext. intros a _. rewrite CJ, (SY x a), (SY y a). reflexivity.
Qed.

Lemma ring_wave n x a : ring_side false n = true -> (x < n)%nat -> (a < n)%nat -> side_wave false n x a = ent (waves Chain n) x a.
Proof.
  intros RS Hx Ha. unfold side_wave. rewrite RS. unfold waves, place, spot. cbn [ent depth plane fst]. rewrite Nat.mul_1_r, !Nat.div_1_r, <- INR_IZR_INZ. reflexivity.
Qed.
Lemma closed_side open n : ring_side open n = true -> side_ok open n.
Proof.
  intros RS. assert (OF : open = false) by (unfold ring_side in RS; destruct open; [discriminate|reflexivity]). subst open.
  assert (H3 : (3 <= n)%nat) by (unfold ring_side in RS; apply Nat.leb_le; exact RS).
  set (h := Mat n n (fun x y => kb (stepb n (Z.of_nat x - Z.of_nat y))) : mat CR).
  assert (D1 : depth Chain n = 1%nat) by reflexivity.
  destruct (waves_eigen Chain n ltac:(lia) h (-1) 0 H3 ltac:(cbn; lia) ltac:(cbn; lia)) as ((_ & _ & _ & EV) & ON & CB).
  { intros i j Hi Hj. cbn [ent h]. unfold nextb, place, spot. cbn [fst snd depth]. rewrite !Nat.div_1_r.
    replace (- -1) with 1 by ring. replace (- 0) with 0 by ring. destruct (i =? j)%nat; apply injective_projections; cbn; ring. }
  unfold orthonormal in ON. unfold complete_basis in CB.
  assert (R : nrow (waves Chain n) = n) by (unfold waves; cbn [nrow depth]; lia). assert (C : ncol (waves Chain n) = n) by (unfold waves; cbn [ncol depth]; lia).
  rewrite R, C in *. split; [|split].
  - intros x a Hx Ha. specialize (EV x a Hx Ha). unfold apply, col in EV. unfold side_next, side_level. rewrite RS.
    rewrite (ksum_ext _ _ (fun y => ent h x y *c ent (waves Chain n) y a)) by (intros y Hy; rewrite ring_wave by assumption; reflexivity).
    rewrite EV, ring_wave by assumption. f_equal. unfold band. rewrite D1, Nat.mul_1_r.
    rewrite (nth_indep _ 0 ((fun a => -1 * level_of Chain n (spot Chain n a) - 0) 0%nat)) by (rewrite map_length, seq_length; exact Ha).
    rewrite (map_nth (fun a => -1 * level_of Chain n (spot Chain n a) - 0)), seq_nth by exact Ha. cbn [Nat.add level_of]. unfold spot. cbn [fst depth]. rewrite Nat.div_1_r.
    apply injective_projections; cbn; ring.
  - intros a b Ha Hb. rewrite <- ON by assumption. unfold inner, col. apply ksum_ext. intros x Hx. rewrite !ring_wave by assumption. reflexivity.
  - intros x y Hx Hy. specialize (CB (fun z => kb (z =? y)%nat) x Hx). cbn beta in CB. rewrite CB. apply ksum_ext. intros a Ha. unfold inner, col.
    rewrite !ring_wave by assumption. f_equal. rewrite (ksum_ext _ _ (fun z => kb (z =? y)%nat *c conj (ent (waves Chain n) z a))) by (intros; ring).
    rewrite (ksum_pick n y) by exact Hy. reflexivity.
Qed.
Lemma sides_ok open n : (1 <= n)%nat -> side_ok open n.
Proof. intros Hn. destruct (ring_side open n) eqn:E; [apply closed_side; exact E|apply open_side; assumption]. Qed.
Lemma side_next_irr open n x : side_next open n x x = false.
Proof.
  unfold side_next. destruct (ring_side open n) eqn:E.
  - unfold ring_side in E. apply andb_true_iff in E as [_ E]. apply Nat.leb_le in E. rewrite Z.sub_diag. apply stepb_0. exact E.
  - rewrite (proj2 (Nat.eqb_neq x (S x))) by lia. reflexivity.
Qed.
Lemma side_next_sym open n x y : side_next open n x y = side_next open n y x.
Proof.
  unfold side_next. destruct (ring_side open n) eqn:E; [|apply orb_comm]. unfold ring_side in E. apply andb_true_iff in E as [_ E]. apply Nat.leb_le in E.
  apply Bool.eq_true_iff_eq. unfold stepb. rewrite !orb_true_iff, !Z.eqb_eq.
  assert (O : forall x, ((- x) mod Z.of_nat n = 0)%Z <-> (x mod Z.of_nat n = 0)%Z).
  { intros z. rewrite !Z.mod_divide by lia. apply Z.divide_opp_r. }
  rewrite <- (O (Z.of_nat y - Z.of_nat x - 1)%Z), <- (O (Z.of_nat y - Z.of_nat x + 1)%Z).
  replace (- (Z.of_nat y - Z.of_nat x - 1))%Z with (Z.of_nat x - Z.of_nat y + 1)%Z by lia. replace (- (Z.of_nat y - Z.of_nat x + 1))%Z with (Z.of_nat x - Z.of_nat y - 1)%Z by lia. tauto.
Qed.
Lemma side_step open n x y : (x < n)%nat -> (y < n)%nat -> (n = 1%nat -> open = true) ->
  (side_next open n x y = true <-> one_step open (Z.of_nat n) (Z.of_nat x - Z.of_nat y)).
Proof.
  intros Hx Hy H1. unfold side_next, one_step. destruct (ring_side open n) eqn:E.
  - assert (OF : open = false) by (unfold ring_side in E; destruct open; [discriminate|reflexivity]). rewrite OF. unfold stepb. rewrite orb_true_iff, !Z.eqb_eq. reflexivity.
  - rewrite orb_true_iff, !Nat.eqb_eq. destruct open; [lia|]. assert (N2 : n = 2%nat).
    { unfold ring_side in E. cbn [negb andb] in E. apply Nat.leb_gt in E. destruct (Nat.eq_dec n 1) as [Z|Z]; [specialize (H1 Z); discriminate|lia]. }
    subst n. destruct x as [|[|x]], y as [|[|y]]; try lia; cbn; intuition discriminate.
Qed.

(** Products of waves of the two sides. *)
Section Product.
  Variables (o1 o2 : bool) (nx ny : nat).
  Hypothesis Hx : (1 <= nx)%nat. Hypothesis Hy : (1 <= ny)%nat.
  Definition rect_next (i j : nat) : bool :=
    (side_next o1 nx (i / ny) (j / ny) && (i mod ny =? j mod ny)%nat) || ((i / ny =? j / ny)%nat && side_next o2 ny (i mod ny) (j mod ny)).
  Lemma flat_div x y : (y < ny)%nat -> ((x * ny + y) / ny = x)%nat.
  Proof using. clear. intros H. rewrite Nat.div_add_l by lia. rewrite Nat.div_small by exact H. lia. Qed.
  Lemma flat_mod x y : (y < ny)%nat -> ((x * ny + y) mod ny = y)%nat.
  Proof using. clear. intros H. rewrite Nat.add_comm, Nat.mod_add by lia. apply Nat.mod_small, H. Qed.
  Lemma flat_eq i j : (i =? j)%nat = ((i / ny =? j / ny) && (i mod ny =? j mod ny))%nat.
  Proof using Hy.
    clear Hx. apply Bool.eq_true_iff_eq. rewrite andb_true_iff, !Nat.eqb_eq. split; [intros ->; auto|]. intros [A B]. rewrite (Nat.div_mod i ny), (Nat.div_mod j ny) by lia. congruence.
  Qed.
  Lemma flat_sum (F : nat -> nat -> CR) : ksum (nx * ny) (fun i => F (i / ny)%nat (i mod ny)%nat) = ksum nx (fun x => ksum ny (fun y => F x y)).
  Proof using. rewrite ksum_prod. apply ksum_ext. intros x _. apply ksum_ext. intros y H. rewrite flat_div, flat_mod by exact H. reflexivity. Qed.
  Lemma sum_product n n' (F G : nat -> CR) : ksum n (fun x => ksum n' (fun y => F x *c G y)) = ksum n F *c ksum n' G.
  Proof using. clear. rewrite <- ksum_mul_r. apply ksum_ext. intros x _. apply ksum_mul_l. Qed.

  Lemma rect_basis (h : mat CR) t e : square (nx * ny) h ->
    (forall i j, (i < nx * ny)%nat -> (j < nx * ny)%nat -> ent h i j = (if (i =? j)%nat then real e else c0) +c real (- t) *c kb (rect_next i j)) ->
    eigenbasis h (rect_waves o1 o2 nx ny) (rect_levels o1 o2 nx ny t e).
  Proof using Hx Hy.
    intros (S1 & S2) HE. destruct (sides_ok o1 nx Hx) as (EX & OX & CX). destruct (sides_ok o2 ny Hy) as (EY & OY & CY).
    assert (IX : forall i, (i < nx * ny)%nat -> (i / ny < nx)%nat) by (intros i Hi; apply Nat.div_lt_upper_bound; lia).
    assert (IY : forall i, (i mod ny < ny)%nat) by (intros i; apply Nat.mod_upper_bound; lia).
    split; [|split].
    - unfold eigen, rect_waves, rect_levels. cbn [nrow ncol]. rewrite map_length, seq_length. split; [reflexivity|]. split; [exact S1|]. split; [exact S2|].
      intros i a Hi Ha. unfold apply, col. cbn [ent].
      set (lev := fun a => e - t * (side_level o1 nx (a / ny) + side_level o2 ny (a mod ny))).
      rewrite (nth_indep _ 0 (lev 0%nat)) by (rewrite map_length, seq_length; exact Ha). rewrite (map_nth lev), seq_nth by exact Ha. cbn [Nat.add].
      set (x := (i / ny)%nat). set (y := (i mod ny)%nat). set (p := (a / ny)%nat). set (q := (a mod ny)%nat).
      set (X := fun x => side_wave o1 nx x p). set (Y := fun y => side_wave o2 ny y q).
      rewrite (ksum_ext _ _ (fun j => kb (j =? i)%nat *c (real e *c (X (j / ny)%nat *c Y (j mod ny)%nat)) +c
        real (- t) *c ((fun x' y' => (kb (side_next o1 nx x x') *c X x') *c (kb (y' =? y)%nat *c Y y') +c (kb (x' =? x)%nat *c X x') *c (kb (side_next o2 ny y y') *c Y y')) (j / ny) (j mod ny))%nat)).
      2: { intros j Hj. rewrite HE by assumption. unfold rect_next. fold x y. rewrite (Nat.eqb_sym i j). rewrite (Nat.eqb_sym x), (Nat.eqb_sym y).
           unfold X, Y. set (w1 := side_wave o1 nx (j / ny) p). set (w2 := side_wave o2 ny (j mod ny) q).
           assert (EQX : (j / ny =? x)%nat = true -> side_next o1 nx x (j / ny) = false) by (intros Z; apply Nat.eqb_eq in Z; rewrite Z; apply side_next_irr).
           assert (EQY : (j mod ny =? y)%nat = true -> side_next o2 ny y (j mod ny) = false) by (intros Z; apply Nat.eqb_eq in Z; rewrite Z; apply side_next_irr).
           destruct (j =? i)%nat, (j / ny =? x)%nat, (j mod ny =? y)%nat, (side_next o1 nx x (j / ny)), (side_next o2 ny y (j mod ny));
             try (specialize (EQX eq_refl); discriminate); try (specialize (EQY eq_refl); discriminate); cbn [andb orb kb]; ring. }
      rewrite ksum_add. rewrite (ksum_pick (nx * ny) i (fun j => real e *c (X (j / ny)%nat *c Y (j mod ny)%nat)) Hi).
      rewrite (ksum_mul_l (nx * ny)).
      rewrite (flat_sum (fun x' y' => (kb (side_next o1 nx x x') *c X x') *c (kb (y' =? y)%nat *c Y y') +c (kb (x' =? x)%nat *c X x') *c (kb (side_next o2 ny y y') *c Y y'))).
      rewrite (ksum_ext nx _ (fun x' => ksum ny (fun y' => (kb (side_next o1 nx x x') *c X x') *c (kb (y' =? y)%nat *c Y y')) +c ksum ny (fun y' => (kb (x' =? x)%nat *c X x') *c (kb (side_next o2 ny y y') *c Y y')))) by (intros; apply ksum_add).
      rewrite ksum_add, !sum_product. fold x y. unfold X, Y. rewrite (EX x p), (EY y q) by (unfold x, y, p, q; auto).
      rewrite (ksum_pick nx x (fun x => side_wave o1 nx x p)), (ksum_pick ny y (fun y => side_wave o2 ny y q)) by (unfold x, y; auto).
      unfold lev. fold p q. change (e - t * (side_level o1 nx p + side_level o2 ny q), 0) with (real (e - t * (side_level o1 nx p + side_level o2 ny q))).
      replace (real (e - t * (side_level o1 nx p + side_level o2 ny q))) with (real e +c real (- t) *c (real (side_level o1 nx p) +c real (side_level o2 ny q))) by (apply injective_projections; cbn; ring).
      ring.
    - intros a b Ha Hb. cbn [nrow ncol rect_waves] in *. unfold inner, col, rect_waves. cbn [ent].
      rewrite (ksum_ext _ _ (fun i => (fun x y => (conj (side_wave o1 nx x (a / ny)) *c side_wave o1 nx x (b / ny)) *c (conj (side_wave o2 ny y (a mod ny)) *c side_wave o2 ny y (b mod ny))) (i / ny) (i mod ny))%nat).
      2: { intros i _. rewrite (@kconj_mul CR _). ring. }
      rewrite (flat_sum (fun x y => (conj (side_wave o1 nx x (a / ny)) *c side_wave o1 nx x (b / ny)) *c (conj (side_wave o2 ny y (a mod ny)) *c side_wave o2 ny y (b mod ny)))).
      rewrite sum_product, OX, OY by auto. rewrite (flat_eq a b). destruct (a / ny =? b / ny)%nat, (a mod ny =? b mod ny)%nat; cbn [andb kb]; ring.
    - intros psi i Hi. cbn [nrow ncol rect_waves] in *. unfold inner, col, rect_waves. cbn [ent].
      rewrite (ksum_ext _ _ (fun a => ksum (nx * ny) (fun j => psi j *c ((side_wave o1 nx (i / ny) (a / ny) *c conj (side_wave o1 nx (j / ny) (a / ny))) *c (side_wave o2 ny (i mod ny) (a mod ny) *c conj (side_wave o2 ny (j mod ny) (a mod ny))))))).
      2: { intros a _. rewrite <- ksum_mul_l. apply ksum_ext. intros j _. rewrite (@kconj_mul CR _). ring. }
      rewrite ksum_swap. rewrite (ksum_ext _ _ (fun j => kb (j =? i)%nat *c psi j)); [symmetry; apply ksum_pick; exact Hi|].
      intros j Hj. rewrite (ksum_mul_l (nx * ny)).
      rewrite (flat_sum (fun p q => (side_wave o1 nx (i / ny) p *c conj (side_wave o1 nx (j / ny) p)) *c (side_wave o2 ny (i mod ny) q *c conj (side_wave o2 ny (j mod ny) q)))).
      rewrite sum_product, CX, CY by auto. rewrite (Nat.eqb_sym j i), (flat_eq i j). destruct (i / ny =? j / ny)%nat, (i mod ny =? j mod ny)%nat; cbn [andb kb]; ring.
  Qed.
End Product.
