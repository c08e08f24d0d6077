(** Regular polygons: proofs. *)
From Coq Require Import String List Arith Lia Reals Lra Bool.
From Verif Require Import Scalars Res ModelGeometry ModelPhase ModelThermal ModelRest SpecRest.
Import ListNotations.
Local Open Scope R_scope.

Definition around (n a b : nat) : bool :=
  ((b =? S a) || (a =? S b) || ((a =? 0) && (b =? n - 1)) || ((a =? n - 1) && (b =? 0)))%nat.
Lemma set_one_ok n A i j : (i < n)%nat -> (j < n)%nat -> set_one n A i j = Ok (fun a b => if ((a =? i) && (b =? j))%nat then 1 else A a b).
Proof. intros Hi Hj. unfold set_one. rewrite (proj2 (Nat.ltb_lt i n) Hi), (proj2 (Nat.ltb_lt j n) Hj). reflexivity. Qed.
Lemma from_end_ok n k : (k <= n)%nat -> from_end n k = Ok (n - k)%nat.
Proof. intros H. unfold from_end. rewrite (proj2 (Nat.leb_le k n) H). reflexivity. Qed.
Ltac eqs := repeat match goal with |- context[(?x =? ?y)%nat] => destruct (Nat.eqb_spec x y) end; cbn [andb orb]; try reflexivity; try lia.
Lemma adjacency_ok n : (2 <= n)%nat -> exists A, polygon_adjacency n = Ok A /\
  forall a b, (a < n)%nat -> (b < n)%nat -> A a b = if around n a b then 1 else 0.
Proof.
  intros Hn. unfold polygon_adjacency. rewrite set_one_ok by lia. cbn [bind]. rewrite from_end_ok by lia. cbn [bind]. rewrite set_one_ok by lia. cbn [bind].
  rewrite set_one_ok by lia. cbn [bind]. rewrite from_end_ok by lia. cbn [bind]. rewrite set_one_ok by lia. cbn [bind].
  set (A0 := fun a b : nat => _). 
  assert (L : forall k, (k <= n - 2)%nat -> exists A, rfold (fun A ii => B <- set_one n A ii (ii - 1) ;; set_one n B ii (ii + 1)) (seq 1 k) A0 = Ok A /\
    forall a b, A a b = if ((1 <=? a) && (a <? S k) && ((b =? a - 1) || (b =? a + 1)))%nat then 1 else A0 a b).
  { induction k as [|k IH]; intros Hk.
    - exists A0. split; [reflexivity|]. intros a b. destruct (Nat.leb_spec 1 a), (Nat.ltb_spec a 1); cbn [andb]; try reflexivity; lia.
    - destruct IH as (A & EA & VA); [lia|]. rewrite seq_S, rfold_app, EA. cbn [bind rfold]. rewrite set_one_ok by lia. cbn [bind]. rewrite set_one_ok by lia. cbn [bind].
      eexists. split; [reflexivity|]. intros a b. cbn beta. rewrite VA.
      destruct (Nat.leb_spec 1 a), (Nat.ltb_spec a (S k)), (Nat.ltb_spec a (S (S k))); cbn [andb orb]; eqs. }
  destruct (L (n - 2)%nat (le_n _)) as (A & EA & VA). exists A. split; [exact EA|]. intros a b Ha Hb. rewrite VA. unfold A0, around.
  destruct (Nat.leb_spec 1 a), (Nat.ltb_spec a (S (n - 2))); cbn [andb orb]; eqs.
Qed.
Lemma adjacency_raises n : (n < 2)%nat -> polygon_adjacency n = Raise IndexError.
Proof. intros H. destruct n as [|[|n]]; [reflexivity | reflexivity | lia]. Qed.

(** Distances. *)
Section Circle.
  Variable n : nat.
  Hypothesis Hn : (2 <= n)%nat.
  Notation th := (2 * PI / INR n).
  Lemma n_pos : 2 <= INR n. Proof. apply (le_INR 2) in Hn. cbn in Hn. lra. Qed.
  Lemma th_range : 0 < th <= PI.
  Proof.
    pose proof n_pos. pose proof PI_RGT_0. split; [apply Rdiv_lt_0_compat; lra|].
    apply Rmult_le_reg_r with (INR n); [lra|]. unfold Rdiv. rewrite Rmult_assoc, Rinv_l by lra. nra.
  Qed.
  Lemma cos_th : cos th < 1.
  Proof. pose proof th_range. pose proof PI_RGT_0. rewrite <- cos_0. apply cos_decreasing_1; lra. Qed.
  Lemma radius : (/ 2 / sin (th / 2)) * (/ 2 / sin (th / 2)) * (2 * (1 - cos th)) = 1.
  Proof.
    pose proof th_range. pose proof PI_RGT_0. assert (S : 0 < sin (th / 2)) by (apply sin_gt_0; lra).
    assert (C : 1 - cos th = 2 * (sin (th / 2) * sin (th / 2))).
    { transitivity (1 - cos (2 * (th / 2))); [f_equal; f_equal; lra|]. rewrite cos_2a_sin. ring. }
    rewrite C. field. lra.
  Qed.
  Lemma dist_sq i j : distance (polygon_site n i) (polygon_site n j) ^ 2 = (1 - cos (th * (INR i - INR j))) / (1 - cos th).
  Proof.
    unfold distance, polygon_site. cbn [fst snd]. rewrite pow2_sqrt by (apply Rplus_le_le_0_compat; apply pow2_ge_0).
    set (d := / 2 / sin (th / 2)). pose proof radius as RD. fold d in RD. pose proof cos_th as CT.
    rewrite Rmult_minus_distr_l, cos_minus. set (a := th * INR i). set (b := th * INR j).
    pose proof (sin2_cos2 a) as Pa. pose proof (sin2_cos2 b) as Pb. unfold Rsqr in Pa, Pb.
    apply Rmult_eq_reg_r with (2 * (1 - cos th)); [|lra].
    replace ((1 - (cos a * cos b + sin a * sin b)) / (1 - cos th) * (2 * (1 - cos th))) with (2 - 2 * (cos a * cos b + sin a * sin b)) by (field; lra).
    transitivity ((d * d * (2 * (1 - cos th))) * ((sin a * sin a + cos a * cos a) + (sin b * sin b + cos b * cos b) - 2 * (cos a * cos b + sin a * sin b))); [ring|].
    rewrite RD, Pa, Pb. ring.
  Qed.
  Lemma cos_step k : (1 < k)%nat -> (k < n - 1)%nat -> cos (th * INR k) < cos th.
  Proof.
    intros K1 K2. pose proof th_range as [T1 T2]. pose proof n_pos as NP. pose proof PI_RGT_0.
    assert (I1 : 2 <= INR k) by (apply (le_INR 2) in K1; cbn in K1; lra).
    assert (I2 : INR k <= INR n - 2) by (assert (X : (k + 2 <= n)%nat) by lia; apply le_INR in X; rewrite plus_INR in X; cbn in X; lra).
    assert (TN : th * INR n = 2 * PI) by (field; lra).
    destruct (Rle_dec (th * INR k) PI) as [L|L].
    - apply cos_decreasing_1; nra.
    - assert (E : cos (th * INR k) = cos (2 * PI - th * INR k)) by (rewrite cos_minus, cos_2PI, sin_2PI; ring). rewrite E.
      apply cos_decreasing_1; nra.
  Qed.
  Lemma cos_end : cos (th * INR (n - 1)) = cos th.
  Proof.
    pose proof n_pos. rewrite minus_INR by lia. change (INR 1) with 1. replace (th * (INR n - 1)) with (2 * PI - th) by (field; lra).
    rewrite cos_minus, cos_2PI, sin_2PI. ring.
  Qed.
  Lemma sq_one x : 0 <= x -> x ^ 2 = 1 -> x = 1. Proof. intros; nra. Qed.
  Lemma dist_pos p q : 0 <= distance p q. Proof. apply sqrt_pos. Qed.
  Lemma dist_case i j : (i < n)%nat -> (j < n)%nat -> i <> j ->
    (around n i j = true /\ distance (polygon_site n i) (polygon_site n j) = 1) \/
    (around n i j = false /\ 1 < distance (polygon_site n i) (polygon_site n j)).
  Proof.
    intros Hi Hj Ne.
    assert (W : forall i j, (i < n)%nat -> (j < i)%nat ->
      (around n i j = true /\ distance (polygon_site n i) (polygon_site n j) = 1) \/ (around n i j = false /\ 1 < distance (polygon_site n i) (polygon_site n j))).
    { clear i j Hi Hj Ne. intros i j Hi L. pose proof (dist_pos (polygon_site n i) (polygon_site n j)) as DP. pose proof (dist_sq i j) as D.
      rewrite <- minus_INR in D by lia. pose proof cos_th as CT.
      destruct (Nat.eq_dec (i - j) 1) as [K|K1]; [|destruct (Nat.eq_dec (i - j) (n - 1)) as [K|K2]].
      - left. split; [unfold around; eqs|]. apply sq_one; [exact DP|]. rewrite D, K. change (INR 1) with 1. rewrite Rmult_1_r. field. lra.
      - left. split; [unfold around; eqs|]. apply sq_one; [exact DP|]. rewrite D, K, cos_end. field. lra.
      - right. split; [unfold around; eqs|]. pose proof (cos_step (i - j) ltac:(lia) ltac:(lia)) as C.
        assert (1 < distance (polygon_site n i) (polygon_site n j) ^ 2); [|nra]. rewrite D. apply Rmult_lt_reg_r with (1 - cos th); [lra|].
        replace ((1 - cos (th * INR (i - j))) / (1 - cos th) * (1 - cos th)) with (1 - cos (th * INR (i - j))) by (field; lra). lra. }
    assert (DS : forall p q, distance p q = distance q p) by (intros; unfold distance; f_equal; ring).
    assert (AS : forall i j, around n i j = around n j i) by (clear; intros; unfold around; eqs).
    destruct (Nat.lt_ge_cases j i) as [L|L]; [apply W; assumption|]. rewrite DS, AS. apply W; lia.
  Qed.
End Circle.

Lemma valid_ok n A : (2 <= n)%nat -> (forall a b, (a < n)%nat -> (b < n)%nat -> A a b = if around n a b then 1 else 0) -> adjacency_valid n A = true.
Proof.
  intros Hn H. apply forallb_forall. intros i Hi. apply forallb_forall. intros j Hj. apply in_seq in Hi, Hj. rewrite !H by lia.
  assert (AS : around n i j = around n j i) by (clear; unfold around; eqs). rewrite <- AS. unfold is_zero.
  destruct (around n i j); repeat (destruct (Req_EM_T _ _); try lra); reflexivity.
Qed.
Lemma polygon_ok n : (2 <= n)%nat -> exists sites A, polygon n = Ok (sites, A) /\ length sites = n /\
  (forall i, (i < n)%nat -> A i i = 0) /\
  forall i j, (i < n)%nat -> (j < n)%nat -> i <> j ->
    A i j = A j i /\ (A i j = 0 \/ A i j = 1) /\ 1 <= distance (nth i sites (0, 0)) (nth j sites (0, 0)) /\
    (A i j = 1 <-> distance (nth i sites (0, 0)) (nth j sites (0, 0)) = 1) /\
    (A i j = 1 <-> (j = (i + 1) mod n \/ i = (j + 1) mod n)%nat).
Proof.
  intros Hn. destruct (adjacency_ok n Hn) as (A & EA & VA). exists (map (polygon_site n) (seq 0 n)), A. unfold polygon. rewrite EA. cbn [bind].
  rewrite (valid_ok n A Hn VA). split; [reflexivity|]. split; [rewrite map_length, seq_length; reflexivity|]. split.
  - intros i Hi. rewrite VA by assumption. assert (around n i i = false) as -> by (unfold around; eqs). reflexivity.
  - intros i j Hi Hj Ne. rewrite !VA by assumption. assert (AS : around n i j = around n j i) by (clear; unfold around; eqs). rewrite <- AS.
    assert (NT : forall i, (i < n)%nat -> nth i (map (polygon_site n) (seq 0 n)) (0, 0) = polygon_site n i).
    { intros k Hk. rewrite (nth_indep _ _ (polygon_site n 0)) by (rewrite map_length, seq_length; exact Hk). rewrite map_nth, seq_nth by exact Hk. reflexivity. }
    rewrite !NT by assumption.
    assert (RM : (around n i j = true <-> j = (i + 1) mod n \/ i = (j + 1) mod n)%nat).
    { assert (MD : forall x, (x < n)%nat -> ((x + 1) mod n = if (x =? n - 1)%nat then 0 else S x)%nat).
      { intros x Hx. destruct (Nat.eqb_spec x (n - 1)) as [->|]; [replace (n - 1 + 1)%nat with n by lia; apply Nat.mod_same; lia | rewrite Nat.mod_small; lia]. }
      rewrite !MD by assumption. unfold around. rewrite !orb_true_iff, !andb_true_iff, !Nat.eqb_eq.
      destruct (Nat.eqb_spec i (n - 1)), (Nat.eqb_spec j (n - 1)); lia. }
    destruct (dist_case n Hn i j Hi Hj Ne) as [[AR D]|[AR D]]; rewrite AR in *.
    + rewrite D. repeat split; try lra; try tauto.
    + repeat split; try lra; try tauto. intros X. apply RM in X. discriminate.
Qed.
Lemma polygon_small n : (n < 2)%nat -> polygon n = Raise IndexError.
Proof. intros H. unfold polygon. rewrite adjacency_raises by exact H. reflexivity. Qed.
Lemma c6_raises xd yd adj c6 cutoff : interaction_mat_c6 (attributes xd yd adj) c6 cutoff = Raise AttributeError.
Proof. reflexivity. Qed.
Lemma c6_formula g x y c6 cutoff : attribute g "site_distances_reduced_x"%string = Ok x -> attribute g "site_distances_reduced_y"%string = Ok y ->
  exists M, interaction_mat_c6 g c6 cutoff = Ok M /\ forall i j, let d := distance (0, 0) (x i j, y i j) in (d = 0 -> M i j = 0) /\ (d <> 0 -> M i j * d ^ 6 = c6).
Proof.
  intros Ex Ey. unfold interaction_mat_c6. rewrite Ex. cbn [bind]. rewrite Ey. cbn [bind]. eexists. split; [reflexivity|]. intros i j. cbn zeta.
  assert (X : distance (0, 0) (x i j, y i j) = sqrt (x i j ^ 2 + y i j ^ 2)) by (unfold distance; cbn [fst snd]; f_equal; ring). rewrite X. unfold is_zero.
  destruct (Req_EM_T (sqrt (x i j ^ 2 + y i j ^ 2)) 0) as [Z|NZ]; split; intros; try contradiction; [reflexivity|]. field. exact NZ.
Qed.
Lemma c6_no_cutoff : exists g x y c6 cutoff M, attribute g "site_distances_reduced_x"%string = Ok x /\ attribute g "site_distances_reduced_y"%string = Ok y /\
  interaction_mat_c6 g c6 cutoff = Ok M /\ cutoff < distance (0, 0) (x 0%nat 2%nat, y 0%nat 2%nat) /\ M 0%nat 2%nat <> 0.
Proof.
  set (x := fun i j => INR j - INR i). set (y := fun _ _ : nat => 0).
  exists [("site_distances_reduced_x", x); ("site_distances_reduced_y", y)]%string, x, y, 1, (3 / 2).
  destruct (c6_formula [("site_distances_reduced_x", x); ("site_distances_reduced_y", y)]%string x y 1 (3 / 2) eq_refl eq_refl) as (M & EM & F).
  exists M. split; [reflexivity|]. split; [reflexivity|]. split; [exact EM|].
  assert (D2 : distance (0, 0) (x 0%nat 2%nat, y 0%nat 2%nat) = 2).
  { unfold distance, x, y. cbn [fst snd INR]. transitivity (sqrt (2 * 2)); [f_equal; ring | apply sqrt_square; lra]. }
  destruct (F 0%nat 2%nat) as [_ F2]. rewrite D2 in *. split; [lra|]. intros Z. specialize (F2 ltac:(lra)). rewrite Z in F2. lra.
Qed.
