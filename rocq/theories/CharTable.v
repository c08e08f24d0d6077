(** What [validate_table] accepts. *)
From Coq Require Import List Arith Lia ZArith Reals Lra Bool Ring Setoid.
From Verif Require Import Scalars Sums Res Matrix ModelPhase ModelSymmetry SpecSymmetry SymBase SymTable SymZn SymSeven.
Import ListNotations.
Local Open Scope R_scope.

Add Ring CRring : (@k_ring CR CR_StarRing).

Lemma z_all_spec n f g : z_all n f g = true <-> forall i j, (i < n)%nat -> (j < n)%nat -> f i j = g i j.
Proof.
  unfold z_all. rewrite forallb_forall. split.
  - intros H i j Hi Hj. assert (X := H i ltac:(apply in_seq; lia)). rewrite forallb_forall in X.
    apply Z.eqb_eq, X, in_seq. lia.
  - intros H i Hi. apply forallb_forall. intros j Hj. apply in_seq in Hi, Hj. apply Z.eqb_eq, H; lia.
Qed.

(** The sums compared. *)
Lemma row_cross_eq T sizes i j : ncol T = length sizes ->
  row_cross T sizes i j = round_z (fst (row_product T sizes i j)).
Proof.
  intros Hn. unfold row_cross, row_product. rewrite Hn, Nat.max_id. f_equal. f_equal. apply ksum_ext. intros k Hk.
  assert (X : (if (length sizes =? 1)%nat then 0%nat else k) = k) by (destruct (Nat.eqb_spec (length sizes) 1); lia).
  rewrite X. reflexivity.
Qed.

Lemma validate_spec T sizes : shaped T sizes ->
  exists b, validate_table T sizes = Ok b /\
    (b = true <-> forall i j, (i < length sizes)%nat -> (j < length sizes)%nat ->
       round_z (fst (column_product T i j)) = (if (i =? j)%nat then Z.of_nat (list_sum sizes / nth i sizes O) else 0%Z) /\
       round_z (fst (row_product T sizes i j)) = (if (i =? j)%nat then Z.of_nat (list_sum sizes) else 0%Z)).
Proof.
  intros (H1 & H2 & H3). unfold validate_table. rewrite H1, H2, Nat.ltb_irrefl, Nat.eqb_refl. cbn [orb negb]. rewrite andb_false_r.
  assert (Hex : existsb (Nat.eqb 0) sizes = false).
  { destruct (existsb (Nat.eqb 0) sizes) eqn:E; [|reflexivity]. apply existsb_exists in E as (x & Hx & Ex).
    apply Nat.eqb_eq in Ex. subst x. specialize (H3 _ Hx). lia. }
  rewrite Hex. cbn [negb andb]. eexists. split; [reflexivity|]. rewrite andb_true_iff, !z_all_spec. split.
  - intros (A & B) i j Hi Hj. split; [symmetry; apply A; assumption|]. rewrite <- row_cross_eq by assumption. symmetry. apply B; assumption.
  - intros H. split; intros i j Hi Hj; [symmetry; apply H; assumption|]. rewrite row_cross_eq by assumption. symmetry. apply H; assumption.
Qed.

Lemma round_z_near x : Rabs (x - IZR (round_z x)) <= 1 / 2.
Proof.
  unfold round_z. pose proof (archimed x) as (A1 & A2). assert (E : IZR (up x - 1) = IZR (up x) - 1) by (rewrite minus_IZR; reflexivity).
  assert (E' : IZR (up x - 1 + 1) = IZR (up x)) by (rewrite plus_IZR, E; ring).
  destruct (Rlt_dec (x - IZR (up x - 1)) (1 / 2)).
  - rewrite Rabs_right; lra.
  - destruct (Rlt_dec (1 / 2) (x - IZR (up x - 1))).
    + rewrite E'. rewrite Rabs_left1; lra.
    + destruct (Z.even (up x - 1)); [rewrite Rabs_right; lra|rewrite E'; rewrite Rabs_left1; lra].
Qed.

Lemma div_exact a b : (b <> 0)%nat -> (a mod b = 0)%nat -> INR (a / b) = INR a / INR b.
Proof.
  intros Hb H. assert (E : a = (b * (a / b))%nat) by (rewrite (Nat.div_mod a b Hb) at 1; lia).
  rewrite E at 2. rewrite mult_INR. field. apply not_0_INR. assumption.
Qed.

Lemma target_col sizes i j : (i < length sizes)%nat -> (forall s, In s sizes -> (0 < s)%nat) -> divide_order sizes ->
  IZR (if (i =? j)%nat then Z.of_nat (list_sum sizes / nth i sizes O) else 0%Z) =
  if (i =? j)%nat then INR (list_sum sizes) / INR (nth i sizes O) else 0.
Proof.
  intros Hi Hp Hd. destruct (i =? j)%nat; [|reflexivity]. rewrite <- INR_IZR_INZ. apply div_exact.
  - specialize (Hp _ (nth_In sizes O Hi)). lia.
  - apply Hd, nth_In. assumption.
Qed.

(** Correct tables are accepted. *)
Theorem validate_accepts T sizes : shaped T sizes -> divide_order sizes -> orthogonal_table T sizes ->
  validate_table T sizes = Ok true.
Proof.
  intros Hs Hd Ho. destruct (validate_spec T sizes Hs) as (b & E & Hb). rewrite E. f_equal. apply Hb.
  intros i j Hi Hj. destruct (Ho i j Hi Hj) as (H1 & H2). rewrite H1, H2. cbn [fst].
  rewrite <- (target_col sizes i j Hi) by (auto; apply Hs). rewrite round_z_IZR. split; [reflexivity|].
  destruct (i =? j)%nat; [rewrite round_z_INR; reflexivity|apply round_z_0].
Qed.

(** What is accepted is orthogonal within one half. *)
Theorem validate_near T sizes : shaped T sizes -> divide_order sizes -> validate_table T sizes = Ok true ->
  forall i j, (i < length sizes)%nat -> (j < length sizes)%nat ->
    Rabs (fst (column_product T i j) - (if (i =? j)%nat then INR (list_sum sizes) / INR (nth i sizes O) else 0)) <= 1 / 2 /\
    Rabs (fst (row_product T sizes i j) - (if (i =? j)%nat then INR (list_sum sizes) else 0)) <= 1 / 2.
Proof.
  intros Hs Hd Hv i j Hi Hj. destruct (validate_spec T sizes Hs) as (b & E & Hb). rewrite Hv in E. injection E as <-.
  destruct (proj1 Hb eq_refl i j Hi Hj) as (H1 & H2).
  rewrite <- (target_col sizes i j Hi) by (auto; apply Hs). rewrite <- H1. split; [apply round_z_near|].
  replace (if (i =? j)%nat then INR (list_sum sizes) else 0) with (IZR (if (i =? j)%nat then Z.of_nat (list_sum sizes) else 0%Z)).
  - rewrite <- H2. apply round_z_near.
  - destruct (i =? j)%nat; [rewrite <- INR_IZR_INZ; reflexivity|reflexivity].
Qed.

(** Tables of integers are accepted exactly if they are orthogonal. *)
Lemma ksum_integer n (f : nat -> CR) : (forall k, (k < n)%nat -> exists z, f k = real (IZR z)) -> exists z, ksum n f = real (IZR z).
Proof.
  induction n as [|n IH]; intros H; [exists 0%Z; reflexivity|].
  destruct IH as (z & Ez); [intros; apply H; lia|]. destruct (H n ltac:(lia)) as (w & Ew).
  exists (z + w)%Z. cbn [ksum]. rewrite Ez, Ew, plus_IZR, real_add. reflexivity.
Qed.

Theorem validate_integers rows sizes : shaped (int_table rows) sizes -> divide_order sizes ->
  (validate_table (int_table rows) sizes = Ok true <-> orthogonal_table (int_table rows) sizes).
Proof.
  intros Hs Hd. split; [|apply validate_accepts; assumption]. intros Hv i j Hi Hj.
  destruct (validate_spec _ sizes Hs) as (b & E & Hb). rewrite Hv in E. injection E as <-.
  destruct (proj1 Hb eq_refl i j Hi Hj) as (H1 & H2).
  destruct (ksum_integer (nrow (int_table rows)) (fun k => ent (int_table rows) k i *c conj (ent (int_table rows) k j))) as (z & Ez).
  { intros k _. eexists. cbn [int_table ent]. rewrite real_conj, <- real_mul, <- mult_IZR. reflexivity. }
  destruct (ksum_integer (length sizes) (fun k => ent (int_table rows) i k *c conj (ent (int_table rows) j k) *c real (INR (nth k sizes O)))) as (w & Ew).
  { intros k _. eexists. cbn [int_table ent]. rewrite real_conj, INR_IZR_INZ, <- !real_mul, <- !mult_IZR. reflexivity. }
  change (column_product (int_table rows) i j = real (IZR z)) in Ez. change (row_product (int_table rows) sizes i j = real (IZR w)) in Ew.
  rewrite Ez in H1 |- *. rewrite Ew in H2 |- *. cbn [real fst] in H1, H2. rewrite round_z_IZR in H1, H2.
  rewrite H1, H2. rewrite (target_col sizes i j Hi) by (auto; apply Hs). split; [reflexivity|].
  destruct (i =? j)%nat; [rewrite <- INR_IZR_INZ; reflexivity|reflexivity].
Qed.

(** ** The table of the seven-fold group is accepted *)
Lemma d7_accepted : validate_table d7_table (map (@length cmat) (d7_classes rot7 refl7)) = Ok true.
Proof.
  change (map (@length cmat) (d7_classes rot7 refl7)) with [1; 7; 2; 2; 2]%nat.
  apply validate_accepts.
  - split; [reflexivity|]. split; [reflexivity|]. intros s Hs. cbn in Hs. lia.
  - intros s [<-|[<-|[<-|[<-|[<-|[]]]]]]; reflexivity.
  - pose proof cosines as (H1 & H2 & H3 & H4 & H5 & H6 & H7).
    intros i j Hi Hj. cbn [length] in Hi, Hj.
    unfold column_product, row_product. change (nrow d7_table) with 5%nat. cbn [length ksum].
    assert (HE : forall i j, ent d7_table i j = real (nth j (nth i [[1; 1; 1; 1; 1]; [1; -1; 1; 1; 1];
      [2; 0; 2 * cos (2 * PI / 7); 2 * cos (4 * PI / 7); 2 * cos (6 * PI / 7)];
      [2; 0; 2 * cos (4 * PI / 7); 2 * cos (6 * PI / 7); 2 * cos (2 * PI / 7)];
      [2; 0; 2 * cos (6 * PI / 7); 2 * cos (2 * PI / 7); 2 * cos (4 * PI / 7)]] []) 0)) by reflexivity.
    rewrite !HE. clear HE.
    set (x := 2 * cos (2 * PI / 7)) in *. set (y := 2 * cos (4 * PI / 7)) in *. set (z := 2 * cos (6 * PI / 7)) in *. clearbody x y z.
    do 5 (destruct i as [|i]; [do 5 (destruct j as [|j]; [
      cbn [nth Nat.eqb list_sum fold_right Nat.add]; unfold real; cbn [kmul kadd kconj k0 CR_StarRing cr_mul cr_add cr_conj fst snd];
      unfold cr_mul, cr_add, cr_conj; cbn [fst snd]; split; f_equal; rewrite ?INR_IZR_INZ; cbn [Z.of_nat Pos.of_succ_nat Pos.succ]; lra|]); lia|]). lia.
Qed.

(** A table which is not orthogonal and is accepted. *)
Lemma wrong_accepted : validate_table (Mat 1 1 (fun _ _ => (6 / 5, 0))) [1%nat] = Ok true /\
  ~ orthogonal_table (Mat 1 1 (fun _ _ => (6 / 5, 0))) [1%nat].
Proof.
  split.
  - destruct (validate_spec (Mat 1 1 (fun _ _ => (6 / 5, 0))) [1%nat]) as (b & E & Hb).
    { split; [reflexivity|]. split; [reflexivity|]. intros s [<-|[]]. lia. }
    rewrite E. f_equal. apply Hb. intros [|i] [|j] Hi Hj; cbn in Hi, Hj; try lia.
    unfold column_product, row_product. cbn.
    assert (X : forall x, x = 36 / 25 -> round_z x = 1%Z).
    { intros x ->. unfold round_z. assert (U : up (36 / 25) = 2%Z) by (symmetry; apply tech_up; lra). rewrite U. cbn.
      destruct (Rlt_dec (36 / 25 - 1) (1 / 2)); [reflexivity|lra]. }
    split; apply X; lra.
  - intros H. destruct (H 0%nat 0%nat ltac:(cbn; lia) ltac:(cbn; lia)) as (H1 & _). unfold column_product in H1. cbn in H1.
    injection H1 as H1. lra.
Qed.

Lemma wrong_table : exists T sizes, shaped T sizes /\ divide_order sizes /\
  validate_table T sizes = Ok true /\ ~ orthogonal_table T sizes.
Proof.
  exists (Mat 1 1 (fun _ _ => (6 / 5, 0))), [1%nat]. split; [|split; [|exact wrong_accepted]].
  - split; [reflexivity|]. split; [reflexivity|]. intros s [<-|[]]. lia.
  - intros s [<-|[]]. reflexivity.
Qed.

(** Nothing but tables of the right shape is accepted, apart from tables of a
    single row. *)
Lemma validate_shape T sizes : validate_table T sizes = Ok true -> (2 <= nrow T)%nat -> shaped T sizes.
Proof.
  unfold validate_table. intros H Hn. destruct (ncol T <? nrow T)%nat eqn:E1; [discriminate|].
  apply Nat.ltb_ge in E1.
  destruct ((0 <? nrow T)%nat && negb ((ncol T =? length sizes)%nat || (ncol T =? 1)%nat || (length sizes =? 1)%nat)) eqn:E2; [discriminate|].
  injection H as H. apply andb_true_iff in H as [H _]. apply andb_true_iff in H as [H _]. apply andb_true_iff in H as [H1 H2].
  apply Nat.eqb_eq in H1. apply andb_false_iff in E2 as [E2|E2]; [apply Nat.ltb_ge in E2; lia|].
  apply negb_false_iff in E2. rewrite !orb_true_iff, !Nat.eqb_eq in E2.
  split; [symmetry; exact H1|]. split; [lia|].
  intros s Hs. apply negb_true_iff in H2. destruct s as [|s]; [|lia].
  assert (X : existsb (Nat.eqb 0) sizes = true) by (apply existsb_exists; exists O; split; [exact Hs|reflexivity]). change (existsb (Nat.eqb 0) sizes = false) in H2. congruence.
Qed.
Lemma round_z_IZR k : round_z (IZR k) = k.
Proof.
  unfold round_z. assert (E : up (IZR k) = (k + 1)%Z).
  { symmetry. apply tech_up; rewrite plus_IZR; lra. }
  rewrite E. replace (k + 1 - 1)%Z with k by lia. destruct (Rlt_dec (IZR k - IZR k) (1 / 2)) as [_|N]; [reflexivity|]. exfalso. lra.
Qed.
Lemma validate_one_row : exists T sizes, validate_table T sizes = Ok true /\ nrow T = 1%nat /\ ncol T = 3%nat.
Proof.
  exists (Mat 1 3 (fun _ j => match j with O => (1, 0) | _ => (0, 0) end)), [1%nat].
  split; [|split; reflexivity]. unfold validate_table, z_all, col_cross, row_cross.
  cbn [nrow ncol length list_sum fold_right Nat.eqb Nat.ltb Nat.leb negb existsb orb andb seq forallb nth Nat.max].
  match goal with |- context [round_z (fst (ksum 1 ?f))] => assert (E1 : fst (ksum 1 f) = IZR 1) end.
  { cbn. unfold cr_add, cr_mul, cr_conj. cbn. lra. }
  rewrite E1.
  match goal with |- context [round_z (fst (ksum 3 ?f))] => assert (E2 : fst (ksum 3 f) = IZR 1) end.
  { cbn. unfold cr_add, cr_mul, cr_conj, real. cbn. lra. }
  rewrite E2, round_z_IZR. reflexivity.
Qed.
