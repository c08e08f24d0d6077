(** The seven-fold dihedral group: rotations and reflections of a ring of seven
    states. *)
From Coq Require Import List Arith Lia ZArith Reals Lra Bool Ring Setoid Permutation.
From Verif Require Import Scalars Sums Res Matrix SpecMat ModelPhase ModelSymmetry SpecSymmetry
  SymBase SymReduce SymMany SymGroup SymTable SymZn SymWord SymNum SymGroups SymApi SymPerm.
Import ListNotations.
Local Open Scope R_scope.

Add Ring CRring : (@k_ring CR CR_StarRing).

(** ** The three cosines *)
Definition trio (x y z : R) : Prop :=
  x + y + z = -1 /\ x * x = 2 + y /\ y * y = 2 + z /\ z * z = 2 + x /\
  x * y = x + z /\ y * z = y + x /\ x * z = z + y.

Lemma trio_turn x y z : trio x y z -> trio y z x.
Proof. unfold trio. intros (H1 & H2 & H3 & H4 & H5 & H6 & H7). repeat split; lra. Qed.

Lemma cosines : trio (2 * cos (2 * PI / 7)) (2 * cos (4 * PI / 7)) (2 * cos (6 * PI / 7)).
Proof.
  set (t := 2 * PI / 7).
  replace (4 * PI / 7) with (2 * t) by (unfold t; field). replace (6 * PI / 7) with (3 * t) by (unfold t; field).
  set (x := 2 * cos t).
  assert (Hs : sin t * sin t = 1 - cos t * cos t) by (pose proof (sin2_cos2 t) as H; unfold Rsqr in H; lra).
  assert (E2 : 2 * cos (2 * t) = x * x - 2) by (rewrite cos_2a; unfold x; lra).
  assert (E3 : 2 * cos (3 * t) = x * x * x - 3 * x).
  { replace (3 * t) with (2 * t + t) by ring. rewrite cos_plus, sin_2a, cos_2a, Hs. unfold x.
    replace (2 * ((cos t * cos t - (1 - cos t * cos t)) * cos t - 2 * sin t * cos t * sin t))
      with (2 * ((cos t * cos t - (1 - cos t * cos t)) * cos t) - 4 * (sin t * sin t) * cos t) by ring. rewrite Hs. ring. }
  assert (E4 : 2 * cos (4 * t) = x * x * x * x - 4 * (x * x) + 2).
  { replace (4 * t) with (2 * (2 * t)) by ring. rewrite (cos_2a (2 * t)).
    pose proof (sin2_cos2 (2 * t)) as H. unfold Rsqr in H.
    replace (2 * (cos (2 * t) * cos (2 * t) - sin (2 * t) * sin (2 * t))) with ((2 * cos (2 * t)) * (2 * cos (2 * t)) - 2) by lra.
    rewrite E2. ring. }
  assert (E34 : cos (4 * t) = cos (3 * t)).
  { replace (4 * t) with (- (3 * t) + 2 * PI) by (unfold t; field). rewrite cos_plus, cos_2PI, sin_2PI, cos_neg. ring. }
  assert (Hx : x <> 2).
  { unfold x. intros H. assert (Hc : cos t < cos 0).
    { apply cos_decreasing_1; unfold t; pose proof PI_RGT_0; lra. }
    rewrite cos_0 in Hc. lra. }
  assert (Hp : x * x * x + x * x - 2 * x - 1 = 0).
  { assert (E : (x - 2) * (x * x * x + x * x - 2 * x - 1) = 0).
    { rewrite E34 in E4. rewrite E3 in E4. lra. }
    apply Rmult_integral in E as [E|E]; [exfalso; apply Hx; lra|exact E]. }
  assert (Hx3 : x * x * x = - (x * x) + 2 * x + 1) by lra.
  assert (Hx4 : x * x * x * x = 3 * (x * x) - x - 1).
  { rewrite Hx3. replace ((- (x * x) + 2 * x + 1) * x) with (- (x * x * x) + 2 * (x * x) + x) by ring. rewrite Hx3. ring. }
  rewrite E2, E3. clearbody x. unfold trio.
  assert (Hx5 : x * x * x * x * x = - 4 * (x * x) + 5 * x + 3).
  { rewrite Hx4. replace ((3 * (x * x) - x - 1) * x) with (3 * (x * x * x) - x * x - x) by ring. rewrite Hx3. ring. }
  assert (Hx6 : x * x * x * x * x * x = 9 * (x * x) - 5 * x - 4).
  { rewrite Hx5. replace ((- 4 * (x * x) + 5 * x + 3) * x) with (- 4 * (x * x * x) + 5 * (x * x) + 3 * x) by ring. rewrite Hx3. ring. }
  repeat split; lra.
Qed.

Lemma trio_large x y z : trio x y z -> noise <= Rabs x.
Proof.
  intros (H1 & H2 & H3 & H4 & H5 & H6 & H7). apply Rnot_lt_le. intros H.
  assert (Hn : noise <= 1 / 10).
  { unfold noise. replace (10 ^ 10) with (10 * 10 ^ 9) by ring. rewrite Rinv_mult.
    assert (/ 10 ^ 9 <= 1); [|lra]. rewrite <- Rinv_1. apply Rinv_le_contravar; [lra|]. apply pow_R1_Rle. lra. }
  assert (Hx : -1/10 < x < 1/10) by (apply Rabs_def2 in H; lra).
  assert (y = x * x - 2) by lra. assert (z = -1 - x - y) by lra. subst z. subst y.
  assert (x * (x * x - 2) = x + (-1 - x - (x * x - 2))) by lra. nra.
Qed.

(** ** A rank bound *)
Lemma rank_bound n M V (q : nat -> nat -> R) : nrow M = n -> ncol M = n -> row_basis M V ->
  (forall j k, (j < n)%nat -> (k < n)%nat ->
     ksum n (fun l => real (q j l) *c ent M l k) = real ((if (j =? k)%nat then 1 else 0) - / INR n)) ->
  (0 < n)%nat -> INR n - 1 <= INR (nrow V).
Proof.
  intros Hr Hc (V1 & V2 & _ & V4) Hq Hn. set (r := nrow V) in *.
  set (W := fun l k => ksum r (fun a => conj (ent V a l) *c ent V a k)).
  assert (HMW : forall l k, (l < n)%nat -> (k < n)%nat -> ksum n (fun s => ent M l s *c W s k) = ent M l k).
  { intros l k Hl Hk. destruct V4 as (_ & _ & V4). rewrite <- (V4 l k); [|cbn; congruence|cbn; congruence].
    cbn [mmul madj ent ncol]. fold r. unfold W.
    transitivity (ksum n (fun s => ksum r (fun a => (ent M l s *c conj (ent V a s)) *c ent V a k))).
    - apply ksum_ext. intros s _. rewrite <- ksum_mul_l. apply ksum_ext. intros; ring.
    - rewrite ksum_swap. apply ksum_ext. intros a _. rewrite Hc. rewrite <- ksum_mul_r. reflexivity. }
  assert (HQW : forall j k, (j < n)%nat -> (k < n)%nat ->
    ksum n (fun s => real ((if (j =? s)%nat then 1 else 0) - / INR n) *c W s k) = real ((if (j =? k)%nat then 1 else 0) - / INR n)).
  { intros j k Hj Hk. rewrite <- (Hq j k) by assumption.
    transitivity (ksum n (fun s => ksum n (fun l => real (q j l) *c (ent M l s *c W s k)))).
    - apply ksum_ext. intros s Hs. rewrite <- (Hq j s) by assumption. rewrite <- ksum_mul_r. apply ksum_ext. intros; ring.
    - rewrite ksum_swap. apply ksum_ext. intros l Hl. rewrite ksum_mul_l, HMW by assumption. reflexivity. }
  assert (Hsplit : forall j, (j < n)%nat ->
    W j j = real (1 - / INR n) +c real (/ INR n) *c ksum n (fun s => W s j)).
  { intros j Hj. pose proof (HQW j j Hj Hj) as E. rewrite Nat.eqb_refl in E. rewrite <- E.
    assert (E1 : ksum n (fun s => real (if (j =? s)%nat then 1 else 0) *c W s j) = W j j).
    { rewrite (ksum_single n j); [|assumption|].
      - rewrite Nat.eqb_refl, real_1. ring.
      - intros i _ Hne. destruct (Nat.eqb_spec j i); [congruence|]. rewrite real_0. ring. }
    rewrite <- E1 at 1. rewrite <- ksum_mul_l, <- ksum_add. apply ksum_ext. intros s _.
    unfold Rminus. rewrite real_add. assert (X : real (- / INR n) = kopp (real (/ INR n))).
    { unfold real; cbn; unfold cr_opp; cbn. f_equal; ring. }
    rewrite X. ring. }
  assert (Htr : ksum n (fun j => W j j) = real (INR r)).
  { unfold W. rewrite ksum_swap. transitivity (ksum r (fun _ => real 1)).
    - apply ksum_ext. intros a Ha. destruct V2 as (_ & _ & V2). specialize (V2 a a Ha Ha).
      cbn [mmul madj meye ent] in V2. rewrite V1, Hc in V2. unfold kb in V2. rewrite Nat.eqb_refl in V2.
      rewrite real_1, <- V2. apply ksum_ext. intros; ring.
    - rewrite ksum_real. f_equal. rewrite (rsum_const r _ 1) by reflexivity. ring. }
  assert (Hall : ksum n (fun j => ksum n (fun s => W s j)) =
                 real (rsum r (fun a => nsq (ksum n (fun j => ent V a j))))).
  { rewrite <- ksum_real. unfold W.
    transitivity (ksum n (fun j => ksum r (fun a => conj (ksum n (fun s => ent V a s)) *c ent V a j))).
    - apply ksum_ext. intros j _. rewrite ksum_swap. apply ksum_ext. intros a _. rewrite ksum_mul_r, ksum_conj. reflexivity.
    - rewrite ksum_swap. apply ksum_ext. intros a _. rewrite ksum_mul_l. apply conj_mul_self. }
  assert (E : real (INR r) = real (INR n * (1 - / INR n)) +c
              real (/ INR n * rsum r (fun a => nsq (ksum n (fun j => ent V a j))))).
  { rewrite <- Htr. rewrite (real_mul (/ INR n)), <- Hall, <- ksum_mul_l.
    rewrite <- (rsum_const n (fun _ => 1 - / INR n)) by reflexivity. rewrite <- ksum_real, <- ksum_add.
    apply ksum_ext. exact Hsplit. }
  rewrite <- real_add in E. apply real_inj in E.
  assert (Hp : 0 < INR n) by (apply lt_0_INR; assumption).
  assert (0 <= / INR n * rsum r (fun a => nsq (ksum n (fun j => ent V a j)))).
  { apply Rmult_le_pos; [left; apply Rinv_0_lt_compat; assumption|]. apply rsum_ge. intros; apply nsq_ge. }
  replace (INR n * (1 - / INR n)) with (INR n - 1) in E by (field; lra). lra.
Qed.

(** ** The reduction when every entry is kept *)
Lemma filter_all {A} (f : A -> bool) l : (forall x, In x l -> f x = true) -> filter f l = l.
Proof.
  induction l as [|x l IH]; intros H; [reflexivity|]. cbn [filter]. rewrite (H x (or_introl eq_refl)). f_equal.
  apply IH. intros; apply H; right; assumption.
Qed.
Lemma const_map m s : map (fun _ : nat => O) (seq s m) = repeat O m.
Proof. revert s. induction m; intros s; cbn; [reflexivity|]. rewrite IHm. reflexivity. Qed.
Lemma row_cols_all A i : (forall j, (j < ncol A)%nat -> ent A i j <> c0) -> row_cols A i = seq 0 (ncol A).
Proof. intros H. apply filter_all. intros j Hj. apply in_seq in Hj. apply kneb_true, H. lia. Qed.

Lemma reduce_full svd p d rel n : nrow p = S n -> ncol p = S n -> ncol rel = S n -> d <> (1, 0) ->
  (forall i j, (i < S n)%nat -> (j < S n)%nat -> noise <= modulus (ent p i j)) ->
  (forall i j, (i < S n)%nat -> (j < S n)%nat -> ent rel i j <> c0) ->
  exists M, nrow (reduce_projector svd p d rel) = nrow (svd M) /\ meq M p.
Proof.
  intros Hr Hc Hrc Hd Hl Hn.
  assert (HC : forall i j, (i < S n)%nat -> (j < S n)%nat -> ent (cleaned p) i j = ent p i j).
  { intros i j Hi Hj. cbn [cleaned ent]. unfold rlt_b. destruct (Rlt_dec (modulus (ent p i j)) noise) as [X|_]; [|reflexivity].
    specialize (Hl i j Hi Hj). lra. }
  assert (Hnz : forall i j, (i < S n)%nat -> (j < S n)%nat -> ent (cleaned p) i j <> c0).
  { intros i j Hi Hj E. rewrite HC in E by assumption. specialize (Hl i j Hi Hj). apply modulus_0 in E.
    assert (0 < noise) by (unfold noise; apply Rinv_0_lt_compat, pow_lt; lra). lra. }
  assert (Hk : rows_noz (cleaned p) = seq 0 (S n)).
  { unfold rows_noz. cbn [cleaned nrow]. rewrite Hr. apply filter_all. intros i Hi. apply in_seq in Hi.
    change (row_cols (Mat (nrow p) (ncol p) (fun i j => if rlt_b (modulus (ent p i j)) noise then (0, 0) else ent p i j)) i)
      with (row_cols (cleaned p) i).
    rewrite row_cols_all; [cbn [cleaned ncol]; rewrite Hc; reflexivity|].
    intros j Hj. cbn [cleaned ncol] in Hj. rewrite Hc in Hj. apply Hnz; lia. }
  unfold reduce_projector. rewrite Hk. destruct (cr_eq_dec d (1, 0)) as [X|_]; [contradiction|].
  set (p' := take_rows (cleaned p) (seq 0 (S n))). set (rel' := take_rows rel (seq 0 (S n))).
  assert (Hp' : nrow p' = S n) by (unfold p'; cbn [take_rows nrow]; apply seq_length).
  assert (Hrel : forall i, (i < S n)%nat -> row_cols rel' i = seq 0 (S n)).
  { intros i Hi. rewrite row_cols_all; [unfold rel'; cbn [take_rows ncol]; rewrite Hrc; reflexivity|].
    intros j Hj. unfold rel' in *. cbn [take_rows ncol ent] in *. rewrite Hrc in Hj. rewrite seq_nth by assumption. apply Hn; assumption. }
  unfold reduce_many. rewrite Hp'.
  assert (Hkeys : map (first_col rel') (seq 0 (S n)) = repeat O (S n)).
  { rewrite (map_ext_in _ (fun _ => O)); [apply const_map|].
    intros i Hi. apply in_seq in Hi. unfold first_col. rewrite Hrel by lia. reflexivity. }
  rewrite Hkeys.
  assert (Hu : unique_nats (repeat O (S n)) = [O]).
  { clear. induction n as [|n IH]; [reflexivity|]. change (insert_nat O (unique_nats (repeat O (S n))) = [O]). rewrite IH. reflexivity. }
  rewrite Hu. cbn [map].
  assert (Hrows : filter (fun i => (nth i (repeat O (S n)) O =? 0)%nat) (seq 0 (S n)) = seq 0 (S n)).
  { apply filter_all. intros i Hi. apply in_seq in Hi. apply Nat.eqb_eq. clear. generalize (S n). intros m. revert i.
    induction m; intros [|i]; simpl; auto. }
  rewrite Hrows. change (hd O (seq 0 (S n))) with O. rewrite Hrel by lia.
  exists (block p' (seq 0 (S n)) (seq 0 (S n))). split.
  - cbn [stack fold_right stack2 normalised nrow spread mzero]. apply Nat.add_0_r.
  - split; [cbn [block nrow]; rewrite seq_length; symmetry; exact Hr|]. split; [cbn [block ncol]; rewrite seq_length; symmetry; exact Hc|].
    intros i j Hi Hj. cbn [block nrow ncol] in Hi, Hj. rewrite seq_length in Hi, Hj. cbn [block ent]. rewrite !seq_nth by assumption.
    unfold p'. cbn [take_rows ent]. rewrite seq_nth by assumption. apply HC; assumption.
Qed.

(** ** The ring of seven states *)
Definition turn7 (j : nat) : nat := match j with 0 => 1 | 1 => 2 | 2 => 3 | 3 => 4 | 4 => 5 | 5 => 6 | _ => 0 end%nat.
Definition back7 (j : nat) : nat := match j with 0 => 6 | 1 => 0 | 2 => 1 | 3 => 2 | 4 => 3 | 5 => 4 | _ => 5 end%nat.
Definition flip7 (j : nat) : nat := match j with 0 => 0 | 1 => 6 | 2 => 5 | 3 => 4 | 4 => 3 | 5 => 2 | _ => 1 end%nat.
Definition rot7 : cmat := perm_mat 7 turn7.
Definition refl7 : cmat := perm_mat 7 flip7.

Lemma pair7 : dihedral_pair 7 7 rot7 refl7.
Proof.
  assert (B1 : below 7 turn7) by (apply below_ok; vm_compute; reflexivity).
  assert (B2 : below 7 flip7) by (apply below_ok; vm_compute; reflexivity).
  split; [|split; [|split; [|split]]].
  - apply (perm_signed 7 turn7 back7); vm_compute; reflexivity.
  - apply (perm_signed 7 flip7 flip7); vm_compute; reflexivity.
  - etransitivity; [apply perm_pow; exact B1|]. etransitivity; [apply perm_eq|apply perm_id]. vm_compute. reflexivity.
  - etransitivity; [apply perm_pow; exact B2|]. etransitivity; [apply perm_eq|apply perm_id]. vm_compute. reflexivity.
  - etransitivity; [apply perm_mul; exact B1|]. symmetry.
    etransitivity; [apply mm; [apply perm_pow; exact B1| |reflexivity]|].
    + destruct (perm_pow 7 turn7 (7 - 1) B1) as (_ & X & _). unfold rot7. rewrite X. reflexivity.
    + etransitivity; [apply perm_mul; exact B2|]. apply perm_eq. vm_compute. reflexivity.
Qed.

Definition d7_exps := [[WOne]; [rS; WMul rR rS; rks 2; rks 3; rks 4; rks 5; rks 6]; [rR; rk 6]; [rk 3; rk 4]; [rk 2; rk 5]].
Definition fun7 (g : nat) : nat -> nat := match g with O => turn7 | 1%nat => flip7 | _ => fun j => j end.

Lemma d7_classes_eq : d7_classes rot7 refl7 = map (map (xeval 7 (two 7 rot7 refl7))) d7_exps.
Proof. reflexivity. Qed.

Lemma fun7_below g : below 7 (fun7 g).
Proof. destruct g as [|[|g]]; [apply below_ok; vm_compute; reflexivity|apply below_ok; vm_compute; reflexivity|intros j Hj; exact Hj]. Qed.
Lemma fun7_mat g : meq (two 7 rot7 refl7 g) (perm_mat 7 (fun7 g)).
Proof. destruct g as [|[|g]]; [reflexivity|reflexivity|symmetry; apply perm_id]. Qed.

(** Distance on the ring. *)
Definition dist7 (i j : nat) : nat :=
  nth j (nth i [[0;1;2;3;3;2;1]; [1;0;1;2;3;3;2]; [2;1;0;1;2;3;3]; [3;2;1;0;1;2;3];
                [3;3;2;1;0;1;2]; [2;3;3;2;1;0;1]; [1;2;3;3;2;1;0]] [])%nat O.
Definition at7 (x y z : R) (k : nat) : R := match k with O => 2 | 1%nat => x | 2%nat => z | _ => y end.

Lemma two_d i j : (i < 7)%nat -> (j < 7)%nat -> forall f : nat -> nat -> Prop,
  (forall i j, In i (seq 0 7) -> In j (seq 0 7) -> f i j) -> f i j.
Proof. intros Hi Hj f H. apply H; apply in_seq; lia. Qed.

Lemma hits7 i j : (i < 7)%nat -> (j < 7)%nat ->
  map (fun l => hits fun7 l i j) d7_exps =
  map (fun k => if (k =? 1)%nat then 1%nat else if (k =? nth (dist7 i j) [0; 2; 4; 3] 0)%nat then 1%nat else 0%nat) (seq 0 5).
Proof.
  intros Hi Hj.
  do 7 (destruct i as [|i]; [do 7 (destruct j as [|j]; [vm_compute; reflexivity|]); lia|]). lia.
Qed.

Lemma sector7 a x y z : (2 <= a < 5)%nat ->
  ent d7_table a 0 = real 2 -> ent d7_table a 1 = real 0 -> ent d7_table a 2 = real x -> ent d7_table a 3 = real y -> ent d7_table a 4 = real z ->
  forall i j, (i < 7)%nat -> (j < 7)%nat ->
  ent (sector_op 7 d7_table (d7_classes rot7 refl7) a) i j = real (at7 x y z (dist7 i j)).
Proof.
  intros Ha E0 E1 E2 E3 E4 i j Hi Hj. rewrite d7_classes_eq.
  rewrite (perm_sector 7 fun7 (two 7 rot7 refl7)); [|exact fun7_below|exact fun7_mat|assumption|assumption|reflexivity].
  pose proof (hits7 i j Hi Hj) as Hh. unfold d7_exps in Hh. cbn [map seq] in Hh.
  injection Hh as H0 H1 H2 H3 H4.
  change (length d7_exps) with 5%nat. cbn [ksum]. unfold d7_exps. cbn [nth].
  rewrite H0, H1, H2, H3, H4, E0, E1, E2, E3, E4. rewrite !real_conj.
  assert (Hd : (dist7 i j < 4)%nat).
  { clear - Hi Hj. do 7 (destruct i as [|i]; [do 7 (destruct j as [|j]; [vm_compute; lia|]); lia|]). lia. }
  destruct (dist7 i j) as [|[|[|[|k]]]]; [| | | |lia]; cbn [nth Nat.eqb at7 INR]; rewrite ?real_0, ?real_1; ring.
Qed.

Definition inv7 (x y z : R) (k : nat) : R :=
  match k with O => 0 | 1%nat => (1 + 4 * x - y) / 49 | 2%nat => (1 + 4 * z - x) / 49 | _ => (1 + 4 * y - z) / 49 end.

Lemma sector7_inverse x y z : trio x y z -> forall j k, (j < 7)%nat -> (k < 7)%nat ->
  rsum 7 (fun l => inv7 x y z (dist7 j l) * at7 x y z (dist7 l k)) = (if (j =? k)%nat then 1 else 0) - / 7.
Proof.
  intros (H1 & H2 & H3 & H4 & H5 & H6 & H7) j k Hj Hk.
  do 7 (destruct j as [|j]; [do 7 (destruct k as [|k]; [cbn [rsum dist7 nth inv7 at7 Nat.eqb]; lra|]); lia|]). lia.
Qed.

Lemma related7 i j : (i < 7)%nat -> (j < 7)%nat -> ent (related 7 (d7_classes rot7 refl7)) i j <> c0.
Proof.
  intros Hi Hj. rewrite d7_classes_eq.
  rewrite (perm_related 7 fun7 (two 7 rot7 refl7)); [|exact fun7_below|exact fun7_mat|assumption|assumption].
  intros E. apply real_inj in E. apply (INR_eq _ 0) in E. pose proof (hits7 i j Hi Hj) as Hh. rewrite Hh in E.
  cbn [map seq Nat.eqb list_sum fold_right] in E. destruct (nth (dist7 i j) [0; 2; 4; 3]%nat 0%nat) in E; cbn in E; lia.
Qed.

Lemma sector7_rank a x y z svd : (2 <= a < 5)%nat -> trio x y z -> (forall M, row_basis M (svd M)) ->
  ent d7_table a 0 = real 2 -> ent d7_table a 1 = real 0 -> ent d7_table a 2 = real x -> ent d7_table a 3 = real y -> ent d7_table a 4 = real z ->
  (6 <= nrow (reduce_projector svd (sector_op 7 d7_table (d7_classes rot7 refl7) a) (ent d7_table a 0)
               (related 7 (d7_classes rot7 refl7))))%nat.
Proof.
  intros Ha Ht Hsvd E0 E1 E2 E3 E4. set (p := sector_op 7 d7_table (d7_classes rot7 refl7) a).
  pose proof (sector7 a x y z Ha E0 E1 E2 E3 E4) as Hp. fold p in Hp.
  destruct (reduce_full svd p (ent d7_table a 0) (related 7 (d7_classes rot7 refl7)) 6) as (M & M1 & M2).
  - reflexivity.
  - reflexivity.
  - reflexivity.
  - rewrite E0. intros E. injection E. lra.
  - intros i j Hi Hj. rewrite Hp by assumption. rewrite modulus_nsq, real_nsq.
    change (at7 x y z (dist7 i j) * at7 x y z (dist7 i j)) with (Rsqr (at7 x y z (dist7 i j))). rewrite sqrt_Rsqr_abs.
    pose proof (trio_large x y z Ht) as L1. pose proof (trio_large y z x (trio_turn _ _ _ Ht)) as L2.
    pose proof (trio_large z x y (trio_turn _ _ _ (trio_turn _ _ _ Ht))) as L3.
    destruct (dist7 i j) as [|[|[|k]]]; cbn [at7]; try assumption.
    rewrite Rabs_right by lra. assert (noise <= 1); [|lra]. unfold noise. rewrite <- Rinv_1. apply Rinv_le_contravar; [lra|]. apply pow_R1_Rle. lra.
  - exact related7.
  - rewrite M1. apply INR_le.
    pose proof M2 as (M3 & M4 & M5). change (nrow p) with 7%nat in M3. change (ncol p) with 7%nat in M4.
    pose proof (rank_bound 7 M (svd M) (fun j l => inv7 x y z (dist7 j l)) M3 M4 (Hsvd M)) as Hb.
    replace (INR 6) with (INR 7 - 1) by (cbn; ring). apply Hb; [|lia].
    intros j k Hj Hk. replace (INR 7) with 7 by (cbn; ring). rewrite <- (sector7_inverse x y z Ht j k Hj Hk), <- ksum_real.
    apply ksum_ext. intros l Hl. rewrite real_mul. f_equal. rewrite M5, Hp; [reflexivity|assumption|assumption|rewrite M3; assumption|rewrite M4; assumption].
Qed.

(** The seven-fold projectors cannot be computed for a ring of seven states. *)
Theorem d7_raises svd : (forall M, row_basis M (svd M)) -> d7_projectors svd rot7 refl7 = Raise GenericException.
Proof.
  intros Hsvd. unfold d7_projectors, symmetry_projectors. change (nrow refl7) with 7%nat.
  assert (Hv : exists b, validate_table d7_table (map (@length cmat) (d7_classes rot7 refl7)) = Ok b).
  { unfold validate_table. change (ncol d7_table) with 5%nat. change (nrow d7_table) with 5%nat.
    change (map (@length cmat) (d7_classes rot7 refl7)) with [1; 7; 2; 2; 2]%nat. eexists. reflexivity. }
  destruct Hv as (b & ->). cbn [bind]. destruct b; [|reflexivity]. cbn [negb].
  set (f := fun a => reduce_projector svd (sector_op 7 d7_table (d7_classes rot7 refl7) a) (ent d7_table a 0) (related 7 (d7_classes rot7 refl7))).
  change (nrow d7_table) with 5%nat.
  assert (H2 : (6 <= nrow (f 2%nat))%nat).
  { apply (sector7_rank 2 (2 * cos (2 * PI / 7)) (2 * cos (4 * PI / 7)) (2 * cos (6 * PI / 7))); try reflexivity; [lia|apply cosines|assumption]. }
  assert (H3 : (6 <= nrow (f 3%nat))%nat).
  { apply (sector7_rank 3 (2 * cos (4 * PI / 7)) (2 * cos (6 * PI / 7)) (2 * cos (2 * PI / 7))); try reflexivity; [lia|apply trio_turn, cosines|assumption]. }
  clearbody f. cbn [seq map list_sum fold_right].
  destruct (Nat.eqb_spec (nrow (f 0%nat) + (nrow (f 1%nat) + (nrow (f 2%nat) + (nrow (f 3%nat) + (nrow (f 4%nat) + 0))))) 7) as [E|E]; [lia|reflexivity].
Qed.
