(** Witnesses against claims about diagonalisation, thermal weights, norms and
    response functions. *)
From Coq Require Import List Arith Lia Reals Lra Bool.
From Verif Require Import Scalars Res Matrix SpecMat ModelGeometry ModelPhase ModelSymmetry SymBase ModelBase
  ModelThermal SpecThermal ThermalBase ThermalSectors ThermalBasis ThermalDiag ThermalResponse ThermalCond.
Import ListNotations.
Local Open Scope R_scope.

(** ** Thermal weights without offset *)
Lemma round_small x : Rabs x <= 0 -> rounds_to_0 x = true.
Proof. intros H. apply rounds_to_0_true. pose proof gap13_pos. lra. Qed.
Lemma gap13_small : gap13 < 1.
Proof. unfold gap13. pose proof (pow_R1_Rle 10 13 ltac:(lra)) as P. pose proof (Rinv_le_contravar 1 (10 ^ 13) ltac:(lra) P). lra. Qed.
Lemma round_large x : 1 <= Rabs x -> rounds_to_0 x = false.
Proof. intros H. destruct (rounds_to_0 x) eqn:X; [|reflexivity]. apply rounds_to_0_true in X. pose proof gap13_small. lra. Qed.

Lemma weights_wrong : exists E e w z k, sorted_list E /\ apart gap13 E /\ smallest e E /\
  thermal_weights false E 0 = Ok (w, z) /\ (k < length E)%nat /\ nth k E 0 <> e /\ nth k w 0 <> 0.
Proof.
  exists [-1; 0; 0], (-1), [1; 1; 0], 2, 1%nat.
  assert (A1 : Rabs (-1) = 1) by (rewrite Rabs_left by lra; ring).
  split. { intros i j Hij. cbn in Hij. destruct i as [|[|[|i]]], j as [|[|[|j]]]; cbn; try lia; lra. }
  split. { intros x y Hx Hy. cbn in Hx, Hy. pose proof gap13_small.
    destruct Hx as [<-|[<-|[<-|[]]]], Hy as [<-|[<-|[<-|[]]]]; auto; right.
    - replace (-1 - 0) with (-1) by ring. lra.
    - replace (-1 - 0) with (-1) by ring. lra.
    - replace (0 - -1) with 1 by ring. rewrite Rabs_R1. lra.
    - replace (0 - -1) with 1 by ring. rewrite Rabs_R1. lra. }
  split. { split; [left; reflexivity|]. intros x Hx. cbn in Hx. destruct Hx as [<-|[<-|[<-|[]]]]; lra. }
  split.
  { unfold thermal_weights. cbn [bind]. rewrite is_zero_0. cbn [filter].
    rewrite (round_large (-1)) by (rewrite A1; lra). rewrite (round_small 0) by (rewrite Rabs_R0; lra).
    cbn [length repeat app Nat.sub]. f_equal. }
  cbn. split; [lia|]. split; lra.
Qed.
(** A single level which is not at zero energy has no weight at all. *)
Lemma weights_none : thermal_weights false [1] 0 = Ok ([0], 0).
Proof.
  unfold thermal_weights. cbn [bind]. rewrite is_zero_0. cbn [filter].
  rewrite (round_large 1) by (rewrite Rabs_R1; lra). reflexivity.
Qed.

(** ** Norms *)
Lemma norms_wrong : exists M l, norms (Columns M) = Ok l /\ nth 0 l 0 <> sqrt (norm2 (nrow M) (col M 0)).
Proof.
  exists (Mat 1 1 (fun _ _ => real 2)). eexists. split; [apply norms_columns|]. cbn [nrow ncol seq map nth].
  rewrite norm2_nsq. cbn [rsum]. unfold col. cbn [ent]. rewrite real_nsq.
  replace (0 + 2 * 2) with (Rsqr 2) by (unfold Rsqr; ring). rewrite sqrt_Rsqr by lra. unfold Rsqr. lra.
Qed.

(** ** Sparse diagonalisation *)
Definition two_levels : cmat := mdiag 2 (fun i => real (INR i)).
Lemma two_apply c psi i : (i < 2)%nat -> apply 2 (plus_const c two_levels) psi i = real (INR i + c) *c psi i.
Proof.
  intros Hi. unfold apply. cbn [ksum].
  destruct i as [|[|i]]; [| |lia]; cbn [plus_const two_levels madd mscale meye mdiag ent nrow Nat.eqb kb];
  change ((c, 0) : CR) with (real c); rewrite real_add; change (INR 0) with 0; change (INR 1) with 1; rewrite ?real_0; ring.
Qed.
Lemma sparse_wrong : exists H k, nrow H = 2%nat /\ ncol H = 2%nat /\ hermitian 2 H /\
  (exists r : list R * cmat, length (fst r) = k /\ nrow (snd r) = 2%nat /\ eigen (plus_const 100 H) (snd r) (fst r) /\
     orthonormal (snd r) /\ largest_magnitude 2 (plus_const 100 H) (fst r)) /\
  forall eigh eigsh,
    let r := eigsh (plus_const 100 H) k in
    length (fst r) = k -> nrow (snd r) = 2%nat -> eigen (plus_const 100 H) (snd r) (fst r) -> orthonormal (snd r) ->
    largest_magnitude 2 (plus_const 100 H) (fst r) ->
    exists e, eigenvalue 2 H e /\ forall x, In x (fst (diagH eigh eigsh H k true)) -> e < x.
Proof.
  exists two_levels, 1%nat. split; [reflexivity|]. split; [reflexivity|].
  split. { intros i j Hi Hj. cbn [two_levels mdiag ent]. rewrite (Nat.eqb_sym j i). destruct (Nat.eqb_spec i j) as [->|]; [rewrite real_conj; reflexivity | rewrite kconj_0; reflexivity]. }
  assert (ev : forall e psi, (exists i, (i < 2)%nat /\ psi i <> c0) ->
     (forall i, (i < 2)%nat -> apply 2 (plus_const 100 two_levels) psi i = @kmul CR _ (e, 0) (psi i)) -> e = 100 \/ e = 101).
  { intros e psi (i & Hi & Ne) X. specialize (X i Hi). rewrite two_apply in X by exact Hi. change ((e, 0) : CR) with (real e) in X.
    assert (real (INR i + 100) = real e).
    { apply (mul_cancel (psi i)); [exact Ne|]. transitivity (real (INR i + 100) *c psi i); [ring|]. rewrite X. ring. }
    apply real_inj in H. destruct i as [|[|i]]; cbn in H; [left | right | lia]; lra. }
  split.
  { exists ([101], Mat 2 1 (fun i _ => kb (i =? 1)%nat)). cbn [fst snd]. split; [reflexivity|]. split; [reflexivity|].
    split. { split; [reflexivity|]. split; [reflexivity|]. split; [reflexivity|]. intros i k Hi Hk. cbn [nrow ncol] in *.
      assert (k = 0)%nat by lia. subst k. rewrite two_apply by exact Hi. cbn [nth]. change ((101, 0) : CR) with (real 101).
      unfold col. cbn [ent]. destruct i as [|[|i]]; [| |lia]; cbn [Nat.eqb kb].
      - ring.
      - replace (INR 1 + 100) with 101 by (cbn; lra). reflexivity. }
    split. { intros k l Hk Hl. cbn [ncol nrow] in *. assert (k = 0 /\ l = 0)%nat as [-> ->] by lia.
      unfold inner, col. cbn [ksum ent Nat.eqb kb]. rewrite kconj_0, kconj_1. ring. }
    intros e psi N X. destruct (ev e psi N X) as [->| ->]; [right | left; left; reflexivity].
    intros x [<-|[]]. rewrite !Rabs_right by lra. lra. }
  intros eigh eigsh. cbv zeta. intros L NR EG ON LM.
  exists 0. split.
  { exists (fun i => kb (i =? 0)%nat). split; [exists O; split; [lia | exact c1_neq_0]|].
    intros i Hi. unfold apply. cbn [ksum two_levels mdiag ent]. change ((0, 0) : CR) with c0.
    destruct i as [|[|i]]; [| |lia]; cbn [Nat.eqb kb]; change (INR 0) with 0; rewrite ?real_0; ring. }
  assert (E1 : fst (eigsh (plus_const 100 two_levels) 1%nat) = [101]).
  { destruct (eigsh (plus_const 100 two_levels) 1%nat) as [E V] eqn:R. cbn [fst snd] in *.
    destruct E as [|e [|e' E]]; try discriminate L. f_equal.
    destruct EG as (C1 & _ & _ & X). cbn [length] in C1. rewrite NR in X.
    assert (e = 100 \/ e = 101).
    { apply (ev e (col V 0)).
      - specialize (ON 0%nat 0%nat ltac:(lia) ltac:(lia)). rewrite NR in ON. unfold inner in ON. cbn [ksum Nat.eqb kb] in ON.
        destruct (cr_eq_dec (col V 0 0%nat) (0, 0)) as [Z|Z]; [|exists O; split; [lia | exact Z]].
        destruct (cr_eq_dec (col V 0 1%nat) (0, 0)) as [Z'|Z']; [|exists 1%nat; split; [lia | exact Z']].
        exfalso. rewrite Z, Z' in ON. change ((0, 0) : CR) with c0 in ON. rewrite kconj_0 in ON. apply c1_neq_0. rewrite <- ON. ring.
      - intros i Hi. rewrite (X i 0%nat Hi ltac:(lia)). reflexivity. }
    destruct H as [->| ->]; [|reflexivity]. exfalso.
    destruct (LM 101 (fun i => kb (i =? 1)%nat)) as [[H|[]]|H].
    - exists 1%nat. split; [lia | exact c1_neq_0].
    - intros i Hi. rewrite two_apply by exact Hi. change ((101, 0) : CR) with (real 101).
      destruct i as [|[|i]]; [| |lia]; cbn [Nat.eqb kb]; [ring|]. replace (INR 1 + 100) with 101 by (cbn; lra). reflexivity.
    - lra.
    - specialize (H 100 (or_introl eq_refl)). rewrite !Rabs_right in H by lra. lra. }
  assert (SQ : nrow two_levels = ncol two_levels) by reflexivity.
  destruct (diagH_sparse eigh eigsh two_levels 1%nat SQ EG ON) as (_ & _ & _ & P).
  intros x Hx. apply (Permutation.Permutation_in _ P) in Hx. unfold shifted in Hx. rewrite E1 in Hx. cbn in Hx. destruct Hx as [<-|[]]. lra.
Qed.

(** ** Response functions *)
Definition flip : cmat := Mat 2 2 (fun i j => if (i =? j)%nat then c0 else c1).
Definition E01 : list R := [0; 1].
Lemma flip_herm : hermitian 2 flip.
Proof. intros i j _ _. cbn [flip ent]. rewrite (Nat.eqb_sym j i). destruct (i =? j)%nat; [rewrite kconj_0 | rewrite kconj_1]; reflexivity. Qed.

Lemma fst_00 : fst (c0 *c c0) = 0. Proof. cbn; ring. Qed.
Lemma fst_11 : fst (c1 *c c1) = 1. Proof. cbn; ring. Qed.
Lemma unique_01 : unique_ground E01.
Proof. split; [discriminate|]. intros k Hk. cbn in Hk. assert (k = 1)%nat by lia. subst k. cbn. lra. Qed.

Lemma sum2_2 f : sum_nm 2 f = f 0%nat 0%nat + f 0%nat 1%nat + f 1%nat 0%nat + f 1%nat 1%nat.
Proof. unfold sum_nm. cbn [seq]. rewrite !total_cons, !total_nil. ring. Qed.

(** The boson response of a Hermitian operator to itself vanishes at zero
    frequency; the code's does not. *)
Lemma retarded_wrong : exists A E T w eta r, hermitian 2 A /\ square_size A (length E) /\ unique_ground E /\ sorted_list E /\ 0 < T /\ 0 < eta /\
  response_retarded A A E T BosonFmt w eta = Ok r /\ lehmann (-1) A A E T w eta = 0 /\ r < 0.
Proof.
  exists flip, E01, 1, 0, 1.
  assert (V : exists r, response_retarded flip flip E01 1 BosonFmt 0 1 = Ok r /\
     r = PI / sum1 2 (fun n => exp (- (1 / 1) * (nth n E01 0 - 0))) * (lorentz 1 1 * (exp (-1) * (1 - exp (-1)) + (1 - exp 1)))).
  { unfold response_retarded. cbn [bind]. rewrite !square_of_ok by (split; reflexivity). cbn [andb negb]. unfold E01 at 1.
    rewrite (is_zero_false 1) by lra. cbv zeta. eexists. split; [reflexivity|]. f_equal.
    rewrite sum2_total. change (length E01) with 2%nat. rewrite sum2_2. rewrite !lor_lorentz. unfold E01. cbn [nth flip ent Nat.eqb].
    rewrite fst_00, fst_11.
    replace (0 + (0 - 0 - (1 - 0))) with (- (1)) by ring. rewrite lorentz_even.
    replace (0 + (1 - 0 - (0 - 0))) with 1 by ring.
    replace (1 / 1 * (0 - 0 - (1 - 0))) with (-1) by field. replace (1 / 1 * (1 - 0 - (0 - 0))) with 1 by field.
    replace (- (1 / 1) * (0 - 0)) with 0 by field. replace (- (1 / 1) * (1 - 0)) with (-1) by field. rewrite exp_0. ring. }
  destruct V as (r & Hr & Er). exists r. split; [apply flip_herm|]. split; [split; reflexivity|]. split; [apply unique_01|].
  split. { intros i j Hij. cbn in Hij. destruct i as [|[|i]], j as [|[|j]]; cbn; try lia; lra. }
  split; [lra|]. split; [lra|]. split; [exact Hr|]. split.
  - unfold lehmann. change (length E01) with 2%nat. rewrite sum2_2. cbn [flip ent Nat.eqb]. rewrite fst_00, fst_11.
    replace (lorentz 1 (0 + nth 0 E01 0 - nth 1 E01 0)) with (lorentz 1 (0 + nth 1 E01 0 - nth 0 E01 0)).
    + ring.
    + rewrite <- lorentz_even. f_equal. ring.
  - rewrite Er. pose proof (exp_pos (-1)) as P1.
    assert (P2 : exp (-1) < 1) by (rewrite <- exp_0; apply exp_increasing; lra).
    assert (P3 : 2 < exp 1) by (pose proof (exp_ineq1 1 ltac:(lra)); lra).
    pose proof (lorentz_pos 1 1 ltac:(lra)) as P4. pose proof pi_pos.
    assert (Z : 0 < sum1 2 (fun n => exp (- (1 / 1) * (nth n E01 0 - 0)))) by (rewrite sum1_total; apply (z_pos 0 [1])).
    set (z := sum1 2 _) in *. assert (0 < PI / z) by (apply Rdiv_lt_0_compat; assumption).
    assert (exp (-1) * (1 - exp (-1)) + (1 - exp 1) < 0) by nra.
    assert (lorentz 1 1 * (exp (-1) * (1 - exp (-1)) + (1 - exp 1)) < 0) by nra. nra.
Qed.

(** The zero temperature time ordered response at a negative frequency is not the
    limit of the finite temperature one. *)
Lemma time_ordered_wrong : exists A E w eta z f, hermitian 2 A /\ square_size A (length E) /\ unique_ground E /\ sorted_list E /\ 0 < eta /\
  response_time_ordered A A E 0 w eta = Ok z /\
  (forall T, 0 < T -> exists zT, response_time_ordered A A E T w eta = Ok zT /\ fst zT = f T) /\
  ~ tends_at_0 f (fst z).
Proof.
  set (f := fun T => PI * sum_nm 2 (fun n m => fst (ent flip n m *c ent flip m n) * (prob T E01 m - prob T E01 n) * lorentz 1 (-1 - (nth n E01 0 - nth m E01 0)))).
  exists flip, E01, (-1), 1. eexists. exists f. split; [apply flip_herm|]. split; [split; reflexivity|]. split; [apply unique_01|].
  split. { intros i j Hij. cbn in Hij. destruct i as [|[|i]], j as [|[|j]]; cbn; try lia; lra. }
  split; [lra|]. split.
  { unfold response_time_ordered. rewrite !square_of_ok by (split; reflexivity). cbn [andb negb]. unfold E01 at 1. rewrite is_zero_0. reflexivity. }
  split. { intros T HT. destruct (time_ordered_finite flip flip E01 (-1) 1 fst) with (T := T) as (zT & H1 & H2); try (split; reflexivity); auto; try lra; [discriminate|].
    exists zT. split; [exact H1 | exact H2]. }
  assert (D : lorentz 1 2 < lorentz 1 0).
  { unfold lorentz, Rdiv. apply Rmult_lt_compat_l; [apply Rdiv_lt_0_compat; [lra | apply pi_pos]|]. apply Rinv_lt_contravar; lra. }
  assert (LF : tends_at_0 f (PI * (lorentz 1 2 - lorentz 1 0))).
  { unfold f. apply (tends_ext (fun T => PI * ((prob T E01 0 - prob T E01 1) * (lorentz 1 2 - lorentz 1 0)))).
    { intros T HT. f_equal. rewrite sum2_2. cbn [flip ent Nat.eqb]. rewrite fst_00, fst_11. change (nth 0 E01 0) with 0. change (nth 1 E01 0) with 1.
      replace (-1 - (0 - 1)) with 0 by ring. replace (-1 - (1 - 0)) with (- (2)) by ring. rewrite lorentz_even. ring. }
    apply tends_mul; [apply tends_const|].
    assert (Q : (delta0 0 - delta0 1) * (lorentz 1 2 - lorentz 1 0) = lorentz 1 2 - lorentz 1 0) by (cbn; ring).
    match goal with |- tends_at_0 ?g ?l => cut (tends_at_0 g ((delta0 0 - delta0 1) * l)); [intros Y; rewrite Q in Y; exact Y|] end.
    apply tends_mul; [|apply tends_const]. apply tends_minus; apply prob_limit; try apply unique_01; cbn; lia. }
  intros X. pose proof (tends_unique f _ _ LF X) as Y. clear X LF.
  change (length E01) with 2%nat in Y.
  rewrite (proj_real fst), (proj_sub fst), !(csum_n 2 _ fst) in Y by (left; reflexivity). cbn [seq] in Y. rewrite !total_cons, !total_nil in Y.
  unfold clor in Y. rewrite !(proj_real fst) in Y by (left; reflexivity). cbn [flip ent Nat.eqb] in Y. rewrite !fst_00, !fst_11, !lor_lorentz in Y.
  unfold E01 in Y. cbn [nth] in Y. rewrite (Rabs_left (-1)) in Y by lra.
  replace (1 - 0 - - -1) with 0 in Y by ring. replace (- (1 - 0) - - -1) with (- (2)) in Y by ring. rewrite lorentz_even in Y.
  pose proof pi_pos. replace (PI / 1) with PI in Y by field. nra.
Qed.

(** ** Conductivity of a degenerate ground state *)
Definition J3 : cmat := Mat 3 3 (fun i j => if ((i =? 0) && (j =? 2) || (i =? 2) && (j =? 0))%nat then c1 else c0).
Definition E001 : list R := [0; 0; 1].
Lemma sum2_3 f : sum_nm 3 f = f 0%nat 0%nat + f 0%nat 1%nat + f 0%nat 2%nat + f 1%nat 0%nat + f 1%nat 1%nat + f 1%nat 2%nat + f 2%nat 0%nat + f 2%nat 1%nat + f 2%nat 2%nat.
Proof. unfold sum_nm. cbn [seq]. rewrite !total_cons, !total_nil. ring. Qed.
Lemma abs2_0 : abs2 c0 = 0. Proof. unfold abs2. change (fst c0) with 0. change (snd c0) with 0. ring. Qed.
Lemma abs2_1 : abs2 c1 = 1. Proof. unfold abs2. change (fst c1) with 1. change (snd c1) with 0. ring. Qed.

Lemma kubo_3 T : kubo_weight 1 J3 E001 T = 2 * PI * (prob T E001 0 - prob T E001 2).
Proof.
  unfold kubo_weight. change (length E001) with 3%nat. rewrite sum2_3. cbn [J3 ent Nat.eqb andb orb].
  rewrite abs2_0, abs2_1. change (nth 0 E001 0) with 0. change (nth 1 E001 0) with 0. change (nth 2 E001 0) with 1.
  destruct (Req_EM_T 0 0); [|congruence]. destruct (Req_EM_T 1 1); [|congruence].
  destruct (Req_EM_T 0 1); [lra|]. destruct (Req_EM_T 1 0); [lra|]. 
  change (prob T E001 1) with (prob T E001 0). cbn [INR]. field.
Qed.
Lemma degenerate_wrong : exists J E r, hermitian 3 J /\ square_size J (length E) /\ sorted_list E /\ apart gap13 E /\
  integrate_conductivity 1 J E 0 = Ok r /\
  (forall T, T <> 0 -> integrate_conductivity 1 J E T = Ok (kubo_weight 1 J E T)) /\
  ~ tends_at_0 (fun T => kubo_weight 1 J E T) r.
Proof.
  exists J3, E001. eexists. split.
  { intros i j Hi Hj. cbn [J3 ent]. destruct i as [|[|[|i]]], j as [|[|[|j]]]; cbn [Nat.eqb andb orb]; try lia; rewrite ?kconj_0, ?kconj_1; reflexivity. }
  split; [split; reflexivity|].
  split. { intros i j Hij. cbn in Hij. destruct i as [|[|[|i]]], j as [|[|[|j]]]; cbn; try lia; lra. }
  split. { intros x y Hx Hy. cbn in Hx, Hy. pose proof gap13_small.
    destruct Hx as [<-|[<-|[<-|[]]]], Hy as [<-|[<-|[<-|[]]]]; auto; right.
    - replace (0 - 1) with (-1) by ring. rewrite Rabs_left by lra. lra.
    - replace (0 - 1) with (-1) by ring. rewrite Rabs_left by lra. lra.
    - replace (1 - 0) with 1 by ring. rewrite Rabs_R1. lra.
    - replace (1 - 0) with 1 by ring. rewrite Rabs_R1. lra. }
  split. { unfold integrate_conductivity. rewrite square_of_ok by (split; reflexivity). cbn [negb]. unfold E001 at 1. rewrite is_zero_0. reflexivity. }
  split. { intros T HT. apply integrate_finite; [split; reflexivity | discriminate | lia | exact HT]. }
  match goal with |- ~ tends_at_0 _ ?r => assert (V : r = 2 * PI) end.
  { rewrite sum1_total. change (length E001) with 3%nat. cbn [seq]. rewrite !total_cons, total_nil, !modulus_abs2. cbn [J3 ent Nat.eqb andb orb].
    rewrite abs2_0, abs2_1. unfold E001. cbn [nth INR]. rewrite (is_zero_false (1 - 0)) by lra. field. }
  rewrite V. intros X. pose proof pi_pos. destruct (X (PI / 2)) as (d & Hd & Y); [lra|].
  specialize (Y (d / 2) ltac:(lra)). rewrite kubo_3 in Y. set (T := d / 2) in *.
  assert (P01 : prob T E001 0 = prob T E001 1) by reflexivity.
  assert (S : prob T E001 0 + prob T E001 1 + prob T E001 2 = 1).
  { unfold prob. set (z := total _ _). assert (Z : z = exp (- nth 0 E001 0 / T) + exp (- nth 1 E001 0 / T) + exp (- nth 2 E001 0 / T)) by (unfold z, E001; rewrite !total_cons, total_nil; cbn [nth]; ring).
    assert (0 < z) by (rewrite Z; pose proof (exp_pos (- nth 0 E001 0 / T)); pose proof (exp_pos (- nth 1 E001 0 / T)); pose proof (exp_pos (- nth 2 E001 0 / T)); lra).
    unfold Rdiv at 1 3 5. rewrite <- !Rmult_plus_distr_r, <- Z. apply Rinv_r. lra. }
  pose proof (prob_ge T E001 2). apply Rabs_def2 in Y. destruct Y as (_ & Y). nra.
Qed.

(** ** Shape of the evolved states *)
Lemma shape_wrong : exists nbasis ntimes, (0 < nbasis)%nat /\ (1 < ntimes)%nat /\ quench_shape nbasis ntimes 1 <> [nbasis; ntimes].
Proof. exists 1%nat, 5%nat. split; [lia|]. split; [lia|]. cbn. congruence. Qed.
Lemma shape_right nbasis ntimes : (1 < nbasis)%nat -> quench_shape nbasis ntimes 1 = [nbasis; ntimes].
Proof.
  intros H. unfold quench_shape. cbn [filter Nat.eqb negb]. replace (nbasis =? 1)%nat with false by (symmetry; apply Nat.eqb_neq; lia). cbn [negb].
  destruct (Nat.eqb_spec ntimes 1) as [->|]; reflexivity.
Qed.
