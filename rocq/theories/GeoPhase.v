(** Boundary phases. *)
From Coq Require Import List Arith Lia QArith Qround Qabs Qreals Reals ZArith Bool Lra Setoid Psatz.
From Verif Require Import Scalars Res Matrix ModelGeometry ModelPhase SpecGeometry GeoArith GeoReduce GeoSites GeoSites2 GeoDist GeoSquare.
Import ListNotations.
Local Open Scope R_scope.

Lemma rle_b_true x y : rle_b x y = true <-> x <= y.
Proof. unfold rle_b. destruct (Rle_dec x y); split; auto; discriminate. Qed.

Lemma cexp_mul a b : cr_mul (cexp a) (cexp b) = cexp (a + b).
Proof. unfold cr_mul, cexp. cbn [fst snd]. rewrite cos_plus, sin_plus. f_equal; ring. Qed.
Lemma cexp_conj a : cr_conj (cexp a) = cexp (- a).
Proof. unfold cr_conj, cexp. cbn [fst snd]. rewrite cos_neg, sin_neg. reflexivity. Qed.
Lemma cexp_0 : cexp 0 = (1, 0).
Proof. unfold cexp. rewrite cos_0, sin_0. reflexivity. Qed.
Lemma cexp_unit a : fst (cexp a) * fst (cexp a) + snd (cexp a) * snd (cexp a) = 1.
Proof. cbn [cexp fst snd]. pose proof (sin2_cos2 a) as H. unfold Rsqr in H. lra. Qed.

(** The exponent of an entry. *)
Definition angle (L : lattice) (x y : Q) : R :=
  Q2R (lt_phase1 L * (x * fst (lt_r1 L) + y * snd (lt_r1 L)) +
       lt_phase2 L * (x * fst (lt_r2 L) + y * snd (lt_r2 L)))%Q.

Lemma phase_entry_angle L xd yd i j : phase_entry L xd yd i j = cexp (angle L (xd i j) (yd i j)).
Proof. unfold phase_entry, angle. rewrite cexp_mul, Q2R_plus. reflexivity. Qed.
Lemma angle_comp L x y x' y' : (x == x')%Q -> (y == y')%Q -> angle L x y = angle L x' y'.
Proof. intros H H'. apply Qeq_eqR. rewrite H, H'. reflexivity. Qed.
Lemma angle_opp L x y : angle L (- x) (- y) = - angle L x y.
Proof. unfold angle. rewrite <- Q2R_opp. apply Qeq_eqR. ring. Qed.
Lemma angle_plus L x y x' y' : angle L (x + x') (y + y') = angle L x y + angle L x' y'.
Proof. unfold angle. rewrite <- Q2R_plus. apply Qeq_eqR. ring. Qed.

Section P.
  Variables (L : lattice) (n : nat) (xd yd : nat -> nat -> Q).
  Hypothesis A : forall i j, (i < n)%nat -> (j < n)%nat -> (xd i j == - xd j i)%Q /\ (yd i j == - yd j i)%Q.

  Lemma angle_anti i j : (i < n)%nat -> (j < n)%nat -> angle L (xd i j) (yd i j) = - angle L (xd j i) (yd j i).
  Proof. intros Hi Hj. destruct (A i j Hi Hj). rewrite <- angle_opp. apply angle_comp; assumption. Qed.

  Lemma no_imaginary_spec : no_imaginary n (phase_entry L xd yd) = true <->
    forall i j, (i < n)%nat -> (j < n)%nat -> Rabs (sin (angle L (xd i j) (yd i j))) <= tiny.
  Proof.
    unfold no_imaginary. rewrite forallb_forall. split.
    - intros H i j Hi Hj.
      assert (G : forall i j, (i < n)%nat -> (j < n)%nat -> sin (angle L (xd i j) (yd i j)) <= tiny).
      { intros k l Hk Hl. specialize (H k). rewrite in_seq in H. specialize (H ltac:(lia)). rewrite forallb_forall in H.
        specialize (H l). rewrite in_seq in H. specialize (H ltac:(lia)). apply rle_b_true in H.
        rewrite phase_entry_angle in H. exact H. }
      pose proof (G i j Hi Hj) as U. pose proof (G j i Hj Hi) as V. rewrite (angle_anti j i Hj Hi), sin_neg in V.
      apply Rabs_le. lra.
    - intros H i Hi. apply in_seq in Hi. apply forallb_forall. intros j Hj. apply in_seq in Hj.
      apply rle_b_true. rewrite phase_entry_angle. cbn [cexp snd]. 
      specialize (H i j ltac:(lia) ltac:(lia)). pose proof (Rle_abs (sin (angle L (xd i j) (yd i j)))). lra.
  Qed.

  (** Each entry is exp(i angle), or its real part where all imaginary parts
      are negligible. *)
  Lemma phase_matrix_entries : nrow (phase_matrix L n xd yd) = n /\ ncol (phase_matrix L n xd yd) = n /\
    ((forall i j, ent (phase_matrix L n xd yd) i j = cexp (angle L (xd i j) (yd i j))) \/
     forall i j, (i < n)%nat -> (j < n)%nat ->
       ent (phase_matrix L n xd yd) i j = (cos (angle L (xd i j) (yd i j)), 0) /\
       Rabs (sin (angle L (xd i j) (yd i j))) <= tiny).
  Proof.
    split; [reflexivity|]. split; [reflexivity|]. unfold phase_matrix. cbn [ent].
    destruct (no_imaginary n (phase_entry L xd yd)) eqn:E.
    - right. intros i j Hi Hj. split; [rewrite phase_entry_angle; reflexivity|]. apply no_imaginary_spec; assumption.
    - left. intros. apply phase_entry_angle.
  Qed.

  Lemma tiny_pos : 0 < tiny <= 1 / 2.
  Proof. unfold tiny. simpl. split; lra. Qed.

  Lemma phase_matrix_hermitian i j : (i < n)%nat -> (j < n)%nat ->
    ent (phase_matrix L n xd yd) i j = cr_conj (ent (phase_matrix L n xd yd) j i).
  Proof.
    intros Hi Hj. destruct phase_matrix_entries as (_ & _ & [H|H]).
    - rewrite !H, cexp_conj, <- angle_anti by assumption. reflexivity.
    - rewrite (proj1 (H i j Hi Hj)), (proj1 (H j i Hj Hi)), (angle_anti i j Hi Hj), cos_neg. unfold cr_conj. cbn [fst snd].
      f_equal. ring.
  Qed.

  Lemma phase_matrix_modulus i j : (i < n)%nat -> (j < n)%nat ->
    1 - tiny * tiny <= modulus (ent (phase_matrix L n xd yd) i j) * modulus (ent (phase_matrix L n xd yd) i j) <= 1.
  Proof.
    intros Hi Hj. unfold modulus. rewrite sqrt_sqrt by nra. pose proof tiny_pos. destruct phase_matrix_entries as (_ & _ & [H0|H0]).
    - rewrite H0, cexp_unit. split; nra.
    - destruct (H0 i j Hi Hj) as [-> B]. cbn [fst snd].
      pose proof (sin2_cos2 (angle L (xd i j) (yd i j))) as S. unfold Rsqr in S.
      assert (B' : Rabs (sin (angle L (xd i j) (yd i j))) * Rabs (sin (angle L (xd i j) (yd i j))) <= tiny * tiny).
      { apply Rmult_le_compat; try apply Rabs_pos; assumption. }
      rewrite <- Rabs_mult, Rabs_pos_eq in B' by nra. split; nra.
  Qed.

  Lemma phase_matrix_valid : valid_phases n (phase_matrix L n xd yd) = true.
  Proof.
    unfold valid_phases. destruct phase_matrix_entries as (-> & -> & _). rewrite !Nat.eqb_refl. cbn [andb].
    apply forallb_forall. intros i Hi. apply in_seq in Hi. apply forallb_forall. intros j Hj. apply in_seq in Hj.
    pose proof tiny_pos. rewrite andb_true_iff. split.
    - apply rle_b_true. rewrite (phase_matrix_hermitian i j) by lia. unfold modulus, cr_sub. cbn [fst snd].
      rewrite !Rminus_eq_0, Rmult_0_l, Rplus_0_l, sqrt_0. lra.
    - pose proof (phase_matrix_modulus i j ltac:(lia) ltac:(lia)) as B.
      set (m := modulus _) in *. assert (0 <= m) by apply sqrt_pos.
      unfold rounds_to_1. rewrite andb_true_iff, !rle_b_true. split.
      + apply Rnot_lt_le. intros C. assert (m * m < (1 - tiny / 2) * (1 - tiny / 2)) by (apply Rmult_le_0_lt_compat; lra). nra.
      + assert (m <= 1); [|lra]. apply Rnot_lt_le. intros C. nra.
  Qed.

  Lemma phase_matrix_ones i j : (lt_phase1 L == 0)%Q -> (lt_phase2 L == 0)%Q -> (i < n)%nat -> (j < n)%nat ->
    ent (phase_matrix L n xd yd) i j = (1, 0).
  Proof.
    intros H1 H2 Hi Hj.
    assert (Z : forall i j, angle L (xd i j) (yd i j) = 0).
    { intros. unfold angle. rewrite <- RMicromega.Q2R_0. apply Qeq_eqR. rewrite H1, H2. ring. }
    destruct phase_matrix_entries as (_ & _ & [H|H]).
    - rewrite H, Z. apply cexp_0.
    - destruct (H i j Hi Hj) as [-> _]. rewrite Z, cos_0. reflexivity.
  Qed.
End P.

(** * Paths *)
(** Product of the entries met along a path, and the sum of the steps. *)
Fixpoint path_product (M : nat -> nat -> CR) (k : nat) (path : list nat) : CR :=
  match path with [] => (1, 0) | l :: t => cr_mul (M l k) (path_product M l t) end.
Fixpoint path_sum (f : nat -> nat -> Q) (k : nat) (path : list nat) : Q :=
  match path with [] => 0 | l :: t => (f l k + path_sum f l t)%Q end.

Lemma path_angle L xd yd k path :
  path_product (fun i j => cexp (angle L (xd i j) (yd i j))) k path = cexp (angle L (path_sum xd k path) (path_sum yd k path)).
Proof.
  revert k. induction path as [|l t IH]; intros k; cbn [path_product path_sum].
  - rewrite <- cexp_0. f_equal. unfold angle. rewrite <- RMicromega.Q2R_0. apply Qeq_eqR. ring.
  - rewrite IH, cexp_mul, angle_plus. reflexivity.
Qed.

Lemma path_product_ext M M' k path n : (forall i j, (i < n)%nat -> (j < n)%nat -> M i j = M' i j) ->
  (k < n)%nat -> Forall (fun l => (l < n)%nat) path -> path_product M k path = path_product M' k path.
Proof.
  intros H Hk F. revert k Hk. induction F as [|l t Hl F IH]; intros k Hk; cbn [path_product]; [reflexivity|].
  rewrite H, IH by assumption. reflexivity.
Qed.

Section Loop.
  Variables (v1 v2 : vec) (basis : list vec) (p1 p2 : vec) (ph1 ph2 : Q) (L : lattice).
  Hypothesis HL : new_lattice v1 v2 basis p1 p2 ph1 ph2 = Ok L.
  Hypothesis Z1 : is_zero p1 \/ long p1.
  Hypothesis Z2 : is_zero p2 \/ long p2.

  Lemma path_equiv n xs ys xd yd k path : length xs = n -> length ys = n ->
    (forall i j, (i < n)%nat -> (j < n)%nat -> equivalent p1 p2 (diff xs ys i j) (xd i j, yd i j)) ->
    (k < n)%nat -> Forall (fun l => (l < n)%nat) path ->
    equivalent p1 p2 (diff xs ys (last path k) k) (path_sum xd k path, path_sum yd k path).
  Proof.
    intros Lx Ly H Hk F. revert k Hk. induction F as [|l t Hl F IH]; intros k Hk; cbn [path_sum].
    - cbn [last]. apply equiv_same. unfold diff. split; cbn [fst snd]; ring.
    - destruct (H l k Hl Hk) as (a & b & A1 & A2). destruct (IH l Hl) as (c & d & B1 & B2).
      assert (last (l :: t) k = last t l) as ->.
      { clear. revert l k. induction t as [|m t IH]; intros; [reflexivity|]. change (last (m :: t) k = last (m :: t) l). rewrite !IH. reflexivity. }
      exists (a + c)%Z, (b + d)%Z. unfold moved, diff in *. cbn [fst snd] in *.
      split; cbn [fst snd]; rewrite ?A1, ?A2, ?B1, ?B2, !inject_Z_plus; ring.
  Qed.

  Lemma angle_winding w1 w2 : (is_zero p1 -> w1 = 0%Z) -> (is_zero p2 -> w2 = 0%Z) ->
    angle L (fst (moved (0, 0)%Q (inject_Z w1) p1 (inject_Z w2) p2)) (snd (moved (0, 0)%Q (inject_Z w1) p1 (inject_Z w2) p2))
    = Q2R (inject_Z w1 * ph1 + inject_Z w2 * ph2).
  Proof.
    intros E1 E2. destruct (new_lattice_inv _ _ _ _ _ _ _ _ HL) as (_ & _ & _ & Dp & rs & Hrs & ->).
    unfold angle. cbn [lt_phase1 lt_phase2 lt_r1 lt_r2]. apply Qeq_eqR. unfold moved. cbn [fst snd].
    assert (nz : forall v, long v -> ~ is_zero v) by (intros v Lv Zv; apply (zero_not_long _ Zv Lv)).
    destruct Z1 as [z1|l1], Z2 as [z2|l2].
    - rewrite (E1 z1), (E2 z2). destruct (reciprocal_degenerate p1 p2) as (_ & _ & _ & R).
      { unfold det. destruct z1 as [a b]. cbn in a, b. rewrite a, b. ring. }
      rewrite R in Hrs by assumption. injection Hrs as <-. cbn [fst snd]. change (inject_Z 0) with 0%Q. ring.
    - rewrite (E1 z1). destruct (reciprocal_degenerate p1 p2) as (_ & R & _ & _).
      { unfold det. destruct z1 as [a b]. cbn in a, b. rewrite a, b. ring. }
      destruct (R z1 (nz _ l2)) as (b2 & R' & D & _). rewrite R' in Hrs. injection Hrs as <-. cbn [fst snd].
      unfold dot in D. change (inject_Z 0) with 0%Q. 
      transitivity (inject_Z w2 * ph2 * (fst p2 * fst b2 + snd p2 * snd b2))%Q; [ring|rewrite D; ring].
    - rewrite (E2 z2). destruct (reciprocal_degenerate p1 p2) as (_ & _ & R & _).
      { unfold det. destruct z2 as [a b]. cbn in a, b. rewrite a, b. ring. }
      destruct (R (nz _ l1) z2) as (b1 & R' & D & _). rewrite R' in Hrs. injection Hrs as <-. cbn [fst snd].
      unfold dot in D. change (inject_Z 0) with 0%Q. 
      transitivity (inject_Z w1 * ph1 * (fst p1 * fst b1 + snd p1 * snd b1))%Q; [ring|rewrite D; ring].
    - destruct (reciprocal_ok p1 p2 (Dp l1 l2)) as (b1 & b2 & R & D11 & D12 & D21 & D22). rewrite R in Hrs. injection Hrs as <-.
      cbn [fst snd]. unfold dot in *.
      transitivity (ph1 * (inject_Z w1 * (fst p1 * fst b1 + snd p1 * snd b1) + inject_Z w2 * (fst p2 * fst b1 + snd p2 * snd b1)) +
                    ph2 * (inject_Z w1 * (fst p1 * fst b2 + snd p1 * snd b2) + inject_Z w2 * (fst p2 * fst b2 + snd p2 * snd b2)))%Q; [ring|].
      rewrite D11, D12, D21, D22. ring.
  Qed.

  (** Around a closed loop the phases multiply up to exp(i(w1 phase1 + w2 phase2)),
      [w1], [w2] being the numbers of times the loop winds around. *)
  Lemma loop_phase n xs ys xd yd k path : length xs = n -> length ys = n ->
    (forall i j, (i < n)%nat -> (j < n)%nat -> equivalent p1 p2 (diff xs ys i j) (xd i j, yd i j)) ->
    (k < n)%nat -> Forall (fun l => (l < n)%nat) path -> last path k = k ->
    exists w1 w2, (is_zero p1 -> w1 = 0%Z) /\ (is_zero p2 -> w2 = 0%Z) /\
      same_point (path_sum xd k path, path_sum yd k path) (moved (0, 0)%Q (inject_Z w1) p1 (inject_Z w2) p2) /\
      path_product (fun i j => cexp (angle L (xd i j) (yd i j))) k path = cexp (Q2R (inject_Z w1 * ph1 + inject_Z w2 * ph2)).
  Proof.
    intros Lx Ly H Hk F C. destruct (path_equiv n xs ys xd yd k path Lx Ly H Hk F) as (a & b & E). rewrite C in E.
    exists (if vec_eqb p1 vzero then 0 else a)%Z, (if vec_eqb p2 vzero then 0 else b)%Z.
    assert (vz : forall v, is_zero v <-> vec_eqb v vzero = true).
    { intros v. unfold vec_eqb. rewrite andb_true_iff, !Qeq_bool_iff. reflexivity. }
    assert (Y1 : is_zero p1 -> (if vec_eqb p1 vzero then 0 else a)%Z = 0%Z) by (intros z; apply vz in z; rewrite z; reflexivity).
    assert (Y2 : is_zero p2 -> (if vec_eqb p2 vzero then 0 else b)%Z = 0%Z) by (intros z; apply vz in z; rewrite z; reflexivity).
    assert (S : same_point (path_sum xd k path, path_sum yd k path) (moved (0, 0)%Q (inject_Z (if vec_eqb p1 vzero then 0 else a)) p1 (inject_Z (if vec_eqb p2 vzero then 0 else b)) p2)).
    { destruct E as [E1 E2]. unfold moved, diff in *. cbn [fst snd] in *.
      split; cbn [fst snd]; rewrite ?E1, ?E2;
      (destruct (vec_eqb p1 vzero) eqn:V1; [apply vz in V1 as [a1 a2]; cbn [fst snd] in a1, a2; rewrite ?a1, ?a2|]);
      (destruct (vec_eqb p2 vzero) eqn:V2; [apply vz in V2 as [b1 b2]; cbn [fst snd] in b1, b2; rewrite ?b1, ?b2|]); ring. }
    split; [assumption|]. split; [assumption|]. split; [assumption|].
    rewrite path_angle, <- angle_winding by assumption. f_equal. apply angle_comp; apply S.
  Qed.
End Loop.
