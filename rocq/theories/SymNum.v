(** Integers extended by the golden ratio, enough for the character tables of
    D2 to D6 and of the 3x3 torus. *)
From Coq Require Import List Arith Lia ZArith Reals Lra Bool Ring Setoid Permutation.
From Verif Require Import Scalars Sums Res Matrix SpecMat ModelPhase ModelSymmetry SpecSymmetry
  SymBase SymReduce SymMany SymGroup SymRep SymTable SymZn SymWord.
Import ListNotations.
Local Open Scope R_scope.

Add Ring CRring : (@k_ring CR CR_StarRing).

Definition gold : Type := (Z * Z)%type.
Definition phi : R := (1 + sqrt 5) / 2.
Definition emb (x : gold) : R := IZR (fst x) + IZR (snd x) * phi.
Definition gadd (x y : gold) : gold := (fst x + fst y, snd x + snd y)%Z.
Definition gmul (x y : gold) : gold :=
  (fst x * fst y + snd x * snd y, fst x * snd y + snd x * fst y + snd x * snd y)%Z.
Definition gint (n : Z) : gold := (n, 0%Z).
Definition geqb (x y : gold) : bool := (fst x =? fst y)%Z && (snd x =? snd y)%Z.
Definition gsize (x : gold) : Z := (Z.abs (fst x) + Z.abs (snd x))%Z.
Fixpoint gsum (n : nat) (f : nat -> gold) : gold := match n with O => gint 0 | S k => gadd (gsum k f) (f k) end.

Lemma phi_sq : phi * phi = phi + 1.
Proof. unfold phi. pose proof (sqrt_sqrt 5 ltac:(lra)). nra. Qed.
Lemma emb_add x y : emb (gadd x y) = emb x + emb y.
Proof. unfold emb, gadd; cbn [fst snd]. rewrite !plus_IZR. ring. Qed.
Lemma emb_mul x y : emb (gmul x y) = emb x * emb y.
Proof.
  unfold emb, gmul; cbn [fst snd]. rewrite !plus_IZR, !mult_IZR.
  transitivity (IZR (fst x) * IZR (fst y) + (IZR (fst x) * IZR (snd y) + IZR (snd x) * IZR (fst y)) * phi + IZR (snd x) * IZR (snd y) * (phi + 1)); [ring|].
  rewrite <- phi_sq. ring.
Qed.
Lemma emb_int n : emb (gint n) = IZR n.
Proof. unfold emb, gint; cbn [fst snd]. ring. Qed.
Lemma geqb_eq x y : geqb x y = true -> x = y.
Proof. destruct x, y. unfold geqb; cbn [fst snd]. intros H. apply andb_true_iff in H as (H1 & H2). apply Z.eqb_eq in H1, H2. congruence. Qed.
Lemma emb_sum n f : rsum n (fun i => emb (f i)) = emb (gsum n f).
Proof. induction n as [|n IH]; cbn [rsum gsum]; [rewrite emb_int; reflexivity|]. rewrite IH, emb_add. reflexivity. Qed.

Lemma no_five : forall n x y, (Z.abs y < Z.of_nat n)%Z -> (x * x = 5 * (y * y))%Z -> y = 0%Z.
Proof.
  induction n as [|n IH]; intros x y Hn E; [lia|].
  destruct (Z.eq_dec y 0) as [|Hy]; [assumption|]. exfalso.
  assert (Hx : (x mod 5 = 0)%Z).
  { assert (Hm : ((x mod 5) * (x mod 5) mod 5 = 0)%Z).
    { rewrite <- Zmult_mod, E, Z.mul_comm. apply Z_mod_mult. }
    pose proof (Z.mod_pos_bound x 5 ltac:(lia)) as Hb.
    assert (C : (x mod 5 = 0 \/ x mod 5 = 1 \/ x mod 5 = 2 \/ x mod 5 = 3 \/ x mod 5 = 4)%Z) by lia.
    destruct C as [C|[C|[C|[C|C]]]]; rewrite C in Hm; try discriminate; exact C. }
  apply Z.mod_divide in Hx; [|lia]. destruct Hx as (x' & ->).
  assert (E' : (y * y = 5 * (x' * x'))%Z) by nia.
  assert (Hy' : (y mod 5 = 0)%Z).
  { assert (Hm : ((y mod 5) * (y mod 5) mod 5 = 0)%Z).
    { rewrite <- Zmult_mod, E', Z.mul_comm. apply Z_mod_mult. }
    pose proof (Z.mod_pos_bound y 5 ltac:(lia)) as Hb.
    assert (C : (y mod 5 = 0 \/ y mod 5 = 1 \/ y mod 5 = 2 \/ y mod 5 = 3 \/ y mod 5 = 4)%Z) by lia.
    destruct C as [C|[C|[C|[C|C]]]]; rewrite C in Hm; try discriminate; exact C. }
  apply Z.mod_divide in Hy'; [|lia]. destruct Hy' as (y' & ->).
  assert (y' = 0)%Z; [|lia]. apply (IH x'); [lia|nia].
Qed.

Lemma gold_norm x : x <> gint 0 -> (fst x * fst x + fst x * snd x - snd x * snd x <> 0)%Z.
Proof.
  destruct x as [a b]; cbn [fst snd]. intros H E. apply H. unfold gint.
  assert (b = 0)%Z.
  { apply (no_five (S (Z.abs_nat b)) (2 * a + b) b); [lia|nia]. }
  subst b. assert (a = 0)%Z by nia. subst. reflexivity.
Qed.

Lemma emb_large x : (gsize x <= 1000)%Z -> emb x <> 0 -> / 1000 <= Rabs (emb x).
Proof.
  intros Hs Hne.
  assert (Hx : x <> gint 0) by (intros ->; apply Hne; rewrite emb_int; reflexivity).
  pose proof (gold_norm x Hx) as Hn. destruct x as [a b]. unfold gsize in Hs. cbn [fst snd] in *.
  set (psi := (1 - sqrt 5) / 2).
  assert (Hpsi : Rabs psi <= 1).
  { unfold psi. pose proof (sqrt_pos 5). assert (sqrt 5 <= 3) by (replace 3 with (sqrt (3 * 3)) by (apply sqrt_square; lra); apply sqrt_le_1_alt; lra).
    assert (1 <= sqrt 5) by (rewrite <- sqrt_1 at 1; apply sqrt_le_1_alt; lra). apply Rabs_le. lra. }
  assert (Hprod : emb (a, b) * (IZR a + IZR b * psi) = IZR (a * a + a * b - b * b)).
  { unfold emb, phi, psi; cbn [fst snd]. rewrite minus_IZR, plus_IZR, !mult_IZR. pose proof (sqrt_sqrt 5 ltac:(lra)) as Q.
    transitivity (IZR a * IZR a + IZR a * IZR b + IZR b * IZR b * (1 - sqrt 5 * sqrt 5) / 4); [field|]. rewrite Q. field. }
  assert (H1 : 1 <= Rabs (emb (a, b) * (IZR a + IZR b * psi))).
  { rewrite Hprod, <- abs_IZR. apply IZR_le. lia. }
  assert (H2 : Rabs (IZR a + IZR b * psi) <= 1000).
  { eapply Rle_trans; [apply Rabs_triang|]. rewrite Rabs_mult, <- !abs_IZR.
    apply Rle_trans with (IZR (Z.abs a) + IZR (Z.abs b)).
    - apply Rplus_le_compat_l. rewrite <- (Rmult_1_r (IZR (Z.abs b))) at 2. apply Rmult_le_compat_l; [apply IZR_le; lia|assumption].
    - rewrite <- plus_IZR. apply IZR_le. lia. }
  rewrite Rabs_mult in H1. pose proof (Rabs_pos (emb (a, b))) as H3.
  assert (1 <= Rabs (emb (a, b)) * 1000).
  { eapply Rle_trans; [exact H1|]. apply Rmult_le_compat_l; assumption. }
  lra.
Qed.

Lemma noise_small : noise <= / 1000.
Proof. unfold noise. apply Rinv_le_contravar; [lra|]. simpl. lra. Qed.

(** ** Checks on a table *)
Section Check.
  Variables (tab : list (list gold)) (cls : list (list nat)) (m : nat) (ci : list nat)
    (mut : list (list nat)) (invt : list nat) (dims gs : list nat).
  Definition tb (a k : nat) : gold := nth k (nth a tab []) (gint 0).
  Definition zc (a e : nat) : gold := nth (nth e ci O) (nth a tab []) (gint 0).
  Let nr := length tab.
  Let nc := length cls.
  Definition order_of : nat := list_sum (map (@length nat) cls).
  Definition sizes_of : list nat := map (@length nat) cls.

  Definition check_ci : bool :=
    all m (fun e => (class_of cls e =? nth e ci O)%nat && (nth e ci O <? nc)%nat).
  Definition check_perm : bool :=
    (length (concat cls) =? m)%nat && all m (fun e => is_in e (concat cls)).
  Definition check_valid : bool :=
    (nr =? nc)%nat && (0 <? nr)%nat && negb (existsb (Nat.eqb 0) sizes_of) && (1 <? nc)%nat &&
    all nr (fun i => all nr (fun j =>
      geqb (gsum nr (fun k => gmul (tb k i) (tb k j)))
        (gint (if (i =? j)%nat then Z.of_nat (order_of / nth i sizes_of O) else 0)) &&
      geqb (gsum nc (fun k => gmul (gmul (tb i k) (tb j k)) (gint (Z.of_nat (nth k sizes_of O)))))
        (gint (if (i =? j)%nat then Z.of_nat order_of else 0)))).
  Definition check_herm : bool := all nr (fun a => all m (fun e => geqb (zc a (inv_of invt e)) (zc a e))).
  Definition check_conv : bool :=
    all nr (fun a => all nr (fun b => all m (fun t =>
      geqb (gsum m (fun e => gmul (zc a e) (zc b (mu_of mut (inv_of invt e) t))))
        (if (a =? b)%nat then gmul (gint (Z.of_nat (nth a gs O))) (zc a t) else gint 0)))).
  Definition check_unit : bool :=
    all nr (fun a => (nth a gs O * nth a dims O =? m)%nat) && (0 <? m)%nat &&
    all m (fun e => geqb (gsum nr (fun a => gmul (gint (Z.of_nat (nth a dims O))) (zc a e)))
      (gint (if (e =? 0)%nat then Z.of_nat m else 0))).
  Definition check_rows : bool :=
    all nr (fun a =>
      if geqb (tb a 0) (gint 1) then
        (nth a gs O =? m)%nat &&
        all m (fun h => geqb (gmul (zc a h) (zc a h)) (gint 1) &&
          all m (fun t => geqb (zc a (mu_of mut (inv_of invt h) t)) (gmul (zc a (inv_of invt h)) (zc a t))))
      else (snd (tb a 0) =? 0)%Z && (fold_right (fun e s => (gsize (zc a e) + s)%Z) 0%Z (seq 0 m) <=? 1000)%Z).
  Definition check_table : bool :=
    check_ci && check_perm && check_valid && check_herm && check_conv && check_unit && check_rows.
  (** The coefficients only depend on the conjugacy class. *)
  Definition check_central (a : nat) : bool :=
    all m (fun h => all m (fun e => geqb (zc a (mu_of mut (mu_of mut h e) (inv_of invt h))) (zc a e))).

  (** The sum over a class multiplies the coefficients by size * character / dimension. *)
  Definition check_action (a k : nat) : bool :=
    all m (fun t => geqb
      (gmul (gint (Z.of_nat (nth a dims O))) (fold_right (fun e s => gadd (zc a (mu_of mut (inv_of invt e) t)) s) (gint 0) (nth k cls [])))
      (gmul (gmul (gint (Z.of_nat (length (nth k cls [])))) (tb a k)) (zc a t))).

  Hypothesis Hcheck : check_table = true.
  Variables (N : nat) (rho : nat -> cmat).
  Hypothesis HR : rep N m (mu_of mut) (inv_of invt) rho.
  Hypothesis Hsign : forall e i j, (i < N)%nat -> (j < N)%nat ->
    ent (rho e) i j = c0 \/ ent (rho e) i j = c1 \/ ent (rho e) i j = kopp c1.
  Variables (T : cmat) (classes : list (list cmat)) (svd : cmat -> cmat).
  Hypothesis HTr : nrow T = nr.
  Hypothesis HTc : ncol T = nc.
  Hypothesis HT : forall i j, (i < nr)%nat -> (j < nc)%nat -> ent T i j = real (emb (tb i j)).
  Hypothesis Hcls : Forall2 (Forall2 (fun A e => meq A (rho e))) classes cls.
  Hypothesis Hsvd : forall M, row_basis M (svd M).

  Lemma parts : check_ci = true /\ check_perm = true /\ check_valid = true /\ check_herm = true /\
    check_conv = true /\ check_unit = true /\ check_rows = true.
  Proof using Hcheck. pose proof Hcheck as H. unfold check_table in H. rewrite !andb_true_iff in H. tauto. Qed.

  Lemma tab_perm : Permutation (concat cls) (seq 0 m).
  Proof using Hcheck. clear HTr HTc HT Hcls Hsvd HR Hsign.
    destruct parts as (_ & H & _). unfold check_perm in H. apply andb_true_iff in H as (H1 & H2). apply Nat.eqb_eq in H1.
    symmetry. apply NoDup_Permutation_bis.
    - apply seq_NoDup.
    - rewrite seq_length. lia.
    - intros e He. apply in_seq in He. apply is_in_true. apply (all_ok _ _ H2). lia.
  Qed.

  Lemma coef_zc a e : (a < nr)%nat -> (e < m)%nat -> coef T cls a e = real (emb (zc a e)).
  Proof using Hcheck HT. clear HTr HTc Hcls Hsvd HR Hsign.
    intros Ha He. destruct parts as (H & _). pose proof (all_ok _ _ H e He) as E. apply andb_true_iff in E as (E1 & E2).
    apply Nat.eqb_eq in E1. apply Nat.ltb_lt in E2. unfold coef. rewrite E1, HT by assumption.
    rewrite real_conj. reflexivity.
  Qed.

  Lemma real_sum n f : ksum n (fun i => real (emb (f i))) = real (emb (gsum n f)).
  Proof. rewrite ksum_real, emb_sum. reflexivity. Qed.

  Lemma lens : map (@length cmat) classes = sizes_of.
  Proof.
    unfold sizes_of.
    assert (Hgen : forall cl cl', Forall2 (Forall2 (fun A e => meq A (rho e))) cl cl' -> map (@length cmat) cl = map (@length nat) cl').
    { intros cl cl' H. induction H as [|c c' cl cl' Hc H IH]; [reflexivity|]. cbn [map].
      rewrite (Forall2_len _ _ _ Hc), IH. reflexivity. }
    apply Hgen. exact Hcls.
  Qed.

  Lemma tab_valid : validate_table T (map (@length cmat) classes) = Ok true.
  Proof.
    rewrite lens. destruct parts as (_ & _ & H & _). unfold check_valid in H. rewrite !andb_true_iff in H.
    destruct H as ((((V1 & V2) & V3) & V4) & V5). apply Nat.eqb_eq in V1. apply Nat.ltb_lt in V2, V4.
    assert (Hls : length sizes_of = nr) by (rewrite V1; unfold sizes_of; apply map_length).
    pose proof HTc as HTc'. rewrite <- V1 in HTc', V4, V5. pose proof HT as HT'. rewrite <- V1 in HT'.
    unfold validate_table. rewrite HTr, HTc', Hls. rewrite Nat.ltb_irrefl, Nat.eqb_refl, V3. cbn [andb orb negb].
    rewrite andb_false_r. fold order_of.
    assert (Hz : forall f g : nat -> nat -> Z, (forall i j, (i < nr)%nat -> (j < nr)%nat -> f i j = g i j) -> z_all nr f g = true).
    { intros f g H. unfold z_all. apply forallb_forall. intros i Hi. apply forallb_forall. intros j Hj.
      apply in_seq in Hi, Hj. apply Z.eqb_eq, H; lia. }
    rewrite !Hz; [reflexivity| |].
    - intros i j Hi Hj. pose proof (all_ok _ _ (all_ok _ _ V5 i Hi) j Hj) as E. apply andb_true_iff in E as (_ & E). apply geqb_eq in E.
      unfold row_cross. rewrite HTc', Hls, Nat.max_id.
      rewrite (ksum_ext nr _ (fun k => real (emb (gmul (gmul (tb i k) (tb j k)) (gint (Z.of_nat (nth k sizes_of O))))))).
      + rewrite real_sum. rewrite E, emb_int. cbn [fst real]. rewrite round_z_IZR. destruct (i =? j)%nat; reflexivity.
      + intros k Hk. destruct (Nat.eqb_spec nr 1); [lia|].
        change cr_mul with (@kmul CR CR_StarRing). change cr_conj with (@kconj CR CR_StarRing).
        rewrite !HT' by lia. rewrite real_conj, !emb_mul, emb_int, !real_mul, INR_IZR_INZ. reflexivity.
    - intros i j Hi Hj. pose proof (all_ok _ _ (all_ok _ _ V5 i Hi) j Hj) as E. apply andb_true_iff in E as (E & _). apply geqb_eq in E.
      unfold col_cross. rewrite HTr.
      rewrite (ksum_ext nr _ (fun k => real (emb (gmul (tb k i) (tb k j))))).
      + rewrite real_sum. rewrite E, emb_int. cbn [fst real]. rewrite round_z_IZR. destruct (i =? j)%nat; reflexivity.
      + intros k Hk. change cr_mul with (@kmul CR CR_StarRing). change cr_conj with (@kconj CR CR_StarRing).
        rewrite !HT' by lia. rewrite real_conj, emb_mul, real_mul. reflexivity.
  Qed.

  Lemma comb_gold a i j : (a < nr)%nat -> (i < N)%nat -> (j < N)%nat ->
    exists x, comb m rho (coef T cls a) i j = real (emb x) /\
      (gsize x <= fold_right (fun e s => (gsize (zc a e) + s)%Z) 0%Z (seq 0 m))%Z.
  Proof.
    intros Ha Hi Hj. unfold comb.
    assert (Hgen : forall n, (n <= m)%nat -> exists x, ksum n (fun e => coef T cls a e *c ent (rho e) i j) = real (emb x) /\
      (gsize x <= fold_right (fun e s => (gsize (zc a e) + s)%Z) 0%Z (seq 0 n))%Z).
    { induction n as [|n IH]; intros Hn.
      - exists (gint 0). split; [rewrite emb_int; reflexivity|]. cbn. lia.
      - destruct IH as (x & E & Hx); [lia|].
        assert (Hf : forall l z, fold_right (fun e s => (gsize (zc a e) + s)%Z) z l = (fold_right (fun e s => (gsize (zc a e) + s)%Z) 0%Z l + z)%Z).
        { induction l as [|b l IHl]; intros z; cbn [fold_right]; [lia|]. rewrite IHl. lia. }
        rewrite seq_S, fold_right_app. cbn [plus fold_right]. rewrite Hf.
        cbn [ksum]. rewrite E, coef_zc by lia. destruct (Hsign n i j Hi Hj) as [X|[X|X]]; rewrite X.
        + exists x. split; [ring|]. assert (0 <= gsize (zc a n))%Z by (unfold gsize; lia). lia.
        + exists (gadd x (zc a n)). split; [rewrite emb_add, real_add; ring|]. unfold gsize, gadd in *; cbn [fst snd] in *. lia.
        + exists (gadd x (gmul (gint (-1)) (zc a n))). split.
          * rewrite emb_add, emb_mul, emb_int, real_add, real_mul. replace (real (-1)) with (kopp c1); [ring|].
            unfold real; cbn. unfold cr_opp; cbn. f_equal; ring.
          * unfold gsize, gadd, gmul, gint in *; cbn [fst snd] in *. lia. }
    apply Hgen. lia.
  Qed.

  Definition g_of (a : nat) : R := INR (nth a gs O).

  Lemma g_dim a : (a < nr)%nat -> g_of a * INR (nth a dims O) = INR m /\ 0 < g_of a /\ 0 < INR m.
  Proof using Hcheck. clear HTr HTc HT Hcls Hsvd HR Hsign.
    intros Ha. destruct parts as (_ & _ & _ & _ & _ & H & _). unfold check_unit in H. rewrite !andb_true_iff in H.
    destruct H as ((U1 & U2) & _). pose proof (all_ok _ _ U1 a Ha) as E. apply Nat.eqb_eq in E. apply Nat.ltb_lt in U2.
    unfold g_of. rewrite <- mult_INR, E. split; [reflexivity|]. split; [|apply lt_0_INR; assumption].
    apply lt_0_INR. destruct (nth a gs O); [simpl in E; lia|lia].
  Qed.

  Theorem checked_projectors : exists Bs,
    symmetry_projectors svd N T classes = Ok Bs /\ length Bs = nr /\
    (forall a, (a < nr)%nat -> sector N (sector_op N T classes a) (g_of a) (nth a Bs (mzero 0 0))) /\
    splits N Bs /\
    (forall H, nrow H = N -> ncol H = N ->
       (forall e, (e < m)%nat -> meq (mmul (rho e) H) (mmul H (rho e))) -> block_diagonal Bs H) /\
    (forall a U z, (a < nr)%nat -> nrow U = N -> ncol U = N ->
       meq (mmul U (sector_op N T classes a)) (mscale z (sector_op N T classes a)) -> acts_as (nth a Bs (mzero 0 0)) U z).
  Proof.
    pose proof (rep_grp _ _ _ _ _ HR) as HGr.
    destruct (table_projectors N m (mu_of mut) (inv_of invt) rho HR T classes cls Hcls tab_perm HTc svd g_of) as (Bs & E1 & E2 & _ & E3 & E4 & E5 & E6).
    - exact tab_valid.
    - intros a e Ha He. rewrite HTr in Ha. destruct parts as (_ & _ & _ & H & _). pose proof (all_ok _ _ (all_ok _ _ H a Ha) e He) as E.
      apply geqb_eq in E. rewrite !coef_zc by (auto; apply (inv_lt _ _ _ HGr); assumption). rewrite E, real_conj. reflexivity.
    - intros a Ha. rewrite HTr in Ha. apply g_dim. assumption.
    - intros a b t Ha Hb Ht. rewrite HTr in Ha, Hb. destruct parts as (_ & _ & _ & _ & H & _).
      pose proof (all_ok _ _ (all_ok _ _ (all_ok _ _ H a Ha) b Hb) t Ht) as E. apply geqb_eq in E.
      unfold conv. rewrite (ksum_ext m _ (fun e => real (emb (gmul (zc a e) (zc b (mu_of mut (inv_of invt e) t)))))).
      + rewrite real_sum, E. destruct (a =? b)%nat.
        * rewrite emb_mul, emb_int, real_mul, coef_zc by assumption. unfold g_of. rewrite INR_IZR_INZ. reflexivity.
        * rewrite emb_int. reflexivity.
      + intros e He. rewrite !coef_zc by (auto; apply (mu_lt _ _ _ HGr); auto; apply (inv_lt _ _ _ HGr); assumption).
        rewrite emb_mul, real_mul. reflexivity.
    - intros e He. rewrite HTr. destruct parts as (_ & _ & _ & _ & _ & H & _). unfold check_unit in H. rewrite !andb_true_iff in H.
      destruct H as (_ & U3). pose proof (all_ok _ _ U3 e He) as E. apply geqb_eq in E.
      assert (Hm : 0 < INR m) by (apply lt_0_INR, (grp_pos _ _ _ HGr)).
      rewrite (ksum_ext nr _ (fun a => real (/ INR m) *c real (emb (gmul (gint (Z.of_nat (nth a dims O))) (zc a e))))).
      + rewrite ksum_mul_l, real_sum, E, emb_int. destruct (Nat.eqb_spec e 0); cbn [kb].
        * rewrite <- INR_IZR_INZ, real_inv; [reflexivity|lra].
        * change (real (IZR 0)) with c0. ring.
      + intros a Ha. rewrite coef_zc by assumption. rewrite emb_mul, emb_int, real_mul, <- INR_IZR_INZ.
        destruct (g_dim a Ha) as (G1 & G2 & _).
        transitivity (real (/ INR m * INR (nth a dims O)) *c real (emb (zc a e))); [|rewrite real_mul; ring].
        f_equal. f_equal. rewrite <- G1. assert (INR (nth a dims O) <> 0) by (intros X; rewrite X in G1; lra).
        field. split; lra.
    - intros a Ha. rewrite HTr in Ha. destruct parts as (_ & _ & V & _ & _ & _ & H). pose proof (all_ok _ _ H a Ha) as E.
      assert (Hnc : (0 < nc)%nat).
      { unfold check_valid in V. rewrite !andb_true_iff in V. destruct V as ((((V1 & V2) & V3) & V4) & V5). apply Nat.ltb_lt in V4. lia. }
      cbv beta in E. destruct (geqb (tb a 0) (gint 1)) eqn:E0.
      + left. apply geqb_eq in E0. split; [rewrite HT, E0, emb_int by assumption; reflexivity|].
        apply andb_true_iff in E as (Eg & E). apply Nat.eqb_eq in Eg. split; [|unfold g_of; rewrite Eg; reflexivity].
        intros h Hh. pose proof (inv_lt _ _ _ HGr h Hh) as Hih. exists (real (emb (zc a (inv_of invt h)))). split.
        * pose proof (all_ok _ _ E _ Hih) as F. apply andb_true_iff in F as (F & _). apply geqb_eq in F.
          rewrite real_nsq, <- emb_mul, F. apply emb_int.
        * intros t Ht. pose proof (all_ok _ _ E _ Hh) as F. apply andb_true_iff in F as (_ & F).
          pose proof (all_ok _ _ F _ Ht) as F'. apply geqb_eq in F'.
          rewrite !coef_zc by (auto; apply (mu_lt _ _ _ HGr); assumption). rewrite F', emb_mul, real_mul. reflexivity.
      + right. apply andb_true_iff in E as (Es & El). apply Z.eqb_eq in Es. apply Z.leb_le in El. split; [|split; [exact Hsvd|]].
        * rewrite HT by assumption. intros X. apply real_inj in X. unfold emb in X. rewrite Es in X.
          unfold geqb in E0. rewrite Es in E0. cbn [gint fst snd] in E0. rewrite Z.eqb_refl, andb_true_r in E0. apply Z.eqb_neq in E0.
          apply E0. apply eq_IZR. lra.
        * intros i j Hi Hj Hne. destruct (comb_gold a i j Ha Hi Hj) as (x & Ex & Hx). rewrite Ex in *.
          rewrite modulus_nsq, real_nsq. replace (sqrt (emb x * emb x)) with (Rabs (emb x)) by (symmetry; apply sqrt_Rsqr_abs).
          apply Rle_trans with (/ 1000); [apply noise_small|]. apply emb_large; [lia|]. intros X. apply Hne. rewrite X. reflexivity.
    - rewrite HTr in *. exists Bs. split; [exact E1|]. split; [exact E2|]. split; [exact E3|]. split; [exact E4|]. split; [exact E5|exact E6].
  Qed.
End Check.
