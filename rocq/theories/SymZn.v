(** Sectors of a cyclic group: roots of unity. *)
From Coq Require Import List Arith Lia ZArith Reals Lra Bool Ring Setoid Morphisms Permutation.
From Verif Require Import Scalars Sums Res Matrix SpecMat ModelPhase ModelSymmetry SpecSymmetry
  GeoPhase SymBase SymReduce SymMany SymGroup SymRep SymTable.
Import ListNotations.
Local Open Scope R_scope.

Lemma round_z_IZR z : round_z (IZR z) = z.
Proof.
  unfold round_z. assert (E : (up (IZR z) - 1)%Z = z).
  { assert (up (IZR z) = z + 1)%Z; [|lia]. symmetry. apply tech_up; rewrite plus_IZR; lra. }
  rewrite E. destruct (Rlt_dec (IZR z - IZR z) (1 / 2)); [reflexivity|lra].
Qed.
Lemma round_z_INR n : round_z (INR n) = Z.of_nat n.
Proof. rewrite INR_IZR_INZ. apply round_z_IZR. Qed.
Lemma round_z_0 : round_z 0 = 0%Z.
Proof. apply (round_z_IZR 0). Qed.

Lemma nth_repeat_lt {A} (x y : A) n p : (p < n)%nat -> nth p (repeat x n) y = x.
Proof. revert p. induction n as [|n IH]; intros [|p] H; simpl; try lia; [reflexivity|]. apply IH. lia. Qed.

(** Powers of a square matrix. *)
Section Powers.
  Variables (N : nat) (T : cmat).
  Hypothesis Hsq : square N T.

  Lemma op_pow_sq k : square N (op_pow T k).
  Proof.
    destruct Hsq as (H1 & H2). induction k as [|k (I1 & I2)]; [split; exact H1|]. split; cbn; assumption.
  Qed.
  Lemma op_pow_add a b : meq (mmul (op_pow T a) (op_pow T b)) (op_pow T (a + b)).
  Proof.
    destruct Hsq as (H1 & H2). destruct (op_pow_sq a) as (A1 & A2). induction b as [|b IH].
    - rewrite Nat.add_0_r. cbn [op_pow]. apply mmul_eye_r. congruence.
    - rewrite Nat.add_succ_r. cbn [op_pow]. destruct (op_pow_sq b) as (B1 & B2).
      etransitivity; [symmetry; apply mmul_assoc; congruence|].
      apply mm; [exact IH|cbn; congruence|reflexivity].
  Qed.
  Lemma mpow_op_pow k : meq (mpow N T k) (op_pow T k).
  Proof.
    destruct Hsq as (H1 & H2). induction k as [|k IH]; [cbn; rewrite H1; reflexivity|]. cbn [mpow].
    destruct (op_pow_sq k) as (K1 & K2).
    etransitivity; [apply mm; [reflexivity| |exact IH]|].
    { rewrite (meq_nrow _ _ IH). congruence. }
    change (S k) with (1 + k)%nat. etransitivity; [|apply op_pow_add].
    apply mm; [|congruence|reflexivity]. cbn [op_pow]. symmetry. apply mmul_eye_l. reflexivity.
  Qed.
  Lemma op_pow_mod n a : (0 < n)%nat -> meq (op_pow T n) (meye N) -> meq (op_pow T (a mod n)) (op_pow T a).
  Proof.
    intros Hn Hp. destruct Hsq as (H1 & H2).
    assert (Hq : forall q, meq (op_pow T (n * q)) (meye N)).
    { induction q as [|q IH]; [rewrite Nat.mul_0_r; cbn; rewrite H1; reflexivity|].
      replace (n * S q)%nat with (n * q + n)%nat by lia. rewrite <- op_pow_add.
      etransitivity; [apply mm; [exact IH| |exact Hp]|].
      { rewrite (meq_nrow _ _ Hp), (meq_ncol _ _ IH). reflexivity. }
      apply mmul_eye_l. reflexivity. }
    rewrite (Nat.div_mod a n) at 2 by lia. rewrite <- op_pow_add. symmetry.
    destruct (op_pow_sq (a mod n)) as (A1 & A2).
    etransitivity; [apply mm; [apply Hq| |reflexivity]|].
    { rewrite (meq_ncol _ _ (Hq (a / n)%nat)). exact A1. }
    apply mmul_eye_l. assumption.
  Qed.
  Lemma op_pow_1 : meq (op_pow T 1) T.
  Proof. cbn [op_pow]. apply mmul_eye_l. reflexivity. Qed.
  Lemma op_pow_commute H k : square N H -> meq (mmul T H) (mmul H T) -> meq (mmul (op_pow T k) H) (mmul H (op_pow T k)).
  Proof.
    intros (G1 & G2) Hc. destruct Hsq as (H1 & H2). induction k as [|k IH].
    - cbn [op_pow]. etransitivity; [apply mmul_eye_l; congruence|]. symmetry. apply mmul_eye_r. congruence.
    - cbn [op_pow]. destruct (op_pow_sq k) as (K1 & K2).
      etransitivity; [apply mmul_assoc; congruence|].
      etransitivity; [apply mm; [reflexivity|cbn; congruence|exact Hc]|].
      etransitivity; [symmetry; apply mmul_assoc; congruence|].
      etransitivity; [apply mm; [exact IH|cbn; congruence|reflexivity]|].
      apply mmul_assoc. congruence.
  Qed.
End Powers.

(** Products of matrices which move basis states move basis states. *)
Lemma moves_mul N A B : moves_states N A -> moves_states N B -> moves_states N (mmul A B).
Proof.
  intros (((A1 & A2) & A3 & A4) & A5) (((B1 & B2) & B3 & B4) & B5). split.
  - split; [split; cbn; assumption|]. split.
    + etransitivity; [apply mm; [apply madj_mul; congruence|cbn; congruence|reflexivity]|].
      etransitivity; [apply mmul_assoc; cbn; congruence|].
      etransitivity.
      { apply mm; [reflexivity|cbn; congruence|]. etransitivity; [symmetry; apply mmul_assoc; cbn; congruence|].
        etransitivity; [apply mm; [exact A3|cbn; congruence|reflexivity]|]. apply mmul_eye_l. assumption. }
      exact B3.
    + etransitivity; [apply mm; [reflexivity|cbn; congruence|apply madj_mul; congruence]|].
      etransitivity; [apply mmul_assoc; cbn; congruence|].
      etransitivity.
      { apply mm; [reflexivity|cbn; congruence|]. etransitivity; [symmetry; apply mmul_assoc; cbn; congruence|].
        etransitivity; [apply mm; [exact B4|cbn; congruence|reflexivity]|]. apply mmul_eye_l. cbn. assumption. }
      exact A4.
  - assert (Hsup : forall i j, (i < N)%nat -> (j < N)%nat -> ent (mmul A B) i j <> c0 ->
      exists k, (k < N)%nat /\ ent A i k <> c0 /\ ent B k j <> c0).
    { intros i j Hi Hj H. cbn [mmul ent] in H. rewrite A2 in H.
      destruct (existsb (fun k => kneb (ent A i k) c0 && kneb (ent B k j) c0)%bool (seq 0 N)) eqn:E.
      - apply existsb_exists in E as (k & Hk & E). apply in_seq in Hk. apply andb_true_iff in E as (E1 & E2).
        apply kneb_true in E1, E2. exists k. split; [lia|split; assumption].
      - exfalso. apply H. apply ksum_zero. intros k Hk.
        destruct (cr_eq_dec (ent A i k) c0) as [F|F]; [change (0,0) with c0 in F; rewrite F; ring|].
        destruct (cr_eq_dec (ent B k j) c0) as [G|G]; [change (0,0) with c0 in G; rewrite G; ring|].
        exfalso. assert (X : existsb (fun k => kneb (ent A i k) c0 && kneb (ent B k j) c0)%bool (seq 0 N) = true); [|congruence].
        apply existsb_exists. exists k. split; [apply in_seq; lia|]. apply andb_true_iff. split; apply kneb_true; assumption. }
    intros i j k Hi Hj Hk Hj0 Hk0. destruct (Hsup i j Hi Hj Hj0) as (l & L1 & L2 & L3).
    destruct (Hsup i k Hi Hk Hk0) as (l' & L1' & L2' & L3').
    assert (l = l') as <- by (apply (A5 i); assumption). apply (B5 l); assumption.
Qed.

Lemma moves_eye N : moves_states N (meye N).
Proof.
  split.
  - split; [split; reflexivity|]. split.
    + etransitivity; [apply mm; [apply madj_eye|reflexivity|reflexivity]|]. apply mmul_eye_l. reflexivity.
    + etransitivity; [apply mm; [reflexivity|reflexivity|apply madj_eye]|]. apply mmul_eye_l. reflexivity.
  - intros i j k _ _ _. cbn [meye ent]. destruct (Nat.eqb_spec i j), (Nat.eqb_spec i k); cbn [kb]; intros; try congruence; exfalso; auto.
Qed.

Lemma moves_pow N T k : moves_states N T -> moves_states N (op_pow T k).
Proof.
  intros H. induction k as [|k IH]; cbn [op_pow].
  - destruct H as (((H1 & _) & _) & _). rewrite H1. apply moves_eye.
  - apply moves_mul; assumption.
Qed.

Section Roots.
  Variable n : nat.
  Hypothesis Hn : (0 < n)%nat.
  Definition root (k : nat) : CR := cexp (2 * PI / INR n * INR k).

  Lemma INR_n : 0 < INR n.
  Proof. apply lt_0_INR. assumption. Qed.
  Lemma root_0 : root 0 = c1.
  Proof. unfold root. change (INR 0) with 0. rewrite Rmult_0_r. exact cexp_0. Qed.
  Lemma root_add a b : root (a + b) = root a *c root b.
  Proof. unfold root. rewrite plus_INR. change (?x *c ?y) with (cr_mul x y). rewrite cexp_mul. f_equal. ring. Qed.
  Lemma root_n : root n = c1.
  Proof.
    unfold root. pose proof INR_n. replace (2 * PI / INR n * INR n) with (2 * PI) by (field; lra).
    unfold cexp. rewrite cos_2PI, sin_2PI. reflexivity.
  Qed.
  Lemma root_mul a : root (n * a) = c1.
  Proof.
    induction a as [|a IH]; [rewrite Nat.mul_0_r; apply root_0|].
    replace (n * S a)%nat with (n * a + n)%nat by lia. rewrite root_add, IH, root_n. ring.
  Qed.
  Lemma root_unit k : nsq (root k) = 1.
  Proof. unfold nsq, root. apply cexp_unit. Qed.
  Lemma root_conj_mul k : conj (root k) *c root k = c1.
  Proof. rewrite conj_mul_self, root_unit. reflexivity. Qed.
  Lemma root_mod a : root (a mod n) = root a.
  Proof.
    rewrite (Nat.div_mod a n) at 2 by lia. rewrite root_add, root_mul. ring.
  Qed.
  Lemma root_mul_mod a b : root (a * (b mod n)) = root (a * b).
  Proof.
    rewrite <- (root_mod (a * (b mod n))), <- (root_mod (a * b)). f_equal.
    rewrite Nat.mul_mod_idemp_r by lia. reflexivity.
  Qed.
  Lemma root_neg a e : (e <= n)%nat -> root (a * (n - e)) = conj (root (a * e)).
  Proof.
    intros He.
    transitivity (conj (root (a * e)) *c root (a * e) *c root (a * (n - e))); [rewrite root_conj_mul; ring|].
    transitivity (conj (root (a * e)) *c (root (a * e) *c root (a * (n - e)))); [ring|].
    rewrite <- root_add. replace (a * e + a * (n - e))%nat with (n * a)%nat by nia. rewrite root_mul. ring.
  Qed.

  Lemma root_not_1 d : (0 < d < n)%nat -> root d <> c1.
  Proof.
    intros (Hd1 & Hd2) E. apply (f_equal fst) in E. unfold root, cexp in E. cbn [fst] in E. change (fst c1) with 1 in E.
    pose proof INR_n. pose proof PI_RGT_0.
    set (y := PI / INR n * INR d).
    assert (Ey : 2 * PI / INR n * INR d = 2 * y) by (unfold y; field; lra). rewrite Ey, cos_2a_sin in E.
    assert (0 < INR d) by (apply lt_0_INR; assumption). assert (INR d < INR n) by (apply lt_INR; assumption).
    assert (0 < sin y).
    { apply sin_gt_0; unfold y.
      - apply Rmult_lt_0_compat; [|assumption]. apply Rdiv_lt_0_compat; assumption.
      - apply (Rmult_lt_reg_r (INR n)); [assumption|]. replace (PI / INR n * INR d * INR n) with (PI * INR d) by (field; lra).
        apply Rmult_lt_compat_l; assumption. }
    nra.
  Qed.


  Lemma root_sum d : (0 < d < n)%nat -> ksum n (fun e => root (d * e)) = c0.
  Proof.
    intros Hd.
    assert (G : forall k, (root d +c kopp c1) *c ksum k (fun e => root (d * e)) = root (d * k) +c kopp c1).
    { induction k as [|k IH]; [cbn [ksum]; rewrite Nat.mul_0_r, root_0; ring|]. cbn [ksum].
      transitivity ((root d +c kopp c1) *c ksum k (fun e => root (d * e)) +c (root d *c root (d * k) +c kopp (root (d * k)))); [ring|].
      rewrite IH, <- root_add. replace (d * S k)%nat with (d + d * k)%nat by lia. ring. }
    specialize (G n). replace (d * n)%nat with (n * d)%nat in G by lia. rewrite root_mul in G.
    assert (Z : (root d +c kopp c1) *c ksum n (fun e => root (d * e)) = c0) by (rewrite G; ring).
    apply mul_0 in Z as [Z|Z]; [|exact Z]. exfalso. apply (root_not_1 d Hd).
    transitivity ((root d +c kopp c1) +c c1); [ring|]. rewrite Z. ring.
  Qed.

  Lemma root_orth a b : (a < n)%nat -> (b < n)%nat ->
    ksum n (fun e => root (a * e) *c conj (root (b * e))) = if (a =? b)%nat then real (INR n) else c0.
  Proof.
    intros Ha Hb. destruct (Nat.eqb_spec a b) as [<-|Hne].
    - transitivity (ksum n (fun _ => real 1)).
      + apply ksum_ext. intros e _. rewrite mul_conj, root_unit. reflexivity.
      + rewrite (ksum_real n (fun _ => 1)). f_equal. rewrite (rsum_const n _ 1) by auto. ring.
    - destruct (Nat.lt_ge_cases b a) as [Hlt|Hge].
      + rewrite <- (root_sum (a - b)) by lia. apply ksum_ext. intros e _.
        replace (a * e)%nat with ((a - b) * e + b * e)%nat by nia. rewrite root_add.
        transitivity (root ((a - b) * e) *c (conj (root (b * e)) *c root (b * e))); [ring|]. rewrite root_conj_mul. ring.
      + rewrite <- (kconj_inv (ksum n _)), ksum_conj.
        rewrite (ksum_ext n _ (fun e => root ((b - a) * e))); [rewrite root_sum by lia; apply kconj_0|].
        intros e _. rewrite kconj_mul, kconj_inv.
        replace (b * e)%nat with ((b - a) * e + a * e)%nat by nia. rewrite root_add.
        transitivity (root ((b - a) * e) *c (conj (root (a * e)) *c root (a * e))); [ring|]. rewrite root_conj_mul. ring.
  Qed.

  Lemma zn_table_ent i j : ent (zn_table n) i j = conj (root (i * j)).
  Proof.
    cbn [zn_table ent]. unfold root. change (conj ?z) with (cr_conj z). rewrite cexp_conj. f_equal.
    pose proof INR_n. field. lra.
  Qed.

  Lemma class_of_singletons k len e : (k <= e < k + len)%nat -> class_of (map (fun l => [l]) (seq k len)) e = (e - k)%nat.
  Proof.
    revert k. induction len as [|len IH]; intros k H; [lia|]. cbn [seq map class_of].
    unfold is_in. cbn [existsb]. destruct (Nat.eqb_spec e k) as [->|Hne]; cbn [orb]; [lia|].
    rewrite IH by lia. lia.
  Qed.

  Definition zmu (a b : nat) : nat := (a + b) mod n.
  Definition zinv (a : nat) : nat := (n - a) mod n.
  Definition zcls : list (list nat) := map (fun l => [l]) (seq 0 n).

  Lemma zn_grp : grp n zmu zinv.
  Proof.
    assert (Hz : forall a, (a < n)%nat -> zinv a = if (a =? 0)%nat then O else (n - a)%nat).
    { intros a Ha. unfold zinv. destruct (Nat.eqb_spec a 0) as [->|]; [rewrite Nat.sub_0_r; apply Nat.mod_same; lia|].
      apply Nat.mod_small. lia. }
    split.
    - assumption.
    - intros. apply Nat.mod_upper_bound. lia.
    - intros. apply Nat.mod_upper_bound. lia.
    - intros a Ha. rewrite (Hz a Ha). destruct (Nat.eqb_spec a 0) as [->|]; [rewrite Hz by lia; reflexivity|].
      rewrite Hz by lia. destruct (Nat.eqb_spec (n - a) 0); lia.
    - intros a b Ha Hb. unfold zmu. rewrite Nat.add_mod_idemp_r by lia. rewrite (Hz a Ha).
      destruct (Nat.eqb_spec a 0) as [->|]; [apply Nat.mod_small; lia|].
      replace (n - a + (a + b))%nat with (b + 1 * n)%nat by lia. rewrite Nat.mod_add by lia. apply Nat.mod_small. assumption.
    - intros a Ha. unfold zmu. rewrite (Hz a Ha). destruct (Nat.eqb_spec a 0) as [->|]; [apply Nat.mod_small; lia|].
      replace (a + (n - a))%nat with n by lia. apply Nat.mod_same. lia.
  Qed.

  Lemma zcls_perm : Permutation (concat zcls) (seq 0 n).
  Proof. unfold zcls. induction (seq 0 n) as [|x l IH]; simpl; [constructor|]. constructor. exact IH. Qed.

  Lemma zn_coef a e : (e < n)%nat -> coef (zn_table n) zcls a e = root (a * e).
  Proof.
    intros He. unfold coef. rewrite zn_table_ent, kconj_inv. unfold zcls. rewrite class_of_singletons by lia.
    rewrite Nat.sub_0_r. reflexivity.
  Qed.

  Lemma zn_shift a h t : (h < n)%nat -> (t < n)%nat -> root (a * zmu (zinv h) t) = conj (root (a * h)) *c root (a * t).
  Proof.
    intros Hh Ht. unfold zmu, zinv. rewrite Nat.add_mod_idemp_l by lia. rewrite root_mul_mod, Nat.mul_add_distr_l, root_add.
    rewrite root_neg by lia. reflexivity.
  Qed.

  Lemma zn_valid : validate_table (zn_table n) (repeat 1%nat n) = Ok true.
  Proof.
    assert (Hsum : list_sum (repeat 1%nat n) = n) by (clear; induction n; simpl; congruence).
    unfold validate_table. cbn [zn_table nrow ncol]. rewrite Nat.ltb_irrefl, Hsum, repeat_length, !Nat.eqb_refl.
    fold (zn_table n). cbn [orb negb andb]. rewrite andb_false_r.
    assert (Hex : existsb (Nat.eqb 0) (repeat 1%nat n) = false) by (clear; induction n; simpl; auto). rewrite Hex. cbn [negb andb].
    assert (Hz : forall f g : nat -> nat -> Z, (forall i j, (i < n)%nat -> (j < n)%nat -> f i j = g i j) -> z_all n f g = true).
    { intros f g H. unfold z_all. apply forallb_forall. intros i Hi. apply forallb_forall. intros j Hj.
      apply in_seq in Hi, Hj. apply Z.eqb_eq, H; lia. }
    rewrite !Hz; [reflexivity| |].
    - intros i j Hi Hj. unfold row_cross. cbn [zn_table ncol]. fold (zn_table n). rewrite repeat_length, Nat.max_id.
      rewrite (ksum_ext n _ (fun k => conj (root (i * k) *c conj (root (j * k))))).
      + rewrite <- ksum_conj, root_orth by assumption. destruct (i =? j)%nat; cbn.
        * rewrite round_z_INR. reflexivity.
        * rewrite round_z_0. reflexivity.
      + intros k Hk. change cr_mul with (@kmul CR CR_StarRing). change cr_conj with (@kconj CR CR_StarRing).
        assert (Hp : (if (n =? 1)%nat then 0%nat else k) = k) by (destruct (Nat.eqb_spec n 1); lia). rewrite Hp.
        rewrite nth_repeat_lt by assumption. rewrite !zn_table_ent, kconj_mul. change (real (INR 1)) with c1. ring.
    - intros i j Hi Hj. unfold col_cross. cbn [zn_table nrow]. fold (zn_table n).
      rewrite (ksum_ext n _ (fun k => conj (root (i * k) *c conj (root (j * k))))).
      + rewrite <- ksum_conj, root_orth by assumption. rewrite nth_repeat_lt by assumption. rewrite Nat.div_1_r. destruct (i =? j)%nat; cbn.
        * rewrite round_z_INR. reflexivity.
        * rewrite round_z_0. reflexivity.
      + intros k Hk. change cr_mul with (@kmul CR CR_StarRing). change cr_conj with (@kconj CR CR_StarRing).
        rewrite !zn_table_ent, kconj_mul. rewrite (Nat.mul_comm k i), (Nat.mul_comm k j). reflexivity.
  Qed.
End Roots.

Section Zn.
  Variables (N n : nat) (T : cmat) (svd : cmat -> cmat).
  Hypothesis Hn : (0 < n)%nat.
  Hypothesis HT : moves_states N T.
  Hypothesis Hper : meq (mpow N T n) (meye N).

  Lemma T_sq : square N T.
  Proof. apply HT. Qed.
  Lemma T_period : meq (op_pow T n) (meye N).
  Proof. rewrite <- (mpow_op_pow N T T_sq). exact Hper. Qed.

  Lemma zn_rep : rep N n (zmu n) (zinv n) (op_pow T).
  Proof.
    pose proof T_sq as Hsq. pose proof T_period as Hp.
    split.
    - apply zn_grp. assumption.
    - intros e _. apply op_pow_sq. assumption.
    - cbn [op_pow]. destruct Hsq as (H1 & _). rewrite H1. reflexivity.
    - intros a b Ha Hb. etransitivity; [apply (op_pow_add N); assumption|]. symmetry. apply (op_pow_mod N); assumption.
    - intros a Ha. destruct (moves_pow N T a HT) as ((S1 & U1 & U2) & _).
      destruct (op_pow_sq N T Hsq a) as (A1 & A2). destruct (op_pow_sq N T Hsq (zinv n a)) as (B1 & B2).
      assert (E : meq (mmul (op_pow T a) (op_pow T (zinv n a))) (meye N)).
      { etransitivity; [apply (op_pow_add N); assumption|].
        etransitivity; [symmetry; apply (op_pow_mod N _ Hsq n); assumption|].
        fold (zmu n a (zinv n a)). rewrite (mu_inv_r _ _ _ (zn_grp n Hn)) by assumption.
        cbn [op_pow]. destruct Hsq as (H1 & _). rewrite H1. reflexivity. }
      etransitivity; [symmetry; apply (mmul_eye_r N); cbn; assumption|].
      etransitivity; [apply mm; [reflexivity|cbn; congruence|symmetry; exact E]|].
      etransitivity; [symmetry; apply mmul_assoc; congruence|].
      etransitivity; [apply mm; [exact U1|cbn; congruence|reflexivity]|].
      apply mmul_eye_l. assumption.
    - intros e i j k _. apply (moves_pow N T e HT).
  Qed.

  Theorem zn_ok : exists Bs, zn_projectors svd T n = Ok Bs /\ length Bs = n /\ splits N Bs /\
    (forall k, (k < n)%nat -> acts_as (nth k Bs (mzero 0 0)) T (cexp (- nth k (zn_ks n) 0))) /\
    (forall H, square N H -> meq (mmul T H) (mmul H T) -> block_diagonal Bs H) /\
    (forall k, (k < n)%nat -> exists p, nth k Bs (mzero 0 0) = reduce_projector svd p (1, 0) (related N (map (fun l => [op_pow T l]) (seq 0 n))) /\
       square N p /\ forall i j, (i < N)%nat -> (j < N)%nat -> ent p i j = comb n (op_pow T) (fun e => root n (k * e)) i j).
  Proof.
    pose proof T_sq as Hsq. set (classes := map (fun l => [op_pow T l]) (seq 0 n)).
    assert (Hcls : Forall2 (Forall2 (fun A e => meq A (op_pow T e))) classes (zcls n)).
    { unfold classes, zcls. induction (seq 0 n) as [|x l IH]; cbn [map]; constructor; [|exact IH].
      constructor; [reflexivity|constructor]. }
    assert (Hlen : map (@length cmat) classes = repeat 1%nat n).
    { unfold classes. rewrite map_map. transitivity (map (fun _ : nat => 1%nat) (seq 0 n)); [apply map_ext; reflexivity|].
      rewrite <- (seq_length n 0) at 2. generalize (seq 0 n).
      induction l as [|x l IH]; cbn [map repeat length]; [reflexivity|]. rewrite IH. reflexivity. }
    assert (Hnc : ncol (zn_table n) = length (zcls n)) by (unfold zcls; rewrite map_length, seq_length; reflexivity).
    assert (Hco := zn_coef n Hn).
    destruct (table_projectors N n (zmu n) (zinv n) (op_pow T) zn_rep (zn_table n) classes (zcls n) Hcls (zcls_perm n)
      ltac:(unfold zcls; rewrite map_length, seq_length; reflexivity) svd (fun _ => INR n)) as (Bs & E1 & E2 & E3 & E3s & E4 & E5 & E6).
    - rewrite Hlen. apply zn_valid. assumption.
    - intros a e Ha He. pose proof (inv_lt _ _ _ (zn_grp n Hn) e He) as Hi. rewrite !Hco by assumption.
      unfold zinv. rewrite root_mul_mod by assumption. apply root_neg; [assumption|lia].
    - intros a _. apply INR_n. assumption.
    - intros a b t Ha Hb Ht. cbn [zn_table nrow] in Ha, Hb. unfold conv.
      transitivity (ksum n (fun e => root n (b * t) *c (root n (a * e) *c conj (root n (b * e))))).
      + apply ksum_ext. intros e He. rewrite Hco by assumption.
        rewrite Hco by (apply (mu_lt _ _ _ (zn_grp n Hn)); [apply (inv_lt _ _ _ (zn_grp n Hn))|]; assumption).
        rewrite zn_shift by assumption. ring.
      + rewrite ksum_mul_l, root_orth by assumption. rewrite Hco by assumption.
        destruct (Nat.eqb_spec a b) as [->|]; ring.
    - intros e He. cbn [zn_table nrow]. fold (zn_table n).
      transitivity (ksum n (fun a => real (/ INR n) *c (root n (e * a) *c conj (root n (0 * a))))).
      + apply ksum_ext. intros a _. rewrite Hco by assumption. rewrite Nat.mul_0_l, root_0 by assumption.
        rewrite kconj_1, (Nat.mul_comm e a). ring.
      + rewrite ksum_mul_l, root_orth by lia. destruct (Nat.eqb_spec e 0); cbn [kb]; [|ring].
        rewrite real_inv; [reflexivity|]. pose proof (INR_n n Hn). lra.
    - intros a Ha. left. split; [|split].
      + rewrite zn_table_ent by assumption. rewrite Nat.mul_0_r, root_0 by assumption. exact (@kconj_1 CR CR_StarRing).
      + intros h Hh. exists (conj (root n (a * h))). split; [rewrite nsq_conj; apply root_unit|].
        intros t Ht. rewrite Hco by (apply (mu_lt _ _ _ (zn_grp n Hn)); [apply (inv_lt _ _ _ (zn_grp n Hn))|]; assumption).
        rewrite Hco by assumption. apply zn_shift; assumption.
      + reflexivity.
    - cbn [zn_table nrow] in *. fold (zn_table n) in *. exists Bs.
      assert (Hp : forall k i j, (i < N)%nat -> (j < N)%nat ->
        ent (sector_op N (zn_table n) classes k) i j = comb n (op_pow T) (fun e => root n (k * e)) i j).
      { intros k i j Hi Hj. rewrite (sector_op_ent N n (zmu n) (zinv n) (op_pow T) zn_rep (zn_table n) classes (zcls n) Hcls (zcls_perm n)); auto.
        apply comb_ext. intros e He. apply Hco. assumption. }
      split; [|split; [exact E2|split; [exact E4|split; [|split]]]].
      + unfold zn_projectors. destruct (Nat.eqb_spec n 0); [lia|]. destruct Hsq as (H1 & _). rewrite H1. exact E1.
      + intros k Hk.
        destruct (sector_op_sq N n (zmu n) (zinv n) (op_pow T) zn_rep (zn_table n) classes (zcls n) Hcls (zcls_perm n) Hnc k) as (P1 & P2).
        apply E6; [assumption|apply Hsq|apply Hsq|].
        split; [transitivity N; [apply Hsq|symmetry; exact P1]|]. split; [reflexivity|]. intros i j Hi Hj.
        change (i < nrow T)%nat in Hi. destruct Hsq as (H1 & H2). rewrite H1 in Hi. cbn [mmul ncol] in Hj. rewrite P2 in Hj.
        cbn [mmul mscale ent]. rewrite H2.
        set (h := (1 mod n)%nat). assert (Hh : (h < n)%nat) by (apply Nat.mod_upper_bound; lia).
        assert (ET : meq T (op_pow T h)).
        { unfold h. rewrite (op_pow_mod N T (@Coq.Init.Logic.conj _ _ H1 H2) n 1 Hn T_period). symmetry. apply (op_pow_1). }
        destruct ET as (_ & _ & ET).
        transitivity (ksum N (fun l => ent (op_pow T h) i l *c comb n (op_pow T) (fun e => root n (k * e)) l j)).
        { apply ksum_ext. intros l Hl. rewrite Hp by assumption. rewrite ET by congruence. reflexivity. }
        rewrite (r_comb N n (zmu n) (zinv n) (op_pow T) zn_rep) by assumption.
        rewrite Hp by assumption. rewrite <- comb_scale. apply comb_ext. intros t Ht. rewrite zn_shift by assumption.
        f_equal. unfold h. rewrite root_mul_mod, Nat.mul_1_r by assumption.
        unfold root. change (conj ?z) with (cr_conj z). rewrite cexp_conj. f_equal. f_equal.
        unfold zn_ks. rewrite (nth_indep _ 0 (2 * PI * INR 0 / INR n)) by (rewrite map_length, seq_length; assumption).
        rewrite (map_nth (fun k => 2 * PI * INR k / INR n)), seq_nth by assumption. cbn [Nat.add].
        pose proof (INR_n n Hn). field. lra.
      + intros H HH Hcom. apply E5; [apply HH|apply HH|]. intros e He. apply (op_pow_commute N T Hsq); assumption.
      + intros k Hk. exists (sector_op N (zn_table n) classes k).
        split; [|split; [|apply Hp]].
        * rewrite E3 by assumption. rewrite zn_table_ent by assumption. rewrite Nat.mul_0_r, root_0 by assumption.
          rewrite kconj_1. reflexivity.
        * apply (sector_op_sq N n (zmu n) (zinv n) (op_pow T) zn_rep (zn_table n) classes (zcls n) Hcls (zcls_perm n) Hnc).
  Qed.
End Zn.
