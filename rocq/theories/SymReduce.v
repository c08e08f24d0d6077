(** Reduction of a sector operator to an orthonormal basis of its rows. *)
From Coq Require Import List Arith Lia Reals Lra Bool Ring Setoid Morphisms Permutation.
From Verif Require Import Scalars Sums Matrix ModelPhase ModelSymmetry SymBase.
Import ListNotations.
Local Open Scope R_scope.

Lemma insert_nat_In x y l : In x (insert_nat y l) <-> x = y \/ In x l.
Proof.
  induction l as [|z l IH]; simpl; [intuition|].
  destruct (y <? z)%nat; [simpl; intuition|].
  destruct (Nat.eqb_spec y z) as [->|]; simpl; [intuition|]. rewrite IH. intuition.
Qed.

Fixpoint increasing (l : list nat) : Prop :=
  match l with [] => True | x :: t => (forall y, In y t -> (x < y)%nat) /\ increasing t end.

Lemma insert_nat_increasing x l : increasing l -> increasing (insert_nat x l).
Proof.
  induction l as [|z l IH]; intros H; [split; [intros y []|exact I]|].
  destruct H as (H1 & H2). cbn [insert_nat].
  destruct (Nat.ltb_spec x z).
  - split; [|split; assumption]. intros y [<-|Hy]; [assumption|]. specialize (H1 y Hy). lia.
  - destruct (Nat.eqb_spec x z) as [->|Hne]; [split; assumption|].
    split; [|apply IH; assumption]. intros y Hy. apply insert_nat_In in Hy as [->|Hy]; [lia|auto].
Qed.

Lemma unique_nats_In x l : In x (unique_nats l) <-> In x l.
Proof.
  unfold unique_nats. induction l as [|y l IH]; simpl; [reflexivity|].
  rewrite insert_nat_In, IH. intuition.
Qed.

Lemma unique_nats_increasing l : increasing (unique_nats l).
Proof. unfold unique_nats. induction l; simpl; [exact I|]. apply insert_nat_increasing. assumption. Qed.

Lemma increasing_NoDup l : increasing l -> NoDup l.
Proof.
  induction l as [|x l IH]; intros H; [constructor|]. destruct H as (H1 & H2).
  constructor; [|auto]. intros Hx. specialize (H1 x Hx). lia.
Qed.

Lemma first_pos_In x l : In x l -> (first_pos x l < length l)%nat /\ nth (first_pos x l) l O = x.
Proof.
  induction l as [|y l IH]; simpl; [intros []|].
  destruct (Nat.eqb_spec x y) as [->|Hne]; [split; [lia|reflexivity]|].
  intros [->|H]; [congruence|]. destruct (IH H). split; [lia|assumption].
Qed.

Lemma NoDup_map_inj {A B} (f : A -> B) l :
  (forall x y, In x l -> In y l -> f x = f y -> x = y) -> NoDup l -> NoDup (map f l).
Proof.
  induction l as [|a l IH]; intros Hf Hn; [constructor|]. inversion Hn; subst. simpl. constructor.
  - rewrite in_map_iff. intros (b & E & Hb). assert (b = a) by (apply Hf; simpl; auto). subst. contradiction.
  - apply IH; auto. intros; apply Hf; simpl; auto.
Qed.

(** ** Rows of a matrix. *)
Lemma row_cols_In A i j : In j (row_cols A i) <-> (j < ncol A)%nat /\ ent A i j <> c0.
Proof. unfold row_cols. rewrite filter_In, in_seq, kneb_true. intuition lia. Qed.

Definition zero_row (A : cmat) (i : nat) : Prop := forall j, (j < ncol A)%nat -> ent A i j = c0.

Lemma row_cols_nil A i : row_cols A i = [] <-> zero_row A i.
Proof.
  split.
  - intros H j Hj. destruct (cr_eq_dec (ent A i j) c0) as [E|E]; [exact E|].
    assert (In j (row_cols A i)) by (apply row_cols_In; auto). rewrite H in *. contradiction.
  - intros H. destruct (row_cols A i) as [|j t] eqn:E; [reflexivity|].
    assert (Hj : In j (row_cols A i)) by (rewrite E; left; reflexivity).
    apply row_cols_In in Hj as (Hj & Hn). rewrite H in Hn by assumption. congruence.
Qed.

Lemma rows_noz_In A i : In i (rows_noz A) <-> (i < nrow A)%nat /\ ~ zero_row A i.
Proof.
  unfold rows_noz. rewrite filter_In, in_seq, <- row_cols_nil.
  destruct (row_cols A i); split; intros (H1 & H2); split; try lia; try congruence; try discriminate.
Qed.

Lemma rows_noz_NoDup A : NoDup (rows_noz A).
Proof. apply NoDup_filter, seq_NoDup. Qed.

Lemma first_col_ok A i : ~ zero_row A i -> (first_col A i < ncol A)%nat /\ ent A i (first_col A i) <> c0.
Proof.
  intros H. unfold first_col. destruct (row_cols A i) as [|j t] eqn:E; [apply row_cols_nil in E; contradiction|].
  simpl. apply row_cols_In. rewrite E. left. reflexivity.
Qed.

Lemma row_cols_ext A B i i' : ncol A = ncol B -> (forall j, (j < ncol A)%nat -> (ent A i j = c0 <-> ent B i' j = c0)) ->
  row_cols A i = row_cols B i'.
Proof.
  intros Hc H. unfold row_cols. rewrite <- Hc. apply filter_ext_in. intros j Hj. apply in_seq in Hj.
  specialize (H j ltac:(lia)). unfold kneb.
  destruct (keq_dec (ent A i j) k0), (keq_dec (ent B i' j) k0); tauto.
Qed.

(** ** The sector operator. *)
Section Sector.
  Variables (N : nat) (p : cmat) (g : R).
  Hypothesis Hr : nrow p = N.
  Hypothesis Hc : ncol p = N.
  Hypothesis Hg : 0 < g.
  Hypothesis Hherm : forall i j, (i < N)%nat -> (j < N)%nat -> ent p i j = conj (ent p j i).
  Hypothesis Hidem : forall i j, (i < N)%nat -> (j < N)%nat ->
    ksum N (fun k => ent p i k *c ent p k j) = real g *c ent p i j.
  Hypothesis Hlarge : forall i j, (i < N)%nat -> (j < N)%nat -> ent p i j <> c0 -> noise <= modulus (ent p i j).

  Lemma noise_pos : 0 < noise.
  Proof. unfold noise. apply Rinv_0_lt_compat, pow_lt. lra. Qed.

  Lemma cleaned_ent i j : (i < N)%nat -> (j < N)%nat -> ent (cleaned p) i j = ent p i j.
  Proof.
    intros Hi Hj. cbn [cleaned ent]. unfold rlt_b.
    destruct (Rlt_dec (modulus (ent p i j)) noise) as [H|H]; [|reflexivity].
    destruct (cr_eq_dec (ent p i j) c0) as [E|E]; [symmetry; exact E|].
    specialize (Hlarge i j Hi Hj E). lra.
  Qed.

  Lemma gram i j : (i < N)%nat -> (j < N)%nat ->
    ksum N (fun k => ent p i k *c conj (ent p j k)) = real g *c ent p i j.
  Proof.
    intros Hi Hj. rewrite <- Hidem by assumption. apply ksum_ext. intros k Hk.
    rewrite <- Hherm by assumption. reflexivity.
  Qed.

  Lemma row_weight i : (i < N)%nat -> real (rsum N (fun k => nsq (ent p i k))) = real g *c ent p i i.
  Proof.
    intros Hi. rewrite <- gram by assumption. rewrite <- ksum_real. apply ksum_ext. intros k _.
    rewrite mul_conj. reflexivity.
  Qed.

  Definition weight (i : nat) : R := fst (ent p i i).

  Lemma diag_real i : (i < N)%nat -> ent p i i = real (weight i).
  Proof.
    intros Hi. pose proof (Hherm i i Hi Hi) as H. unfold weight, real. destruct (ent p i i) as [a b]. cbn in *.
    unfold cr_conj in H; cbn in H. injection H as H. f_equal. lra.
  Qed.

  Lemma weight_rsum i : (i < N)%nat -> rsum N (fun k => nsq (ent p i k)) = g * weight i.
  Proof.
    intros Hi. apply real_inj. rewrite row_weight, real_mul, diag_real by assumption. reflexivity.
  Qed.

  Lemma weight_pos i : (i < N)%nat -> ~ zero_row p i -> 0 < weight i.
  Proof.
    intros Hi Hz. assert (0 <= rsum N (fun k => nsq (ent p i k))) by (apply rsum_ge; intros; apply nsq_ge).
    pose proof (weight_rsum i Hi) as E. destruct (Req_dec (weight i) 0) as [E0|E0]; [|nra].
    exfalso. apply Hz. intros j Hj. rewrite Hc in Hj. apply nsq_0.
    apply (rsum_0 N (fun k => nsq (ent p i k))); [intros; apply nsq_ge| |assumption]. rewrite E, E0. ring.
  Qed.

  Lemma row_nonzero i j : (i < N)%nat -> (j < N)%nat -> ent p i j <> c0 -> ~ zero_row p i /\ ~ zero_row p j.
  Proof.
    intros Hi Hj H. split; intros Z.
    - apply H, Z. congruence.
    - apply H. rewrite Hherm by assumption. rewrite (Z i) by congruence. apply kconj_0.
  Qed.

  (** *** One representative per set of proportional rows. *)
  Section Rank1.
    Hypothesis Hprop : forall i k, (i < N)%nat -> (k < N)%nat -> ent p i k <> c0 ->
      exists u, forall j, (j < N)%nat -> ent p i j = u *c ent p k j.

    Lemma same_support i k : (i < N)%nat -> (k < N)%nat -> ent p i k <> c0 ->
      forall j, (j < N)%nat -> (ent p i j = c0 <-> ent p k j = c0).
    Proof.
      intros Hi Hk H. destruct (Hprop i k Hi Hk H) as (u & Hu).
      assert (Hu0 : u <> c0).
      { intros ->. apply H. rewrite (Hu k Hk). ring. }
      intros j Hj. rewrite (Hu j Hj). split; [intros E|intros ->; ring].
      apply mul_0 in E as [E|E]; [contradiction|assumption].
    Qed.

    Lemma same_first i k : (i < N)%nat -> (k < N)%nat -> ent p i k <> c0 -> first_col p i = first_col p k.
    Proof.
      intros Hi Hk H. unfold first_col. f_equal. apply row_cols_ext; [reflexivity|].
      rewrite Hc. apply same_support; assumption.
    Qed.

    (** A list of rows, one for each first non-zero column. *)
    Variable l : list nat.
    Hypothesis Hl : forall r, In r l -> (r < N)%nat /\ ~ zero_row p r.
    Hypothesis Hdist : NoDup (map (first_col p) l).
    Hypothesis Hall : forall i, (i < N)%nat -> ~ zero_row p i -> exists r, In r l /\ first_col p r = first_col p i.

    Definition basis : cmat :=
      Mat (length l) N (fun a j => real (/ sqrt (g * weight (nth a l O))) *c ent p (nth a l O) j).

    Lemma nth_l a : (a < length l)%nat -> (nth a l O < N)%nat /\ ~ zero_row p (nth a l O).
    Proof. intros Ha. apply Hl, nth_In. assumption. Qed.

    Lemma scale_pos a : (a < length l)%nat -> 0 < sqrt (g * weight (nth a l O)).
    Proof.
      intros Ha. destruct (nth_l a Ha) as (H1 & H2). apply sqrt_lt_R0. apply Rmult_lt_0_compat; [assumption|].
      apply weight_pos; assumption.
    Qed.

    Lemma basis_orthonormal : meq (mmul basis (madj basis)) (meye (length l)).
    Proof.
      split; [reflexivity|]. split; [reflexivity|]. cbn [mmul madj basis nrow ncol ent meye].
      intros a b Ha Hb. destruct (nth_l a Ha) as (Ha1 & Ha2). destruct (nth_l b Hb) as (Hb1 & Hb2).
      set (sa := / sqrt (g * weight (nth a l O))). set (sb := / sqrt (g * weight (nth b l O))).
      transitivity (real sa *c real sb *c (real g *c ent p (nth a l O) (nth b l O))).
      { rewrite <- gram by assumption. rewrite <- ksum_mul_l. apply ksum_ext. intros k _.
        rewrite kconj_mul, real_conj. ring. }
      destruct (Nat.eqb_spec a b) as [<-|Hne]; cbn [kb].
      - rewrite diag_real by assumption. rewrite <- !real_mul, <- real_1. f_equal.
        pose proof (scale_pos a Ha) as Hs. subst sa sb.
        assert (Hsq : sqrt (g * weight (nth a l O)) * sqrt (g * weight (nth a l O)) = g * weight (nth a l O)).
        { apply sqrt_sqrt. apply Rlt_le, Rmult_lt_0_compat; [assumption|apply weight_pos; assumption]. }
        set (q := sqrt (g * weight (nth a l O))) in *. clearbody q.
        transitivity (/ q * / q * (q * q)); [rewrite Hsq; ring|]. field. lra.
      - destruct (cr_eq_dec (ent p (nth a l O) (nth b l O)) c0) as [E|E].
        + change (0, 0) with c0 in E. rewrite E. ring.
        + exfalso. apply Hne. apply (NoDup_nth (map (first_col p) l) O); rewrite ?map_length; auto.
          rewrite !(nth_indep (map (first_col p) l) O (first_col p O)) by (rewrite map_length; assumption).
          rewrite !map_nth. apply same_first; assumption.
    Qed.

    Lemma basis_complete : meq (mmul (madj basis) basis) (mscale (real (/ g)) p).
    Proof.
      split; [cbn; congruence|]. split; [cbn; congruence|]. cbn [mmul madj basis nrow ncol ent mscale].
      intros j k Hj Hk.
      assert (Term : forall a, (a < length l)%nat ->
        conj (real (/ sqrt (g * weight (nth a l O))) *c ent p (nth a l O) j) *c
          (real (/ sqrt (g * weight (nth a l O))) *c ent p (nth a l O) k) =
        real (/ (g * weight (nth a l O))) *c (ent p j (nth a l O) *c ent p (nth a l O) k)).
      { intros a Ha. destruct (nth_l a Ha) as (H1 & H2). rewrite kconj_mul, real_conj.
        rewrite (Hherm j (nth a l O)) by assumption.
        transitivity (real (/ sqrt (g * weight (nth a l O))) *c real (/ sqrt (g * weight (nth a l O))) *c
                       (conj ent p (nth a l 0%nat) j *c ent p (nth a l 0%nat) k)); [ring|].
        f_equal. rewrite <- real_mul. f_equal. rewrite <- Rinv_mult. f_equal.
        apply sqrt_sqrt. apply Rlt_le, Rmult_lt_0_compat; [assumption|apply weight_pos; assumption]. }
      destruct (row_cols p j) as [|j0 t0] eqn:Ez.
      - apply row_cols_nil in Ez. change k0 with c0.
        rewrite (Ez k) by congruence. replace (real (/ g) *c c0) with c0 by ring.
        apply ksum_zero. intros a Ha. rewrite Term by assumption. destruct (nth_l a Ha) as (H1 & _).
        rewrite (Ez (nth a l O)) by congruence. ring.
      - assert (Hz : ~ zero_row p j) by (rewrite <- row_cols_nil, Ez; discriminate). clear Ez j0 t0.
        destruct (Hall j Hj Hz) as (r & Hrl & Hrf). destruct (In_nth l r O Hrl) as (a0 & Ha0 & Ea0).
        destruct (Hl r Hrl) as (Hrn & Hrz).
        assert (Huniq : forall a, (a < length l)%nat -> ent p j (nth a l O) <> c0 -> a = a0).
        { intros a Ha Hne. destruct (nth_l a Ha) as (H1 & H2).
          apply (NoDup_nth (map (first_col p) l) O); rewrite ?map_length; auto.
          rewrite !(nth_indep (map (first_col p) l) O (first_col p O)) by (rewrite map_length; assumption).
          rewrite !map_nth, Ea0, Hrf. symmetry. apply same_first; assumption. }
        rewrite (ksum_single (length l) a0).
        2:{ assumption. }
        2:{ intros a Ha Hne. rewrite Term by assumption.
            destruct (cr_eq_dec (ent p j (nth a l O)) c0) as [E|E].
            - change (0, 0) with c0 in E. rewrite E. ring.
            - exfalso. apply Hne, Huniq; assumption. }
        rewrite Term by assumption. rewrite Ea0.
        (* row j is a multiple of row r *)
        assert (Hf : ent p j (first_col p r) <> c0 /\ ent p r (first_col p r) <> c0 /\ (first_col p r < N)%nat).
        { destruct (first_col_ok p j Hz) as (F1 & F2). destruct (first_col_ok p r Hrz) as (G1 & G2).
          rewrite Hrf in *. rewrite Hc in F1. auto. }
        destruct Hf as (F1 & F2 & F3). set (f := first_col p r) in *.
        destruct (Hprop j f Hj F3 F1) as (u & Hu). destruct (Hprop r f Hrn F3 F2) as (v & Hv).
        assert (Hv0 : v <> c0).
        { intros ->. apply F2. rewrite (Hv f F3). ring. }
        assert (Hgw : 0 < g * weight r) by (apply Rmult_lt_0_compat; [assumption|apply weight_pos; assumption]).
        apply (mul_cancel v _ _ Hv0). apply (mul_cancel (real (g * weight r))).
        { intros E. apply (f_equal fst) in E. cbn in E. lra. }
        assert (Hw : real (weight r) = v *c ent p f r) by (rewrite <- diag_real by assumption; apply Hv; assumption).
        rewrite (Hu r Hrn), (Hu k Hk), (Hv k Hk).
        transitivity (real (/ (g * weight r)) *c real (g * weight r) *c (v *c (u *c ent p f r *c (v *c ent p f k)))); [ring|].
        rewrite real_inv by lra.
        transitivity (u *c ent p f k *c v *c (v *c ent p f r)); [ring|]. rewrite <- Hw.
        rewrite real_mul.
        transitivity (real (/ g) *c real g *c (u *c ent p f k *c v *c real (weight r))); [|ring].
        rewrite real_inv by lra. ring.
    Qed.
  End Rank1.

  (** The rows the code picks. *)
  Definition kept : list nat := rows_noz (cleaned p).
  Definition kept_rows : cmat := take_rows (cleaned p) kept.

  Lemma cleaned_zero_row i : (i < N)%nat -> (zero_row (cleaned p) i <-> zero_row p i).
  Proof.
    intros Hi. unfold zero_row. cbn [cleaned ncol]. split; intros H j Hj.
    - rewrite <- cleaned_ent by congruence. auto.
    - rewrite cleaned_ent by congruence. auto.
  Qed.

  Lemma kept_In i : In i kept <-> (i < N)%nat /\ ~ zero_row p i.
  Proof.
    unfold kept. rewrite rows_noz_In. cbn [cleaned nrow]. rewrite Hr.
    split; intros (H1 & H2); split; auto; rewrite ?cleaned_zero_row in *; auto.
  Qed.

  Lemma nth_kept a : (a < length kept)%nat -> (nth a kept O < N)%nat /\ ~ zero_row p (nth a kept O).
  Proof. intros Ha. apply kept_In, nth_In. assumption. Qed.

  Lemma kept_rows_ent a j : (a < length kept)%nat -> (j < N)%nat -> ent kept_rows a j = ent p (nth a kept O) j.
  Proof. intros Ha Hj. cbn [kept_rows take_rows ent]. apply cleaned_ent; [apply nth_kept|]; assumption. Qed.

  Lemma kept_first a : (a < length kept)%nat -> first_col kept_rows a = first_col p (nth a kept O).
  Proof.
    intros Ha. unfold first_col. f_equal. apply row_cols_ext; [reflexivity|]. intros j Hj.
    change (j < ncol p)%nat in Hj. rewrite kept_rows_ent by congruence. reflexivity.
  Qed.

  Definition keys : list nat := map (first_col kept_rows) (seq 0 (length kept)).
  Definition picked : list nat :=
    map (fun v => nth (first_pos v keys) kept O) (unique_nats keys).

  Lemma keys_nth a : (a < length kept)%nat -> nth a keys O = first_col p (nth a kept O).
  Proof.
    intros Ha. unfold keys. rewrite (nth_indep (map _ _) O (first_col kept_rows O)) by (rewrite map_length, seq_length; assumption).
    rewrite map_nth, seq_nth by assumption. apply kept_first. assumption.
  Qed.

  Lemma keys_length : length keys = length kept.
  Proof. unfold keys. rewrite map_length, seq_length. reflexivity. Qed.

  Lemma picked_first v : In v keys -> let r := nth (first_pos v keys) kept O in
    In r kept /\ first_col p r = v.
  Proof.
    intros Hv. destruct (first_pos_In v keys Hv) as (H1 & H2). rewrite keys_length in H1.
    cbv zeta. split; [apply nth_In; assumption|]. rewrite <- (keys_nth _ H1). exact H2.
  Qed.

  Lemma map_first_picked : map (first_col p) picked = unique_nats keys.
  Proof.
    unfold picked. rewrite map_map. rewrite <- (map_id (unique_nats keys)) at 2. apply map_ext_in.
    intros v Hv. apply (proj2 (picked_first v (proj1 (unique_nats_In v keys) Hv))).
  Qed.

  Lemma picked_ok r : In r picked -> (r < N)%nat /\ ~ zero_row p r.
  Proof.
    unfold picked. rewrite in_map_iff. intros (v & <- & Hv). apply (proj1 (unique_nats_In v keys)) in Hv.
    apply kept_In. apply (proj1 (picked_first v Hv)).
  Qed.

  Lemma picked_all i : (i < N)%nat -> ~ zero_row p i -> exists r, In r picked /\ first_col p r = first_col p i.
  Proof.
    intros Hi Hz. assert (Hk : In i kept) by (apply kept_In; auto).
    destruct (In_nth _ _ O Hk) as (a & Ha & Ea).
    assert (Hv : In (first_col p i) keys).
    { rewrite <- Ea, <- (keys_nth a Ha). apply nth_In. rewrite keys_length. assumption. }
    exists (nth (first_pos (first_col p i) keys) kept O). split; [|apply (proj2 (picked_first _ Hv))].
    unfold picked. apply in_map_iff. exists (first_col p i). split; [reflexivity|]. apply unique_nats_In. assumption.
  Qed.

  Lemma reduce_one_basis svd rel :
    nrow (reduce_projector svd p (1, 0) rel) = length picked /\
    ncol (reduce_projector svd p (1, 0) rel) = N /\
    forall a j, (a < length picked)%nat -> (j < N)%nat ->
      ent (reduce_projector svd p (1, 0) rel) a j = ent (basis picked) a j.
  Proof.
    unfold reduce_projector. destruct (cr_eq_dec (1, 0) (1, 0)) as [_|E]; [|congruence].
    fold kept. fold kept_rows. cbn [normalised nrow ncol ent].
    assert (Hrow : forall a, (a < length picked)%nat ->
      (nth a (map (fun v => first_pos v keys) (unique_nats keys)) O < length kept)%nat /\
      nth (nth a (map (fun v => first_pos v keys) (unique_nats keys)) O) kept O = nth a picked O).
    { intros a Ha. unfold picked in *. rewrite map_length in Ha.
      rewrite (nth_indep (map (fun v => first_pos v keys) _) O (first_pos O keys)) by (rewrite map_length; assumption).
      rewrite (nth_indep (map (fun v => nth (first_pos v keys) kept O) _) O (nth (first_pos O keys) kept O)) by (rewrite map_length; assumption).
      rewrite (map_nth (fun v => first_pos v keys)), (map_nth (fun v => nth (first_pos v keys) kept O)).
      split; [|reflexivity]. rewrite <- keys_length. apply first_pos_In. apply unique_nats_In. apply nth_In. assumption. }
    assert (Hent : forall a j, (a < length picked)%nat -> (j < N)%nat ->
      ent (reduce_one kept_rows) a j = ent p (nth a picked O) j).
    { intros a j Ha Hj. destruct (Hrow a Ha) as (H1 & H2).
      change (ent (reduce_one kept_rows) a j) with
        (ent kept_rows (nth a (map (fun v => first_pos v keys) (unique_nats keys)) O) j).
      rewrite kept_rows_ent by assumption. rewrite H2. reflexivity. }
    assert (Hnr : nrow (reduce_one kept_rows) = length picked).
    { unfold picked. rewrite map_length. change (nrow (reduce_one kept_rows)) with
        (length (map (fun v => first_pos v keys) (unique_nats keys))). apply map_length. }
    split; [exact Hnr|]. split; [cbn; exact Hc|].
    intros a j Ha Hj. change (cr_mul ?x ?y) with (x *c y). cbn [basis ent]. rewrite Hent by assumption. f_equal. do 2 f_equal.
    unfold row_norm. f_equal.
    assert (Hpa : (nth a picked O < N)%nat) by (apply picked_ok, nth_In; assumption).
    rewrite <- weight_rsum by assumption.
    replace (ncol (reduce_one kept_rows)) with N by (symmetry; exact Hc).
    erewrite ksum_ext.
    2:{ intros k Hk. rewrite Hent by assumption. change (cr_mul ?x (cr_conj ?y)) with (x *c conj y). apply mul_conj. }
    rewrite (ksum_real N (fun k => nsq (ent p (nth a picked O) k))). reflexivity.
  Qed.
End Sector.

(** What a reduced projector is: an orthonormal basis (the rows of [B]) of the
    range of [p / g]. *)
Definition sector (N : nat) (p : cmat) (g : R) (B : cmat) : Prop :=
  ncol B = N /\ meq (mmul B (madj B)) (meye (nrow B)) /\ meq (mmul (madj B) B) (mscale (real (/ g)) p).

Lemma reduce_one_sector N p g svd rel :
  nrow p = N -> ncol p = N -> 0 < g ->
  (forall i j, (i < N)%nat -> (j < N)%nat -> ent p i j = conj (ent p j i)) ->
  (forall i j, (i < N)%nat -> (j < N)%nat -> ksum N (fun k => ent p i k *c ent p k j) = real g *c ent p i j) ->
  (forall i j, (i < N)%nat -> (j < N)%nat -> ent p i j <> c0 -> noise <= modulus (ent p i j)) ->
  (forall i k, (i < N)%nat -> (k < N)%nat -> ent p i k <> c0 ->
     exists u, forall j, (j < N)%nat -> ent p i j = u *c ent p k j) ->
  sector N p g (reduce_projector svd p (1, 0) rel).
Proof.
  intros Hr Hc Hg Hh Hi Hl Hp.
  destruct (reduce_one_basis N p g Hr Hc Hh Hi Hl svd rel) as (E1 & E2 & E3).
  set (B := reduce_projector svd p (1, 0) rel) in *. clearbody B.
  pose proof (basis_orthonormal N p g Hc Hg Hh Hi Hp (picked p)) as (_ & _ & O3).
  { intros r. apply (picked_ok N p Hr Hc Hl). }
  { rewrite (map_first_picked N p Hr Hc Hl). apply increasing_NoDup, unique_nats_increasing. }
  pose proof (basis_complete N p g Hr Hc Hg Hh Hi Hp (picked p)) as (_ & _ & C3).
  { intros r. apply (picked_ok N p Hr Hc Hl). }
  { rewrite (map_first_picked N p Hr Hc Hl). apply increasing_NoDup, unique_nats_increasing. }
  { apply (picked_all N p Hr Hc Hl). }
  split; [exact E2|]. split.
  - split; [reflexivity|]. split; [reflexivity|]. rewrite E1.
    cbn [mmul madj nrow ncol ent]. intros a b Ha Hb. rewrite E1 in *. rewrite E2.
    rewrite <- O3 by (cbn; assumption). cbn [mmul madj nrow ncol ent].
    apply ksum_ext. intros k Hk. rewrite !E3 by assumption. reflexivity.
  - split; [transitivity N; [exact E2|symmetry; exact Hr]|]. split; [transitivity N; [exact E2|symmetry; exact Hc]|].
    cbn [mmul madj nrow ncol ent]. rewrite E2, E1. intros a b Ha Hb.
    rewrite <- C3 by (cbn; assumption). cbn [mmul madj nrow ncol ent].
    apply ksum_ext. intros k Hk. rewrite !E3 by assumption. reflexivity.
Qed.

