(** Group algebra of a finite group acting by matrices which move basis states
    up to phases. *)
From Coq Require Import List Arith Lia Reals Lra Bool Ring Setoid Morphisms Permutation.
From Verif Require Import Scalars Sums Res Matrix SpecMat ModelPhase ModelSymmetry SpecSymmetry SymBase SymReduce SymMany SymGroup.
Import ListNotations.
Local Open Scope R_scope.

(** A group with elements [0 .. m-1], [0] being the identity. *)
Record grp (m : nat) (mu : nat -> nat -> nat) (inv : nat -> nat) : Prop := {
  grp_pos : (0 < m)%nat;
  mu_lt : forall a b, (a < m)%nat -> (b < m)%nat -> (mu a b < m)%nat;
  inv_lt : forall a, (a < m)%nat -> (inv a < m)%nat;
  inv_inv : forall a, (a < m)%nat -> inv (inv a) = a;
  mu_inv_l : forall a b, (a < m)%nat -> (b < m)%nat -> mu (inv a) (mu a b) = b;
  mu_inv_r : forall a, (a < m)%nat -> mu a (inv a) = O }.

Record rep (N m : nat) (mu : nat -> nat -> nat) (inv : nat -> nat) (rho : nat -> cmat) : Prop := {
  rep_grp : grp m mu inv;
  rep_sq : forall e, (e < m)%nat -> square N (rho e);
  rep_one : meq (rho O) (meye N);
  rep_mul : forall a b, (a < m)%nat -> (b < m)%nat -> meq (mmul (rho a) (rho b)) (rho (mu a b));
  rep_adj : forall a, (a < m)%nat -> meq (madj (rho a)) (rho (inv a));
  rep_mono : forall e i j k, (e < m)%nat -> (i < N)%nat -> (j < N)%nat -> (k < N)%nat ->
    ent (rho e) i j <> c0 -> ent (rho e) i k <> c0 -> j = k }.

Section Rep.
  Variables (N m : nat) (mu : nat -> nat -> nat) (inv : nat -> nat) (rho : nat -> cmat).
  Hypothesis HR : rep N m mu inv rho.
  Let HG := rep_grp _ _ _ _ _ HR.

  Notation r e i j := (ent (rho e) i j).
  Definition comb (x : nat -> CR) (i j : nat) : CR := ksum m (fun e => x e *c r e i j).
  Definition conv (x y : nat -> CR) (t : nat) : CR := ksum m (fun e => x e *c y (mu (inv e) t)).

  Lemma r_one i j : (i < N)%nat -> (j < N)%nat -> r 0%nat i j = kb (i =? j)%nat.
  Proof.
    intros Hi Hj. destruct (rep_one _ _ _ _ _ HR) as (H1 & H2 & H3). rewrite H3; [reflexivity| |]; rewrite ?H1, ?H2; assumption.
  Qed.
  Lemma r_mul a b i j : (a < m)%nat -> (b < m)%nat -> (i < N)%nat -> (j < N)%nat ->
    ksum N (fun k => r a i k *c r b k j) = r (mu a b) i j.
  Proof.
    intros Ha Hb Hi Hj. destruct (rep_mul _ _ _ _ _ HR a b Ha Hb) as (_ & _ & H).
    destruct (rep_sq _ _ _ _ _ HR a Ha) as (A1 & A2). destruct (rep_sq _ _ _ _ _ HR b Hb) as (B1 & B2).
    specialize (H i j). cbn [mmul ent nrow ncol] in H. rewrite A1, A2, B2 in H. apply H; assumption.
  Qed.
  Lemma r_adj a i j : (a < m)%nat -> (i < N)%nat -> (j < N)%nat -> conj (r a j i) = r (inv a) i j.
  Proof.
    intros Ha Hi Hj. destruct (rep_adj _ _ _ _ _ HR a Ha) as (_ & _ & H). destruct (rep_sq _ _ _ _ _ HR a Ha) as (A1 & A2).
    specialize (H i j). cbn [madj ent nrow ncol] in H. rewrite A1, A2 in H. apply H; assumption.
  Qed.
  Lemma r_mono e i j k : (e < m)%nat -> (i < N)%nat -> (j < N)%nat -> (k < N)%nat -> r e i j <> c0 -> j <> k -> r e i k = c0.
  Proof.
    intros He Hi Hj Hk H Hne. destruct (cr_eq_dec (r e i k) c0) as [E|E]; [exact E|]. exfalso. apply Hne.
    apply (rep_mono _ _ _ _ _ HR e i j k); assumption.
  Qed.

  (** Row [i] of [rho e] picks out row [j]. *)
  Lemma r_pick e i j (F : nat -> CR) : (e < m)%nat -> (i < N)%nat -> (j < N)%nat -> r e i j <> c0 ->
    ksum N (fun k => r e i k *c F k) = r e i j *c F j.
  Proof.
    intros He Hi Hj H. rewrite (ksum_single N j); [reflexivity|assumption|]. intros k Hk Hne.
    rewrite (r_mono e i j k) by auto. ring.
  Qed.

  Lemma r_unit e i j : (e < m)%nat -> (i < N)%nat -> (j < N)%nat -> r e i j <> c0 -> nsq (r e i j) = 1.
  Proof.
    intros He Hi Hj H. pose proof (r_mul e (inv e) i i He (inv_lt _ _ _ HG e He) Hi Hi) as E.
    rewrite (mu_inv_r _ _ _ HG e He), r_one, Nat.eqb_refl in E by assumption.
    rewrite (r_pick e i j (fun k => r (inv e) k i)) in E by assumption.
    rewrite <- r_adj in E by assumption. rewrite mul_conj in E. apply real_inj. rewrite E. reflexivity.
  Qed.

  Lemma inv_bij (f : nat -> CR) : ksum m (fun e => f (inv e)) = ksum m f.
  Proof.
    apply ksum_reindex; [apply (inv_lt _ _ _ HG)|]. intros i j Hi Hj E.
    rewrite <- (inv_inv _ _ _ HG i Hi), <- (inv_inv _ _ _ HG j Hj), E. reflexivity.
  Qed.
  Lemma mu_bij h (f : nat -> CR) : (h < m)%nat -> ksum m (fun e => f (mu h e)) = ksum m f.
  Proof.
    intros Hh. apply ksum_reindex; [intros; apply (mu_lt _ _ _ HG); assumption|]. intros i j Hi Hj E.
    rewrite <- (mu_inv_l _ _ _ HG h i), <- (mu_inv_l _ _ _ HG h j) by assumption. rewrite E. reflexivity.
  Qed.

  Lemma comb_herm x : (forall e, (e < m)%nat -> x (inv e) = conj (x e)) ->
    forall i j, (i < N)%nat -> (j < N)%nat -> comb x i j = conj (comb x j i).
  Proof.
    intros Hx i j Hi Hj. unfold comb. rewrite ksum_conj. rewrite <- inv_bij. apply ksum_ext. intros e He.
    rewrite kconj_mul, <- Hx by assumption. rewrite r_adj by assumption. reflexivity.
  Qed.

  Lemma r_comb h x i j : (h < m)%nat -> (i < N)%nat -> (j < N)%nat ->
    ksum N (fun k => r h i k *c comb x k j) = comb (fun t => x (mu (inv h) t)) i j.
  Proof.
    intros Hh Hi Hj. unfold comb.
    transitivity (ksum m (fun e => x e *c r (mu h e) i j)).
    - rewrite (ksum_ext N _ (fun k => ksum m (fun e => x e *c (r h i k *c r e k j)))).
      2:{ intros k _. rewrite <- ksum_mul_l. apply ksum_ext. intros; ring. }
      rewrite ksum_swap. apply ksum_ext. intros e He. rewrite ksum_mul_l, r_mul by assumption. reflexivity.
    - rewrite <- (mu_bij h (fun t => x (mu (inv h) t) *c r t i j) Hh). apply ksum_ext. intros e He.
      rewrite (mu_inv_l _ _ _ HG) by assumption. reflexivity.
  Qed.

  Lemma comb_mul x y i j : (i < N)%nat -> (j < N)%nat ->
    ksum N (fun k => comb x i k *c comb y k j) = comb (conv x y) i j.
  Proof.
    intros Hi Hj.
    transitivity (ksum m (fun e => x e *c comb (fun t => y (mu (inv e) t)) i j)).
    - transitivity (ksum N (fun k => ksum m (fun e => x e *c (r e i k *c comb y k j)))).
      { apply ksum_ext. intros k _. unfold comb at 1. rewrite <- ksum_mul_r. apply ksum_ext. intros; ring. }
      rewrite ksum_swap. apply ksum_ext. intros e He. rewrite ksum_mul_l, r_comb by assumption. reflexivity.
    - unfold comb, conv.
      transitivity (ksum m (fun e => ksum m (fun t => x e *c (y (mu (inv e) t) *c r t i j)))).
      { apply ksum_ext. intros e _. rewrite ksum_mul_l. reflexivity. }
      rewrite ksum_swap. apply ksum_ext. intros t _. rewrite <- ksum_mul_r. apply ksum_ext. intros; ring.
  Qed.

  Lemma comb_ext x y i j : (forall e, (e < m)%nat -> x e = y e) -> comb x i j = comb y i j.
  Proof. intros H. apply ksum_ext. intros e He. rewrite H by assumption. reflexivity. Qed.
  Lemma comb_scale c x i j : comb (fun e => c *c x e) i j = c *c comb x i j.
  Proof. unfold comb. rewrite <- ksum_mul_l. apply ksum_ext. intros; ring. Qed.
  Lemma comb_zero i j : comb (fun _ => c0) i j = c0.
  Proof. apply ksum_zero. intros; ring. Qed.
  Lemma comb_delta i j : (i < N)%nat -> (j < N)%nat -> comb (fun e => kb (e =? 0)%nat) i j = kb (i =? j)%nat.
  Proof.
    intros Hi Hj. unfold comb. rewrite (ksum_single m O); [|apply (grp_pos _ _ _ HG)|].
    - rewrite r_one by assumption. cbn [Nat.eqb]. unfold kb at 1. ring.
    - intros e _ Hne. destruct e; [congruence|]. cbn [Nat.eqb]. unfold kb. ring.
  Qed.

  (** *** Orbits. *)
  Definition linked (i j : nat) : Prop := exists e, (e < m)%nat /\ r e i j <> c0.

  Lemma comb_linked x i j : comb x i j <> c0 -> linked i j.
  Proof.
    intros H. destruct (existsb (fun e => kneb (r e i j) c0) (seq 0 m)) eqn:E.
    - apply existsb_exists in E as (e & He & E). apply in_seq in He. apply kneb_true in E. exists e. split; [lia|exact E].
    - exfalso. apply H. apply ksum_zero. intros e He.
      assert (F : kneb (r e i j) c0 = false).
      { destruct (kneb (r e i j) c0) eqn:F; [|reflexivity]. rewrite <- E. symmetry. apply existsb_exists.
        exists e. split; [apply in_seq; lia|exact F]. }
      unfold kneb in F. destruct (keq_dec (r e i j) c0) as [G|G]; [|discriminate]. rewrite G. ring.
  Qed.
  Lemma linked_refl i : (i < N)%nat -> linked i i.
  Proof.
    intros Hi. exists O. split; [apply (grp_pos _ _ _ HG)|]. rewrite r_one, Nat.eqb_refl by assumption. apply c1_neq_0.
  Qed.
  Lemma linked_sym i j : (i < N)%nat -> (j < N)%nat -> linked i j -> linked j i.
  Proof.
    intros Hi Hj (e & He & H). exists (inv e). split; [apply (inv_lt _ _ _ HG); assumption|].
    rewrite <- r_adj by assumption. intros E. apply H. rewrite <- (kconj_inv (r e i j)), E. apply kconj_0.
  Qed.
  Lemma linked_trans i j k : (i < N)%nat -> (j < N)%nat -> (k < N)%nat -> linked i j -> linked j k -> linked i k.
  Proof.
    intros Hi Hj Hk (e & He & H) (f & Hf & G). exists (mu e f). split; [apply (mu_lt _ _ _ HG); assumption|].
    rewrite <- r_mul by assumption. rewrite (r_pick e i j (fun l => r f l k)) by assumption.
    intros E. apply mul_0 in E. tauto.
  Qed.

  (** *** One-dimensional characters. *)
  Definition one_dim (x : nat -> CR) : Prop :=
    forall h, (h < m)%nat -> exists z, nsq z = 1 /\ forall t, (t < m)%nat -> x (mu (inv h) t) = z *c x t.

  Section OneDim.
    Variable x : nat -> CR.
    Hypothesis Hone : one_dim x.

    Lemma comb_acts h : (h < m)%nat -> exists z, nsq z = 1 /\ forall i j, (i < N)%nat -> (j < N)%nat ->
      ksum N (fun k => r h i k *c comb x k j) = z *c comb x i j.
    Proof.
      intros Hh. destruct (Hone h Hh) as (z & Hz & H). exists z. split; [assumption|]. intros i j Hi Hj.
      rewrite r_comb by assumption. rewrite <- comb_scale. apply comb_ext. assumption.
    Qed.

    Lemma comb_prop i k : (i < N)%nat -> (k < N)%nat -> linked i k ->
      exists u, nsq u = 1 /\ forall j, (j < N)%nat -> comb x i j = u *c comb x k j.
    Proof.
      intros Hi Hk (e & He & Hne). destruct (comb_acts e He) as (z & Hz & H).
      exists (conj z *c r e i k). split.
      - rewrite nsq_mul, nsq_conj, Hz, r_unit by assumption. ring.
      - intros j Hj. specialize (H i j Hi Hj).
        rewrite (r_pick e i k (fun l => comb x l j)) in H by assumption.
        transitivity (conj z *c (z *c comb x i j)); [|rewrite <- H; ring].
        transitivity (conj z *c z *c comb x i j); [|ring]. rewrite conj_mul_self, Hz, real_1. ring.
    Qed.

    Hypothesis Hherm : forall e, (e < m)%nat -> x (inv e) = conj (x e).
    Hypothesis Hidem : forall t, (t < m)%nat -> conv x x t = real (INR m) *c x t.

    Lemma comb_large i j : (i < N)%nat -> (j < N)%nat -> comb x i j <> c0 -> 1 <= modulus (comb x i j).
    Proof.
      intros Hi Hj Hne.
      assert (Hsame : forall k, (k < N)%nat -> comb x i k <> c0 -> nsq (comb x i k) = nsq (comb x i i)).
      { intros k Hk Hk0. destruct (comb_prop i k Hi Hk (comb_linked x i k Hk0)) as (u & Hu & H).
        rewrite (H i Hi), nsq_mul, Hu. rewrite (comb_herm x Hherm i k) by assumption. rewrite nsq_conj. ring. }
      assert (Hii : comb x i i = real (fst (comb x i i))).
      { pose proof (comb_herm x Hherm i i Hi Hi) as H. unfold real. destruct (comb x i i) as [a b]. cbn in *.
        unfold cr_conj in H; cbn in H. injection H as H. f_equal. lra. }
      set (w := fst (comb x i i)) in *.
      assert (Hww : nsq (comb x i i) = w * w) by (rewrite Hii, real_nsq; reflexivity).
      set (ind := fun k => if cr_eq_dec (comb x i k) c0 then 0 else 1).
      assert (Hgram : rsum N (fun k => nsq (comb x i k)) = INR m * w).
      { apply real_inj. rewrite <- ksum_real, real_mul, <- Hii.
        transitivity (ksum N (fun k => comb x i k *c comb x k i)).
        { apply ksum_ext. intros k Hk. rewrite (comb_herm x Hherm k i) by assumption. rewrite mul_conj. reflexivity. }
        rewrite comb_mul by assumption. rewrite <- comb_scale. apply comb_ext. assumption. }
      assert (Hs : rsum N (fun k => nsq (comb x i k)) = rsum N ind * (w * w)).
      { rewrite <- Hww. clear - Hsame. assert (H : forall n, (n <= N)%nat ->
          rsum n (fun k => nsq (comb x i k)) = rsum n ind * nsq (comb x i i)); [|apply H; lia].
        induction n as [|n IH]; intros Hn; cbn [rsum]; [ring|]. rewrite IH by lia.
        change (ind n) with (if cr_eq_dec (comb x i n) c0 then 0 else 1).
        destruct (cr_eq_dec (comb x i n) c0) as [E|E].
        - assert (E0 : nsq (comb x i n) = 0) by (apply nsq_0; exact E). rewrite E0. ring.
        - rewrite (Hsame n) by (try lia; exact E). ring. }
      assert (Hle : rsum N ind <= INR m).
      { clear - Hi HR HG. set (ie := fun e k => if cr_eq_dec (r e i k) c0 then 0 else 1).
        assert (H1 : forall n, (n <= N)%nat -> rsum n ind <= rsum n (fun k => rsum m (fun e => ie e k))).
        { induction n as [|n IH]; intros Hn; cbn [rsum]; [lra|]. specialize (IH ltac:(lia)).
          assert (ind n <= rsum m (fun e => ie e n)); [|lra].
          assert (Hp : forall q, 0 <= rsum q (fun e => ie e n)).
          { intros q. apply rsum_ge. intros e _. unfold ie. destruct (cr_eq_dec (r e i n) c0); lra. }
          unfold ind. destruct (cr_eq_dec (comb x i n) c0) as [E|E]; [apply Hp|].
          destruct (comb_linked x i n E) as (e & He & Hne).
          assert (HH : forall q, (e < q)%nat -> 1 <= rsum q (fun e => ie e n)); [|apply HH; assumption].
          induction q as [|q IHq]; intros Hq; [lia|]. cbn [rsum]. destruct (Nat.eq_dec e q) as [->|].
          - specialize (Hp q). change (ie q n) with (if cr_eq_dec (r q i n) c0 then 0 else 1). destruct (cr_eq_dec (r q i n) c0) as [F|F]; [contradiction|lra].
          - specialize (IHq ltac:(lia)). change (ie q n) with (if cr_eq_dec (r q i n) c0 then 0 else 1). destruct (cr_eq_dec (r q i n) c0); lra. }
        specialize (H1 N (le_n N)). eapply Rle_trans; [exact H1|].
        assert (Hsw : forall a b (f : nat -> nat -> R), rsum a (fun k => rsum b (fun e => f e k)) = rsum b (fun e => rsum a (fun k => f e k))).
        { intros a b f. induction a as [|a IH]; cbn [rsum].
          - induction b as [|b IHb]; cbn [rsum]; [reflexivity|]. rewrite <- IHb. ring.
          - rewrite IH. clear. induction b as [|b IHb]; cbn [rsum]; [ring|]. rewrite <- IHb. ring. }
        rewrite Hsw.
        assert (H2 : forall q, (q <= m)%nat -> rsum q (fun e => rsum N (fun k => ie e k)) <= INR q); [|apply H2; lia].
        induction q as [|q IH]; intros Hq; cbn [rsum]; [simpl; lra|]. rewrite S_INR. specialize (IH ltac:(lia)).
        assert (rsum N (fun k => ie q k) <= 1); [|lra].
        assert (H3 : forall n, (n <= N)%nat -> rsum n (fun k => ie q k) = 0 \/
          (rsum n (fun k => ie q k) = 1 /\ exists k, (k < n)%nat /\ r q i k <> c0)).
        { induction n as [|n IHn]; intros Hn; cbn [rsum]; [left; reflexivity|]. specialize (IHn ltac:(lia)).
          change (ie q n) with (if cr_eq_dec (r q i n) c0 then 0 else 1). destruct (cr_eq_dec (r q i n) c0) as [F|F].
          - destruct IHn as [->|(-> & k & Hk & Hk0)]; [left; ring|right]. split; [ring|]. exists k. split; [lia|assumption].
          - destruct IHn as [->|(-> & k & Hk & Hk0)].
            + right. split; [ring|]. exists n. split; [lia|exact F].
            + exfalso. assert (k = n); [|lia]. apply (rep_mono _ _ _ _ _ HR q i k n); auto; lia. }
        destruct (H3 N (le_n N)) as [->|(-> & _)]; lra. }
      rewrite modulus_nsq, (Hsame j) by assumption. rewrite Hww.
      assert (Hw0 : 0 < w).
      { assert (Hpos : 0 < rsum N (fun k => nsq (comb x i k))).
        { assert (0 <= rsum N (fun k => nsq (comb x i k))) by (apply rsum_ge; intros; apply nsq_ge).
          destruct (Req_dec (rsum N (fun k => nsq (comb x i k))) 0) as [E|E]; [|lra].
          exfalso. apply Hne. apply nsq_0. apply (rsum_0 N (fun k => nsq (comb x i k))); auto. intros; apply nsq_ge. }
        rewrite Hgram in Hpos. pose proof (pos_INR m). nra. }
      rewrite sqrt_square by lra.
      assert (Hsw : rsum N ind * w = INR m).
      { apply (Rmult_eq_reg_r w); [|lra]. rewrite <- Hgram, Hs. ring. }
      assert (0 < INR m) by (apply lt_0_INR, (grp_pos _ _ _ HG)).
      destruct (Rle_dec 1 w); [assumption|]. nra.
    Qed.
  End OneDim.
End Rep.
