(** Operators of single spins 1/2, and products of one matrix per site. *)
From Coq Require Import List Arith Lia Reals Lra Bool Permutation.
From Verif Require Convex.
From Verif Require Import Scalars Matrix Sums SpecMat SpecSpins Digits SpinSwap SpecPerm ModelGeometry ModelPhase ModelSymmetry SymBase SpecThermal ThermalBase ThermalBasis SpecSigns Signs SignsSpins Sectors Ladder.
Import ListNotations.
Local Open Scope R_scope.

Definition two_mul (A B : nat -> nat -> CR) (r c : nat) : CR := A r 0%nat *c B 0%nat c +c A r 1%nat *c B 1%nat c.
Definition adj2 (A : nat -> nat -> CR) (r c : nat) : CR := conj (A c r).
Definition one2 (r c : nat) : CR := if (r =? c)%nat then c1 else c0.
Definition same2 (A B : nat -> nat -> CR) : Prop := forall r c, (r < 2)%nat -> (c < 2)%nat -> A r c = B r c.
Lemma two_flip (A B : nat -> nat -> CR) r c : (r < 2)%nat -> two_mul A B r c = A r r *c B r c +c A r (1 - r)%nat *c B (1 - r)%nat c.
Proof. intros H. destruct r as [|[|r]]; [reflexivity | unfold two_mul; cbn [Nat.sub]; ring | lia]. Qed.
Lemma two_flip' (A B : nat -> nat -> CR) k r c : (k < 2)%nat -> two_mul A B r c = A r k *c B k c +c A r (1 - k)%nat *c B (1 - k)%nat c.
Proof. intros H. destruct k as [|[|k]]; [reflexivity | unfold two_mul; cbn [Nat.sub]; ring | lia]. Qed.

Section Sites.
  Variable n : nat.
  Notation D := (2 ^ n)%nat.
  Notation dg p a := (digit 2 n p a).
  Notation fl := (fl n).
  Definition st (i : nat) (A : nat -> nat -> CR) (psi : nat -> CR) (a : nat) : CR :=
    A (dg i a) (dg i a) *c psi a +c A (dg i a) (1 - dg i a)%nat *c psi (fl i a).

  Lemma bit2 i a : (dg i a < 2)%nat. Proof using. apply Nat.mod_upper_bound. discriminate. Qed.
  Lemma picked (k : nat) (c : CR) psi : (k < D)%nat -> ksum D (fun b => (if (b =? k)%nat then c else c0) *c psi b) = c *c psi k.
  Proof using.
    intros Hk. rewrite (ksum_single D k) by (exact Hk || (intros b _ N; rewrite (proj2 (Nat.eqb_neq b k) N); change k0 with c0; ring)). rewrite Nat.eqb_refl. reflexivity.
  Qed.
  Lemma fl_agree i a L : In i L -> agree_off 2 n L a (fl i a) = true.
  Proof using. intros I. apply agree_off_spec. intros p Hp N. rewrite dg_other; [reflexivity | exact Hp | intros ->; tauto]. Qed.
  Lemma fl_ne i a : (i < n)%nat -> fl i a <> a.
  Proof using. intros Hi Q. pose proof (dg_same n i a Hi) as X. rewrite Q in X. pose proof (bit2 i a). lia. Qed.
  Lemma site_split i A a b : (i < n)%nat -> (a < D)%nat -> (b < D)%nat ->
    site_elem 2 n i A a b = (if (b =? a)%nat then A (dg i a) (dg i a) else c0) +c (if (b =? fl i a)%nat then A (dg i a) (1 - dg i a)%nat else c0).
  Proof using.
    intros Hi Ha Hb. pose proof (bit2 i a) as BA. pose proof (bit2 i b) as BB. unfold site_elem. destruct (agree_off 2 n [i] a b) eqn:AG.
    - destruct (Nat.eq_dec (dg i b) (dg i a)) as [Q|Q].
      + assert (b = a) as -> by (symmetry; apply (same_state n [i] a b Ha Hb AG); intros k [<-|[]]; symmetry; exact Q).
        rewrite Nat.eqb_refl, (proj2 (Nat.eqb_neq a (fl i a))) by (intros X; apply (fl_ne i a Hi); symmetry; exact X). ring.
      + assert (b = fl i a) as ->. { rewrite agree_off_spec in AG. apply (ext n); [exact Hb | apply fl_lt|]. intros p Hp. destruct (Nat.eq_dec p i) as [->|N]; [rewrite dg_same by exact Hi; lia|]. rewrite dg_other by assumption. symmetry. apply AG; [exact Hp|]. intros [X|[]]. congruence. }
        rewrite Nat.eqb_refl, (proj2 (Nat.eqb_neq (fl i a) a) (fl_ne i a Hi)), dg_same by exact Hi. ring.
    - rewrite (proj2 (Nat.eqb_neq b a)), (proj2 (Nat.eqb_neq b (fl i a))); [ring | |].
      + intros ->. rewrite fl_agree in AG by (left; reflexivity). discriminate.
      + intros ->. assert (agree_off 2 n [i] a a = true) by (apply agree_off_spec; reflexivity). congruence.
  Qed.
  Lemma site_acts i A psi a : (i < n)%nat -> (a < D)%nat -> ksum D (fun b => site_elem 2 n i A a b *c psi b) = st i A psi a.
  Proof using.
    intros Hi Ha. unfold st. rewrite <- (picked a _ psi Ha), <- (picked (fl i a) _ psi (fl_lt n i a)), <- ksum_add. apply ksum_ext. intros b Hb. rewrite (site_split i A a b Hi Ha Hb). ring.
  Qed.
  Lemma pair_split i j A B a b : (i < n)%nat -> (j < n)%nat -> i <> j -> (a < D)%nat -> (b < D)%nat ->
    pair_elem 2 n i j A B a b = A (dg i a) (dg i a) *c site_elem 2 n j B a b +c A (dg i a) (1 - dg i a)%nat *c site_elem 2 n j B (fl i a) b.
  Proof using.
    intros Hi Hj N Ha Hb. pose proof (bit2 i a) as BA. pose proof (bit2 i b) as BB. unfold pair_elem, site_elem. rewrite (dg_other n i a j Hj) by congruence.
    destruct (Nat.eq_dec (dg i b) (dg i a)) as [Q|Q].
    - assert (agree_off 2 n [j] (fl i a) b = false) as ->. { apply not_true_is_false. intros X. rewrite agree_off_spec in X. specialize (X i Hi ltac:(intros [Y|[]]; congruence)). rewrite dg_same in X by exact Hi. lia. }
      assert (agree_off 2 n [i; j] a b = agree_off 2 n [j] a b) as ->.
      { apply eq_true_iff_eq. rewrite !agree_off_spec. split; intros X p Hp NI.
        - destruct (Nat.eq_dec p i) as [->|M]; [congruence|]. apply X; [exact Hp|]. intros [Y|[Y|[]]]; [congruence|]. apply NI. left. exact Y.
        - apply X; [exact Hp|]. intros [Y|[]]. apply NI. right. left. exact Y. }
      rewrite Q. destruct (agree_off 2 n [j] a b); change k0 with c0; ring.
    - assert (agree_off 2 n [j] a b = false) as ->. { apply not_true_is_false. intros X. rewrite agree_off_spec in X. specialize (X i Hi ltac:(intros [Y|[]]; congruence)). congruence. }
      assert (agree_off 2 n [i; j] a b = agree_off 2 n [j] (fl i a) b) as ->.
      { apply eq_true_iff_eq. rewrite !agree_off_spec. split; intros X p Hp NI.
        - destruct (Nat.eq_dec p i) as [->|M]; [rewrite dg_same by exact Hi; lia|]. rewrite dg_other by assumption. apply X; [exact Hp|]. intros [Y|[Y|[]]]; [congruence|]. apply NI. left. exact Y.
        - rewrite <- (dg_other n i a p Hp) by (intros ->; apply NI; left; reflexivity). apply X; [exact Hp|]. intros [Y|[]]. apply NI. right. left. exact Y. }
      assert (dg i b = (1 - dg i a)%nat) as -> by lia. destruct (agree_off 2 n [j] (fl i a) b); change k0 with c0; ring.
  Qed.
  Lemma pair_acts i j A B psi a : (i < n)%nat -> (j < n)%nat -> i <> j -> (a < D)%nat -> ksum D (fun b => pair_elem 2 n i j A B a b *c psi b) = st i A (st j B psi) a.
  Proof using.
    intros Hi Hj N Ha. unfold st at 1. rewrite <- (site_acts j B psi a Hj Ha), <- (site_acts j B psi (fl i a) Hj (fl_lt n i a)), <- !ksum_mul_l, <- ksum_add.
    apply ksum_ext. intros b Hb. rewrite (pair_split i j A B a b Hi Hj N Ha Hb). ring.
  Qed.

  (** Algebra of the operators of the sites. *)
  Lemma st_ext i A psi phi a : (a < D)%nat -> (forall b, (b < D)%nat -> psi b = phi b) -> st i A psi a = st i A phi a.
  Proof using. intros Ha X. unfold st. rewrite (X a Ha), (X (fl i a) (fl_lt n i a)). reflexivity. Qed.
  Lemma st_same i A B psi a : same2 A B -> st i A psi a = st i B psi a.
  Proof using. intros X. pose proof (bit2 i a). unfold st. rewrite !X by lia. reflexivity. Qed.
  Lemma st_mul i A B psi a : (i < n)%nat -> (a < D)%nat -> st i A (st i B psi) a = st i (two_mul A B) psi a.
  Proof using.
    intros Hi Ha. pose proof (bit2 i a) as BA. unfold st. rewrite (fl_fl n i a Ha Hi), (dg_same n i a Hi), !(two_flip A B) by exact BA. replace (1 - (1 - dg i a))%nat with (dg i a) by lia. ring.
  Qed.
  Lemma st_comm i j A B psi a : (i < n)%nat -> (j < n)%nat -> i <> j -> st i A (st j B psi) a = st j B (st i A psi) a.
  Proof using.
    intros Hi Hj N. unfold st. rewrite (dg_other n i a j Hj), (dg_other n j a i Hi) by congruence. rewrite (fl_comm n i j a Hi Hj N). ring.
  Qed.
  Lemma st_one i psi a : st i one2 psi a = psi a.
  Proof using. unfold st, one2. rewrite Nat.eqb_refl, (proj2 (Nat.eqb_neq _ _)) by (pose proof (bit2 i a); lia). ring. Qed.
  Lemma st_sum i A m (f : nat -> nat -> CR) (w : nat -> CR) a : st i A (fun b => ksum m (fun k => w k *c f k b)) a = ksum m (fun k => w k *c st i A (f k) a).
  Proof using. unfold st. rewrite <- !ksum_mul_l, <- ksum_add. apply ksum_ext. intros k _. ring. Qed.
  Lemma st_lin3 i A (w1 w2 w3 : CR) f1 f2 f3 a : st i A (fun b => w1 *c f1 b +c w2 *c f2 b +c w3 *c f3 b) a = w1 *c st i A f1 a +c w2 *c st i A f2 a +c w3 *c st i A f3 a.
  Proof using. unfold st. ring. Qed.
  Lemma st_scale i A c psi a : st i A (fun b => c *c psi b) a = c *c st i A psi a. Proof using. unfold st. ring. Qed.
  Lemma inner_st i A phi psi : (i < n)%nat -> inner D phi (st i A psi) = inner D (st i (adj2 A) phi) psi.
  Proof using.
    intros Hi. unfold inner, st, adj2.
    transitivity (ksum D (fun a => A (dg i a) (dg i a) *c (conj (phi a) *c psi a)) +c ksum D (fun a => A (dg i a) (1 - dg i a)%nat *c (conj (phi a) *c psi (fl i a)))).
    { rewrite <- ksum_add. apply ksum_ext. intros a _. ring. }
    rewrite <- (ksum_reindex D (fl i) (fun a => A (dg i a) (1 - dg i a)%nat *c _)).
    - rewrite <- ksum_add. apply ksum_ext. intros a Ha. rewrite (dg_same n i a Hi), (fl_fl n i a Ha Hi). replace (1 - (1 - dg i a))%nat with (dg i a) by (pose proof (bit2 i a); lia).
      generalize (A (dg i a) (dg i a)), (A (1 - dg i a)%nat (dg i a)), (phi a), (phi (fl i a)), (psi a). intros x y p q r. apply injective_projections; cbn; ring.
    - intros; apply fl_lt.
    - intros a b Ha Hb Q. rewrite <- (fl_fl n i a Ha Hi), <- (fl_fl n i b Hb Hi). congruence.
  Qed.

  (** One matrix per site. *)
  Fixpoint pr (u : nat -> nat -> nat -> CR) (m : nat) (psi : nat -> CR) : nat -> CR :=
    match m with O => psi | S m => st m (u m) (pr u m psi) end.
  Lemma pr_ext u m psi phi a : (a < D)%nat -> (forall b, (b < D)%nat -> psi b = phi b) -> pr u m psi a = pr u m phi a.
  Proof using. intros Ha X. revert a Ha. induction m as [|m IH]; intros a Ha; [exact (X a Ha)|]. cbn [pr]. apply st_ext; [exact Ha | exact IH]. Qed.
  Lemma pr_sum u m k (f : nat -> nat -> CR) (w : nat -> CR) a : (a < D)%nat -> pr u m (fun b => ksum k (fun l => w l *c f l b)) a = ksum k (fun l => w l *c pr u m (f l) a).
  Proof using. revert a. induction m as [|m IH]; intros a Ha; [reflexivity|]. cbn [pr]. rewrite (st_ext m (u m) _ _ a Ha IH). apply st_sum. Qed.
  Lemma pr_other u m i A psi a : (m <= i)%nat -> (i < n)%nat -> (a < D)%nat -> pr u m (st i A psi) a = st i A (pr u m psi) a.
  Proof using.
    intros Hm Hi. revert a. induction m as [|m IH]; intros a Ha; [reflexivity|]. cbn [pr]. rewrite (st_ext m (u m) _ (st i A (pr u m psi)) a Ha) by (intros b Hb; apply IH; [lia | exact Hb]).
    apply st_comm; lia.
  Qed.
  Lemma pr_site u m i A B psi a : (i < m)%nat -> (m <= n)%nat -> (a < D)%nat -> same2 (two_mul (u i) A) (two_mul B (u i)) -> pr u m (st i A psi) a = st i B (pr u m psi) a.
  Proof using.
    intros Hi Hm Ha X. revert a Ha. induction m as [|m IH]; intros a Ha; [lia|]. cbn [pr]. destruct (Nat.eq_dec i m) as [->|N].
    - rewrite (st_ext m (u m) _ (st m A (pr u m psi)) a Ha) by (intros b Hb; apply pr_other; lia). rewrite !st_mul by lia. apply st_same. exact X.
    - rewrite (st_ext m (u m) _ (st i B (pr u m psi)) a Ha) by (intros b Hb; apply IH; lia). apply st_comm; lia.
  Qed.
  Notation dag u := (fun i => adj2 (u i)).
  Lemma pr_inner u m phi psi : (m <= n)%nat -> inner D (pr u m phi) psi = inner D phi (pr (dag u) m psi).
  Proof using.
    revert phi psi. induction m as [|m IH]; intros phi psi Hm; [reflexivity|]. cbn [pr].
    transitivity (inner D (st m (adj2 (adj2 (u m))) (pr u m phi)) psi).
    { apply inner_ext; [|reflexivity]. intros a Ha. apply st_same. intros r c _ _. unfold adj2. apply injective_projections; cbn; ring. }
    rewrite <- inner_st, IH by lia. apply inner_ext; [reflexivity|]. intros a Ha. apply pr_other; lia.
  Qed.
  Lemma pr_pr u m psi a : (m <= n)%nat -> (forall i, (i < m)%nat -> same2 (two_mul (u i) (adj2 (u i))) one2) -> (a < D)%nat -> pr u m (pr (dag u) m psi) a = psi a.
  Proof using.
    intros Hm X. revert psi a. induction m as [|m IH]; intros psi a Ha; [reflexivity|]. cbn [pr].
    rewrite (st_ext m (u m) _ (st m (adj2 (u m)) (pr u m (pr (dag u) m psi))) a Ha) by (intros b Hb; apply pr_other; lia).
    rewrite st_mul by lia. rewrite (st_same m _ one2) by (apply X; lia). rewrite st_one. apply IH; [lia | intros; apply X; lia | exact Ha].
  Qed.
  Lemma pr_same u v m psi a : (forall i, (i < m)%nat -> same2 (u i) (v i)) -> (a < D)%nat -> pr u m psi a = pr v m psi a.
  Proof using.
    intros X. revert a. induction m as [|m IH]; intros a Ha; [reflexivity|]. cbn [pr]. rewrite (st_same m (u m) (v m)) by (apply X; lia). apply st_ext; [exact Ha|]. intros b Hb. apply IH; [intros; apply X; lia | exact Hb].
  Qed.
  Lemma pr_minus u m f h a : (a < D)%nat -> pr u m (fun b => f b -c h b) a = pr u m f a -c pr u m h a.
  Proof using. revert a. induction m as [|m IH]; intros a Ha; [reflexivity|]. cbn [pr]. rewrite (st_ext m (u m) _ _ a Ha IH). unfold st. ring. Qed.
  Lemma pr_scale u m c f a : (a < D)%nat -> pr u m (fun b => c *c f b) a = c *c pr u m f a.
  Proof using. revert a. induction m as [|m IH]; intros a Ha; [reflexivity|]. cbn [pr]. rewrite (st_ext m (u m) _ _ a Ha IH). unfold st. ring. Qed.
  Lemma pr_lin3 u m (w1 w2 w3 : CR) f1 f2 f3 a : (a < D)%nat -> pr u m (fun b => w1 *c f1 b +c w2 *c f2 b +c w3 *c f3 b) a = w1 *c pr u m f1 a +c w2 *c pr u m f2 a +c w3 *c pr u m f3 a.
  Proof using. revert a. induction m as [|m IH]; intros a Ha; [reflexivity|]. cbn [pr]. rewrite (st_ext m (u m) _ _ a Ha IH). unfold st. ring. Qed.
  Lemma pr_ks u m k (f : nat -> nat -> CR) a : (a < D)%nat -> pr u m (fun b => ksum k (fun l => f l b)) a = ksum k (fun l => pr u m (f l) a).
  Proof using.
    revert a. induction m as [|m IH]; intros a Ha; [reflexivity|]. cbn [pr]. rewrite (st_ext m (u m) _ _ a Ha IH). unfold st. rewrite <- !ksum_mul_l, <- ksum_add. reflexivity.
  Qed.
End Sites.
