(** Raising and lowering all spins of a configuration space of spins 1/2. *)
From Coq Require Import List Arith Lia Reals Lra Bool Permutation.
From Verif Require Convex.
From Verif Require Import Scalars Matrix Sums SpecMat SpecSpins Digits SpinSwap SpecPerm ModelGeometry ModelPhase ModelSymmetry SymBase SpecThermal ThermalBase ThermalBasis SpecSigns Signs SignsSpins Sectors.
Import ListNotations.
Local Open Scope R_scope.

Lemma one_changed (f g : nat -> nat) i l : NoDup l -> In i l -> (forall p, In p l -> p <> i -> f p = g p) -> (list_sum (map f l) + g i = list_sum (map g l) + f i)%nat.
Proof.
  induction l as [|p l IH]; intros ND IN X; [destruct IN|]. inversion_clear ND as [|? ? NI ND']. change (f p + list_sum (map f l) + g i = g p + list_sum (map g l) + f i)%nat. destruct IN as [->|IN].
  - rewrite (map_ext_in f g); [lia|]. intros q Hq. apply X; [right; exact Hq|]. intros ->. tauto.
  - specialize (IH ND' IN ltac:(intros; apply X; [right|]; assumption)). rewrite (X p (or_introl eq_refl)) by (intros ->; tauto). lia.
Qed.
Section Ladder.
  Variable n : nat.
  Notation D := (2 ^ n)%nat.
  Notation dg p a := (digit 2 n p a).
  Notation swp i j a := (pull 2 n (exchange i j) a).
  (** The configuration with one spin flipped. *)
  Definition fl (i a : nat) : nat := set_digit 2 n i (1 - dg i a) a.
  Lemma fl_lt i a : (fl i a < D)%nat. Proof using. apply set_digit_lt; [discriminate|]. lia. Qed.
  Lemma dg_fl i a p : (p < n)%nat -> dg p (fl i a) = if (p =? i)%nat then (1 - dg i a)%nat else dg p a.
  Proof using. intros Hp. apply digit_set; [discriminate | lia | exact Hp]. Qed.
  Lemma dg_same i a : (i < n)%nat -> dg i (fl i a) = (1 - dg i a)%nat. Proof using. intros Hi. rewrite dg_fl, Nat.eqb_refl by exact Hi. reflexivity. Qed.
  Lemma dg_other i a p : (p < n)%nat -> p <> i -> dg p (fl i a) = dg p a. Proof using. intros Hp N. rewrite dg_fl, (proj2 (Nat.eqb_neq p i) N) by exact Hp. reflexivity. Qed.
  Lemma ext a b : (a < D)%nat -> (b < D)%nat -> (forall p, (p < n)%nat -> dg p a = dg p b) -> a = b. Proof using. apply (digits_ext 2). discriminate. Qed.
  Lemma fl_fl i a : (a < D)%nat -> (i < n)%nat -> fl i (fl i a) = a.
  Proof using.
    intros Ha Hi. apply ext; [apply fl_lt | exact Ha|]. intros p Hp. rewrite dg_fl by exact Hp. destruct (Nat.eqb_spec p i) as [->|N]; [rewrite dg_same by exact Hi; pose proof (bit n i a); lia | apply dg_other; assumption].
  Qed.
  Lemma fl_comm i j a : (i < n)%nat -> (j < n)%nat -> i <> j -> fl i (fl j a) = fl j (fl i a).
  Proof using.
    intros Hi Hj N. apply ext; try apply fl_lt. intros p Hp. rewrite (dg_fl i (fl j a)), (dg_fl j (fl i a)), !(dg_fl i a), !(dg_fl j a) by assumption. rewrite (proj2 (Nat.eqb_neq i j) N), (proj2 (Nat.eqb_neq j i)) by congruence.
    destruct (Nat.eqb_spec p i) as [P1|P1], (Nat.eqb_spec p j) as [P2|P2]; congruence.
  Qed.
  Lemma fl_sum i a : (i < n)%nat -> (digit_sum 2 n (fl i a) + dg i a = digit_sum 2 n a + (1 - dg i a))%nat.
  Proof using.
    intros Hi. unfold digit_sum. pose proof (one_changed (fun p => dg p (fl i a)) (fun p => dg p a) i (seq 0 n)) as X. cbn beta in X. rewrite (dg_same i a Hi) in X. apply X; [apply seq_NoDup | apply in_seq; lia |]. intros p Hp N. apply in_seq in Hp. apply dg_other; [lia | exact N].
  Qed.
  Lemma fl_swp i j p a : (i < n)%nat -> (j < n)%nat -> (p < n)%nat -> fl p (swp i j a) = swp i j (fl (exchange i j p) a).
  Proof using.
    intros Hi Hj Hp. apply ext; [apply fl_lt | apply pull_lt; discriminate|]. intros q Hq. pose proof (exchange_lt n i j q Hi Hj Hq). rewrite (digit_pull 2 n ltac:(discriminate) _ _ q Hq), !dg_fl by assumption.
    rewrite !(digit_pull 2 n ltac:(discriminate)) by assumption.
    assert (X : (q =? p)%nat = (exchange i j q =? exchange i j p)%nat).
    { destruct (Nat.eqb_spec q p) as [->|N]; [symmetry; apply Nat.eqb_refl|]. symmetry. apply Nat.eqb_neq. unfold exchange. destruct (Nat.eqb_spec q i), (Nat.eqb_spec p i), (Nat.eqb_spec q j), (Nat.eqb_spec p j); congruence. }
    rewrite X. reflexivity.
  Qed.

  (** [mv 0] raises, [mv 1] lowers: they sum over the spins whose digit is [v]. *)
  Definition mv (v : nat) (psi : nat -> CR) (a : nat) : CR := ksum n (fun i => if (dg i a =? v)%nat then psi (fl i a) else c0).
  Lemma mv_ext v psi phi a : (forall b, (b < D)%nat -> psi b = phi b) -> mv v psi a = mv v phi a.
  Proof using. intros X. apply ksum_ext. intros i _. destruct (dg i a =? v)%nat; [apply X, fl_lt | reflexivity]. Qed.
  Lemma mv_scale v (z : CR) psi a : mv v (fun b => z *c psi b) a = z *c mv v psi a.
  Proof using. unfold mv. rewrite <- ksum_mul_l. apply ksum_ext. intros i _. destruct (dg i a =? v)%nat; [reflexivity | ring]. Qed.
  Lemma mv_minus v psi phi a : mv v (fun b => psi b -c phi b) a = mv v psi a -c mv v phi a.
  Proof using. unfold mv. rewrite <- Convex.ksum_minus. apply ksum_ext. intros i _. destruct (dg i a =? v)%nat; ring. Qed.
  Lemma mv_sum v k (F : nat -> nat -> CR) a : mv v (fun b => ksum k (fun t => F t b)) a = ksum k (fun t => mv v (F t) a).
  Proof using. unfold mv. rewrite ksum_swap. apply ksum_ext. intros i _. destruct (dg i a =? v)%nat; [reflexivity | symmetry; apply ksum_0]. Qed.
  Lemma flip_eqb v x : (v < 2)%nat -> (x < 2)%nat -> (1 - x =? v)%nat = (x =? 1 - v)%nat.
  Proof using. intros. destruct v as [|[|]], x as [|[|]]; try lia; reflexivity. Qed.
  Lemma mv_adj v phi psi : (v < 2)%nat -> inner D (mv v phi) psi = inner D phi (mv (1 - v) psi).
  Proof using.
    intros Hv. unfold inner, mv. rewrite (ksum_ext D _ (fun a => ksum n (fun i => if (dg i a =? v)%nat then conj (phi (fl i a)) *c psi a else c0))).
    - rewrite (ksum_ext D (fun a => conj (phi a) *c _) (fun a => ksum n (fun i => if (dg i a =? 1 - v)%nat then conj (phi a) *c psi (fl i a) else c0))).
      + rewrite !(ksum_swap D n). apply ksum_ext. intros i Hi. rewrite <- (ksum_reindex D (fl i) (fun a => if (dg i a =? v)%nat then _ else _)).
        * apply ksum_ext. intros a Ha. rewrite dg_same, flip_eqb, fl_fl by (assumption || apply bit). reflexivity.
        * intros; apply fl_lt.
        * intros a b Ha Hb Q. rewrite <- (fl_fl i a), <- (fl_fl i b) by assumption. congruence.
      + intros a Ha. rewrite <- ksum_mul_l. apply ksum_ext. intros i Hi. destruct (dg i a =? 1 - v)%nat; [reflexivity | change k0 with c0; ring].
    - intros a Ha. change (kconj (ksum n (fun i => if (dg i a =? v)%nat then phi (fl i a) else c0))) with (conj (ksum n (fun i => if (dg i a =? v)%nat then phi (fl i a) else c0))). rewrite ksum_conj, <- ksum_mul_r. apply ksum_ext. intros i Hi. destruct (dg i a =? v)%nat; [reflexivity|]. apply injective_projections; cbn; ring.
  Qed.
  Lemma mv_swp v psi i j a : (i < n)%nat -> (j < n)%nat -> mv v psi (swp i j a) = mv v (fun b => psi (swp i j b)) a.
  Proof using.
    intros Hi Hj. unfold mv. rewrite <- (ksum_reindex n (exchange i j) (fun p => if (dg p a =? v)%nat then _ else _)).
    - apply ksum_ext. intros p Hp. rewrite (digit_pull 2 n ltac:(discriminate) _ _ p Hp), fl_swp by assumption. reflexivity.
    - intros p Hp. apply exchange_lt; assumption.
    - intros p q Hp Hq. unfold exchange. destruct (Nat.eqb_spec q i), (Nat.eqb_spec p i), (Nat.eqb_spec q j), (Nat.eqb_spec p j); congruence.
  Qed.
  (** Raising and lowering differ by the moment. *)
  Lemma up_less_down a k : (k <= n)%nat -> ksum k (fun i => if (dg i a =? 0)%nat then c1 else c0) -c ksum k (fun i => if (dg i a =? 1)%nat then c1 else c0) = (INR k - 2 * INR (list_sum (map (fun p => dg p a) (seq 0 k))), 0).
  Proof using.
    induction k as [|k IH]; intros Hk; [apply injective_projections; cbn; ring|]. rewrite seq_S, map_app, list_sum_app. cbn [ksum plus map]. change (list_sum [dg k a]) with (dg k a + 0)%nat. rewrite Nat.add_0_r, plus_INR, S_INR.
    specialize (IH ltac:(lia)). revert IH. generalize (ksum k (fun i => if (dg i a =? 0)%nat then c1 else c0)) (ksum k (fun i => if (dg i a =? 1)%nat then c1 else c0)). intros X Y Q. apply pair_equal_spec in Q as (Q1 & Q2). cbn in Q1, Q2.
    pose proof (bit n k a) as B. destruct (dg k a) as [|[|d]]; [| |lia]; apply injective_projections; cbn; lra.
  Qed.
  Theorem mv_comm psi a : (a < D)%nat -> mv 0 (mv 1 psi) a = mv 1 (mv 0 psi) a +c (INR n - 2 * INR (digit_sum 2 n a), 0) *c psi a.
  Proof using.
    intros Ha. set (K := fun i j => if (i =? j)%nat then c0 else if (dg i a =? 0)%nat then (if (dg j a =? 1)%nat then psi (fl j (fl i a)) else c0) else c0).
    assert (A : mv 0 (mv 1 psi) a = ksum n (fun i => ksum n (K i)) +c ksum n (fun i => if (dg i a =? 0)%nat then c1 else c0) *c psi a).
    { rewrite <- ksum_mul_r, <- ksum_add. apply ksum_ext. intros i Hi. destruct (dg i a =? 0)%nat eqn:Z.
      - unfold mv. rewrite (ksum_ext n _ (fun j => K i j +c (if (j =? i)%nat then psi a else c0))).
        + rewrite ksum_add. f_equal. rewrite (ksum_single n i); [rewrite Nat.eqb_refl; change k1 with c1; ring | exact Hi |]. intros j Hj N. rewrite (proj2 (Nat.eqb_neq j i) N). reflexivity.
        + intros j Hj. unfold K. rewrite (Nat.eqb_sym i j), Z, dg_fl by exact Hj. destruct (Nat.eqb_spec j i) as [->|N].
          * apply Nat.eqb_eq in Z. rewrite Z. change (1 - 0 =? 1)%nat with true. cbn match. rewrite fl_fl by assumption. ring.
          * destruct (dg j a =? 1)%nat; ring.
      - rewrite ksum_zero; [change k0 with c0; ring|]. intros j Hj. unfold K. destruct (i =? j)%nat; [reflexivity|]. rewrite Z. reflexivity. }
    assert (B : mv 1 (mv 0 psi) a = ksum n (fun i => ksum n (K i)) +c ksum n (fun i => if (dg i a =? 1)%nat then c1 else c0) *c psi a).
    { rewrite (ksum_swap n n). rewrite <- ksum_mul_r, <- ksum_add. apply ksum_ext. intros i Hi. destruct (dg i a =? 1)%nat eqn:Z.
      - unfold mv. rewrite (ksum_ext n _ (fun j => K j i +c (if (j =? i)%nat then psi a else c0))).
        + rewrite ksum_add. f_equal. rewrite (ksum_single n i); [rewrite Nat.eqb_refl; change k1 with c1; ring | exact Hi |]. intros j Hj N. rewrite (proj2 (Nat.eqb_neq j i) N). reflexivity.
        + intros j Hj. unfold K. rewrite Z, dg_fl by exact Hj. destruct (Nat.eqb_spec j i) as [->|N].
          * apply Nat.eqb_eq in Z. rewrite Z. change (1 - 1 =? 0)%nat with true. cbn match. rewrite fl_fl by assumption. ring.
          * rewrite (fl_comm i j) by (assumption || congruence). destruct (dg j a =? 0)%nat; ring.
      - rewrite ksum_zero; [change k0 with c0; ring|]. intros j Hj. unfold K. destruct (j =? i)%nat; [reflexivity|]. rewrite Z. destruct (dg j a =? 0)%nat; reflexivity. }
    rewrite A, B. pose proof (up_less_down a n (Nat.le_refl n)) as U. fold (digit_sum 2 n a) in U. rewrite <- U. ring.
  Qed.
  (** Functions that live on the configurations with [m] flipped spins. *)
  Definition lives (m : nat) (psi : nat -> CR) : Prop := forall a, (a < D)%nat -> digit_sum 2 n a <> m -> psi a = c0.
  Lemma raise_lives m psi : lives (S m) psi -> lives m (mv 0 psi).
  Proof using.
    intros L a Ha N. apply ksum_zero. intros i Hi. destruct (Nat.eqb_spec (dg i a) 0) as [Z|Z]; [|reflexivity]. apply L; [apply fl_lt|]. pose proof (fl_sum i a Hi). lia.
  Qed.
  Lemma lower_lives m psi : lives m psi -> lives (S m) (mv 1 psi).
  Proof using.
    intros L a Ha N. apply ksum_zero. intros i Hi. destruct (Nat.eqb_spec (dg i a) 1) as [Z|Z]; [|reflexivity]. apply L; [apply fl_lt|]. pose proof (fl_sum i a Hi). lia.
  Qed.
  Lemma raise_top psi : lives 0 psi -> forall a, (a < D)%nat -> mv 0 psi a = c0.
  Proof using.
    intros L a Ha. apply ksum_zero. intros i Hi. destruct (Nat.eqb_spec (dg i a) 0) as [Z|Z]; [|reflexivity]. apply L; [apply fl_lt|]. pose proof (fl_sum i a Hi). lia.
  Qed.
  Definition vanishes (psi : nat -> CR) : Prop := forall a, (a < D)%nat -> psi a = c0.
  Lemma inner_ext_r phi psi psi' : (forall a, (a < D)%nat -> psi a = psi' a) -> inner D phi psi = inner D phi psi'.
  Proof using. intros X. apply ksum_ext. intros a Ha. rewrite X by exact Ha. reflexivity. Qed.
  Lemma norm_zero psi : fst (inner D psi psi) = 0 -> vanishes psi.
  Proof using.
    intros Z a Ha. unfold inner in Z. rewrite fst_ksum in Z. destruct (Req_dec (abs2 (psi a)) 0) as [Q|Q].
    - unfold abs2 in Q. apply injective_projections; cbn; nra.
    - exfalso. assert (P : 0 < total (fun i => fst (conj (psi i) *c psi i)) (seq 0 D)); [|rewrite <- rsum_total in P; lra].
      assert (G : forall i, fst (conj (psi i) *c psi i) = abs2 (psi i)) by (intros i; unfold abs2; cbn; ring).
      apply total_pos; [intros i _; rewrite G; unfold abs2; nra|]. exists a. split; [apply in_seq; lia|]. rewrite G. unfold abs2 in *. nra.
  Qed.
  Lemma norm_step m psi : lives m psi -> inner D (mv 1 psi) (mv 1 psi) = inner D (mv 0 psi) (mv 0 psi) +c (INR n - 2 * INR m, 0) *c inner D psi psi.
  Proof using.
    intros L. rewrite (mv_adj 1 psi (mv 1 psi)), (mv_adj 0 psi (mv 0 psi)) by lia. change (1 - 1)%nat with 0%nat. change (1 - 0)%nat with 1%nat.
    unfold inner. rewrite <- ksum_mul_l, <- ksum_add. apply ksum_ext. intros a Ha. rewrite (mv_comm psi a Ha). destruct (Nat.eq_dec (digit_sum 2 n a) m) as [->|N]; [change (@kmul CR CR_StarRing) with (fun x y : CR => x *c y); cbn beta; ring|].
    rewrite (L a Ha N). apply injective_projections; cbn; ring.
  Qed.
  (** Lowering loses nothing above the middle. *)
  Theorem lower_keeps m psi : lives m psi -> (2 * m < n)%nat -> vanishes (mv 1 psi) -> vanishes psi.
  Proof using.
    intros L Hm Z. apply norm_zero. pose proof (norm_step m psi L) as X. rewrite (inner_ext_r (mv 1 psi) (mv 1 psi) (fun _ => c0) Z) in X.
    assert (N0 : inner D (mv 1 psi) (fun _ => c0) = c0) by (apply ksum_zero; intros; apply injective_projections; cbn; ring). rewrite N0 in X. apply (f_equal fst) in X. cbn in X.
    assert (P1 : forall phi, 0 <= fst (inner D phi phi)).
    { intros phi. unfold inner. rewrite fst_ksum, rsum_total. apply total_ge0. intros i _. cbn. nra. }
    pose proof (P1 (mv 0 psi)). pose proof (P1 psi). assert (0 < INR n - 2 * INR m) by (apply lt_INR in Hm; rewrite mult_INR in Hm; cbn in Hm; lra). nra.
  Qed.
End Ladder.
