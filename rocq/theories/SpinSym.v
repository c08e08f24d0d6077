(** Hermiticity, symmetries and special states of spin systems. *)
From Coq Require Import List Arith Lia Bool QArith Ring Setoid Permutation.
From Verif Require Import Scalars Res Matrix ModelBase ModelSpins SpecSpins SpecPerm SpecMat OpsProofs SqMat FockProofs
  FermiOps SwapProofs Sums HamProofs HamSym Digits SpinOps SpinSwap SpinAlg SpinHam.
Import ListNotations.
Local Open Scope nat_scope.
Arguments Nat.div : simpl never.
Arguments Nat.modulo : simpl never.
Arguments Nat.pow : simpl never.

Lemma agree_off_sym d n L a b : agree_off d n L a b = agree_off d n L b a.
Proof. apply bool_eq_iff. rewrite !agree_off_spec. split; intros H p Hp Hn; symmetry; apply H; assumption. Qed.

(** Complement of all digits. *)
Section Flip.
  Variable d : nat.
  Hypothesis Hd : d <> 0.
  Lemma of_digits_flip n : forall f, (forall p, p < n -> f p < d) ->
    of_digits d n (fun p => d - 1 - f p) + of_digits d n f = d ^ n - 1.
  Proof.
    induction n as [|n IH]; intros f H.
    - reflexivity.
    - cbn [of_digits]. rewrite Nat.pow_succ_r'. specialize (IH (fun p => f (S p))).
      pose proof (pow_pos d Hd n). pose proof (H 0 ltac:(lia)).
      assert (IH' : of_digits d n (fun p => d - 1 - f (S p)) + of_digits d n (fun p => f (S p)) = d ^ n - 1)
        by (apply IH; intros; apply H; lia).
      assert (E : (d - 1 - f 0) * d ^ n + f 0 * d ^ n = (d - 1) * d ^ n).
      { rewrite <- Nat.mul_add_distr_r. f_equal. lia. }
      assert (E2 : (d - 1) * d ^ n + d ^ n = d * d ^ n).
      { transitivity ((d - 1 + 1) * d ^ n); [ring|]. f_equal. lia. }
      lia.
  Qed.
  Lemma digit_flip n p a : a < d ^ n -> p < n -> digit d n p (d ^ n - 1 - a) = d - 1 - digit d n p a.
  Proof.
    intros Ha Hp. pose proof (of_digits_flip n (fun p => digit d n p a)) as E.
    rewrite (of_digits_digit d Hd) in E by assumption.
    replace (d ^ n - 1 - a) with (of_digits d n (fun q => d - 1 - digit d n q a)).
    - rewrite (digit_of_digits d Hd n (fun q => d - 1 - digit d n q a)); auto. intros. lia.
    - rewrite <- E by (intros; apply digit_lt; assumption). lia.
  Qed.
  Lemma agree_off_flip n L a b : a < d ^ n -> b < d ^ n ->
    agree_off d n L (d ^ n - 1 - a) (d ^ n - 1 - b) = agree_off d n L a b.
  Proof.
    intros Ha Hb. apply bool_eq_iff. rewrite !agree_off_spec.
    split; intros H p Hp Hn; specialize (H p Hp Hn); rewrite ?digit_flip in * by assumption; [|congruence].
    pose proof (digit_lt d Hd n p a). pose proof (digit_lt d Hd n p b). lia.
  Qed.
End Flip.

Lemma list_sum_perm l l' : Permutation l l' -> list_sum l = list_sum l'.
Proof. unfold list_sum. induction 1; cbn [fold_right] in *; lia. Qed.

(** Two states differing only at two sites. *)
Lemma sum_two d n i j a b : i < n -> j < n -> i <> j ->
  agree_off d n [i; j] a b = true -> digit d n i a + digit d n j a = digit d n i b + digit d n j b ->
  digit_sum d n a = digit_sum d n b.
Proof.
  intros Hi Hj Hij HA HS. pose proof (proj1 (agree_off_spec _ _ _ _ _) HA) as H.
  assert (P : exists l, Permutation (seq 0 n) (i :: j :: l)).
  { assert (Ii : In i (seq 0 n)) by (apply in_seq; lia). apply in_split in Ii as (l1 & l2 & E).
    assert (Ij : In j (l1 ++ l2)).
    { assert (X : In j (l1 ++ i :: l2)) by (rewrite <- E; apply in_seq; lia).
      apply in_app_or in X as [X|[X|X]]; [|congruence|]; apply in_or_app; auto. }
    apply in_split in Ij as (l3 & l4 & E2). exists (l3 ++ l4). rewrite E.
    rewrite <- Permutation_middle. constructor. rewrite E2. rewrite <- Permutation_middle. reflexivity. }
  destruct P as (l & P). unfold digit_sum.
  assert (LP : forall f : nat -> nat, list_sum (map f (seq 0 n)) = f i + (f j + list_sum (map f l))).
  { intros f. assert (Q : Permutation (map f (seq 0 n)) (map f (i :: j :: l))) by (apply Permutation_map, P).
    exact (list_sum_perm _ _ Q). }
  rewrite !LP. rewrite !Nat.add_assoc, HS. f_equal. f_equal.
  apply map_ext_in. intros p Hp.
  assert (ND : NoDup (i :: j :: l)) by (eapply Permutation_NoDup; [exact P|apply seq_NoDup]).
  apply H.
  - assert (X : In p (seq 0 n)) by (rewrite P; right; right; assumption). apply in_seq in X. lia.
  - cbn. inversion ND as [|? ? N1 N2]; subst. inversion N2 as [|? ? N3 N4]; subst.
    intros [->|[->|[]]]; [apply N1; right; assumption|apply N3; assumption].
Qed.

Lemma digit_sum_ext d n a b : agree_off d n [] a b = true -> digit_sum d n a = digit_sum d n b.
Proof.
  intros H. unfold digit_sum. f_equal. apply map_ext_in. intros p Hp. apply in_seq in Hp.
  apply (proj1 (agree_off_spec _ _ _ _ _) H); [lia|auto].
Qed.

Section SpinSym.
  Context {K : Type} {SR : StarRing K}.
  Add Ring KringSS : (@k_ring K SR).

  (** Commutation with permutation matrices and diagonal matrices. *)
  Lemma perm_commutes N (T H : mat K) (f g : nat -> nat) : square N T -> square N H ->
    (forall a, a < N -> f a < N /\ g a < N /\ f (g a) = a /\ g (f a) = a) ->
    (forall a b, a < N -> b < N -> ent T a b = kb (b =? f a)) ->
    (forall a b, a < N -> b < N -> ent H (f a) (f b) = ent H a b) ->
    meq (mmul T H) (mmul H T).
  Proof.
    intros ST SH Hf HT HH. apply (meq_of_seqv N); [auto using mul_square|auto using mul_square|].
    intros a b Ha Hb. cbn [ent mmul]. destruct ST as [_ ->], SH as [_ ->].
    rewrite (ksum_single N (f a)); [|apply Hf; assumption|].
    - rewrite (ksum_single N (g b)); [|apply Hf; assumption|].
      + rewrite !HT by (auto; apply Hf; assumption).
        rewrite (proj1 (proj2 (proj2 (Hf b Hb)))), !Nat.eqb_refl. cbn [kb].
        rewrite <- (HH a (g b)) by (auto; apply Hf; assumption).
        rewrite (proj1 (proj2 (proj2 (Hf b Hb)))). ring.
      + intros c Hc Hne. rewrite HT by assumption. rewrite (proj2 (Nat.eqb_neq b (f c))); [cbn; ring|].
        intros ->. apply Hne. symmetry. apply Hf. assumption.
    - intros c Hc Hne. rewrite HT by assumption. rewrite (proj2 (Nat.eqb_neq c (f a))) by assumption. cbn. ring.
  Qed.

  Lemma diag_commutes N (D H : mat K) (v : nat -> K) : square N D -> square N H ->
    (forall a b, a < N -> b < N -> ent D a b = kmul (kb (a =? b)) (v a)) ->
    (forall a b, a < N -> b < N -> v a <> v b -> ent H a b = k0) ->
    meq (mmul D H) (mmul H D).
  Proof.
    intros SD SH HD HH. apply (meq_of_seqv N); [auto using mul_square|auto using mul_square|].
    intros a b Ha Hb. cbn [ent mmul]. destruct SD as [_ ->], SH as [_ ->].
    rewrite (ksum_single N a); [|assumption|].
    - rewrite (ksum_single N b); [|assumption|].
      + rewrite !HD by assumption. rewrite !Nat.eqb_refl. cbn [kb].
        destruct (keq_dec (v a) (v b)) as [->|Hne]; [ring|]. rewrite HH by assumption. ring.
      + intros c Hc Hne. rewrite HD by assumption. rewrite (proj2 (Nat.eqb_neq c b)) by assumption. cbn. ring.
    - intros c Hc Hne. rewrite HD by assumption. rewrite (proj2 (Nat.eqb_neq a c)) by congruence. cbn. ring.
  Qed.

  Variable rt : nat -> K.

  Section Sys.
  Variable s : spins K.
  Notation n := (sg_nsites (sp_geom s)).
  Notation two := (sp_two s).
  Notation d := (sp_two s + 1).
  Notation SX := (ent (sx_op rt (sp_two s))).
  Notation SY := (ent (sy_op rt (sp_two s))).
  Notation SZ := (ent (sz_op (K:=K) (sp_two s))).
  Notation D := (d ^ n).
  Let dnz := d_nz s.

  Definition herm_on (A : nat -> nat -> K) := forall r c, r < d -> c < d -> kconj (A r c) = A c r.

  Lemma site_herm A i a b : herm_on A -> kconj (site_elem d n i A a b) = site_elem d n i A b a.
  Proof.
    intros H. unfold site_elem. rewrite (agree_off_sym d n [i] b a). destruct (agree_off d n [i] a b); [|apply kconj_0].
    apply H; apply digit_lt; exact dnz.
  Qed.
  Lemma pair_herm A B i j a b : herm_on A -> herm_on B ->
    kconj (pair_elem d n i j A B a b) = pair_elem d n i j A B b a.
  Proof.
    intros HA HB. unfold pair_elem. rewrite (agree_off_sym d n [i; j] b a).
    destruct (agree_off d n [i; j] a b); [|apply kconj_0].
    rewrite kconj_mul, HA, HB by (apply digit_lt; exact dnz). reflexivity.
  Qed.

  Definition real_couplings : Prop :=
    (forall i j, i < n -> j < i -> kconj (sp_jx s i j) = sp_jx s i j /\ kconj (sp_jy s i j) = sp_jy s i j /\
        kconj (sp_jz s i j) = sp_jz s i j) /\
    (forall i, i < n -> kconj (sp_hx s i) = sp_hx s i /\ kconj (sp_hy s i) = sp_hy s i /\ kconj (sp_hz s i) = sp_hz s i).

  Lemma meq_herm (A : mat K) : square d A -> meq (madj A) A -> herm_on (ent A).
  Proof.
    intros [S1 S2] (_ & _ & M) r c Hr Hc. specialize (M c r). cbn in M. apply M; congruence.
  Qed.

  Lemma H_elem_herm a b : roots_ok rt two -> real_couplings -> kconj (H_elem rt s a b) = H_elem rt s b a.
  Proof.
    intros HR [HJ Hh].
    assert (X := meq_herm _ (sx_sq rt two) (sx_herm rt two HR)).
    assert (Y := meq_herm _ (sy_sq rt two) (sy_herm rt two HR)).
    assert (Z := meq_herm _ (sz_sq two) (sz_herm two)).
    unfold H_elem, spin_elem. rewrite kconj_sub, !ksum_conj. f_equal.
    - apply ksum_ext. intros i Hi. rewrite ksum_conj. apply ksum_ext. intros j Hj.
      destruct (HJ i j Hi Hj) as (E1 & E2 & E3).
      rewrite kconj_mul, !kconj_add, !kconj_mul, E1, E2, E3, !pair_herm by assumption.
      unfold kofnat. rewrite kQ_conj. reflexivity.
    - apply ksum_ext. intros i Hi. destruct (Hh i Hi) as (E1 & E2 & E3).
      rewrite kconj_mul, !kconj_add, !kconj_mul, E1, E2, E3, !site_herm by assumption. rewrite kconj_1. reflexivity.
  Qed.

  Lemma createH_herm P : roots_ok rt two -> real_couplings -> fields_ok s -> ncol P = D ->
    exists H, sp_createH rt s (Some P) = Ok H /\ square (nrow P) H /\ meq (madj H) H.
  Proof.
    intros HR HJ HF HP. destruct (createH_proj rt s P HP HF) as (H & E & S & V). exists H. splits; auto.
    apply (meq_of_seqv (nrow P)); [destruct S; split; assumption|assumption|].
    intros a b Ha Hb. cbn [madj ent]. rewrite !V, sand_adj. apply sand_ext.
    intros x y Hx Hy. unfold sadj. apply H_elem_herm; assumption.
  Qed.

  Lemma createH_herm_full : roots_ok rt two -> real_couplings -> fields_ok s ->
    exists H, sp_createH rt s None = Ok H /\ square D H /\ meq (madj H) H.
  Proof.
    intros HR HJ HF. destruct (createH_full rt s HF) as (H & E & S & V). exists H. splits; auto.
    apply (meq_of_seqv D); [destruct S; split; assumption|assumption|].
    intros a b Ha Hb. cbn [madj ent]. rewrite !V by assumption. apply H_elem_herm; assumption.
  Qed.

  (** *** Conservation of the magnetisation *)
  Lemma xy_pair i j a b : roots_ok rt two ->
    kadd (pair_elem d n i j SX SX a b) (pair_elem d n i j SY SY a b) =
    kmul (kQ (1 # 2)) (kadd (pair_elem d n i j (ent (splus_op rt two)) (ent (sminus_op rt two)) a b)
                            (pair_elem d n i j (ent (sminus_op rt two)) (ent (splus_op rt two)) a b)).
  Proof.
    intros _. unfold pair_elem. destruct (agree_off _ _ _ _ _); [|ring].
    rewrite !sx_ent, !sy_ent.
    set (h := kQ (1 # 2)).
    set (p := ent (splus_op rt two) _ _). set (m := ent (sminus_op rt two) _ _).
    set (p' := ent (splus_op rt two) _ _). set (m' := ent (sminus_op rt two) _ _).
    transitivity (kadd (kmul (kmul h h) (kmul (kadd p m) (kadd p' m')))
       (kmul (kmul ki ki) (kmul (kmul h h) (kmul (ksub p m) (ksub p' m'))))); [ring|]. rewrite ki_sq.
    transitivity (kmul (kmul (kmul h h) (kadd k1 k1)) (kadd (kmul p m') (kmul m p'))); [ring|]. subst h. rewrite h4. ring.
  Qed.

  Lemma pm_pair_zero i j a b : i < n -> j < n -> i <> j -> digit_sum d n a <> digit_sum d n b ->
    pair_elem d n i j (ent (splus_op rt two)) (ent (sminus_op rt two)) a b = k0 /\
    pair_elem d n i j (ent (sminus_op rt two)) (ent (splus_op rt two)) a b = k0.
  Proof.
    intros Hi Hj Hij Hne. unfold pair_elem. destruct (agree_off d n [i; j] a b) eqn:E; [|auto].
    rewrite !P_ent, !M_ent. split.
    - destruct (Nat.eqb_spec (digit d n i a) (digit d n i b + 1)); [|ring].
      destruct (Nat.eqb_spec (digit d n j b) (digit d n j a + 1)); [|ring].
      exfalso. apply Hne. apply (sum_two d n i j); auto. lia.
    - destruct (Nat.eqb_spec (digit d n i b) (digit d n i a + 1)); [|ring].
      destruct (Nat.eqb_spec (digit d n j a) (digit d n j b + 1)); [|ring].
      exfalso. apply Hne. apply (sum_two d n i j); auto. lia.
  Qed.

  Definition xxz : Prop :=
    (forall i j, i < n -> j < i -> sp_jx s i j = sp_jy s i j) /\
    (forall i, i < n -> sp_hx s i = k0 /\ sp_hy s i = k0).

  Lemma H_elem_conserves a b : a < D -> b < D -> roots_ok rt two -> xxz -> digit_sum d n a <> digit_sum d n b ->
    H_elem rt s a b = k0.
  Proof.
    intros Ha Hb HR [HJ Hh] Hne. unfold H_elem, spin_elem.
    assert (Nab : a <> b) by congruence.
    assert (ZZ : forall i j, i < n -> j < n -> i <> j -> pair_elem d n i j SZ SZ a b = k0).
    { intros i j Hi Hj Hij. unfold pair_elem. destruct (agree_off d n [i; j] a b) eqn:E; [|reflexivity].
      rewrite !Z_ent. destruct (Nat.eqb_spec (digit d n i a) (digit d n i b)); [|cbn; ring].
      destruct (Nat.eqb_spec (digit d n j a) (digit d n j b)); [|cbn; ring].
      exfalso. apply Hne. apply (sum_two d n i j); auto; lia. }
    assert (Z : forall i, i < n -> site_elem d n i SZ a b = k0).
    { intros i Hi. unfold site_elem. destruct (agree_off d n [i] a b) eqn:E; [|reflexivity].
      rewrite Z_ent. destruct (Nat.eqb_spec (digit d n i a) (digit d n i b)); [|cbn; ring].
      exfalso. apply Nab. apply (digits_ext d dnz n); auto. intros p Hp.
      destruct (Nat.eq_dec p i) as [->|Hp']; [assumption|].
      apply (proj1 (agree_off_spec _ _ _ _ _) E); auto. cbn. intros [->|[]]; congruence. }
    rewrite ksum_zero. 2:{
      intros i Hi. apply ksum_zero. intros j Hj. rewrite HJ by assumption.
      rewrite ZZ by lia.
      transitivity (kmul (kmul (kofnat 2) (sp_jy s i j)) (kadd (pair_elem d n i j SX SX a b) (pair_elem d n i j SY SY a b))); [ring|].
      rewrite xy_pair by assumption. destruct (pm_pair_zero i j a b) as [-> ->]; auto; try lia. ring. }
    rewrite ksum_zero. 2:{
      intros i Hi. destruct (Hh i Hi) as [-> ->]. rewrite Z by assumption. ring. }
    ring.
  Qed.

  (** *** Spin flip *)
  Definition flipd (r : nat) := two - r.
  Lemma sx_flip r c : r < d -> c < d -> SX (two - r) (two - c) = SX r c.
  Proof.
    intros Hr Hc. rewrite !sx_ent, !P_ent, !M_ent.
    destruct (Nat.eqb_spec (two - r) (two - c + 1)) as [E1|E1], (Nat.eqb_spec (two - c) (two - r + 1)) as [E2|E2],
      (Nat.eqb_spec r (c + 1)) as [E3|E3], (Nat.eqb_spec c (r + 1)) as [E4|E4]; try lia; try ring.
    - subst c. replace ((two - (r + 1) + 1) * (two - (two - (r + 1)))) with ((r + 1) * (two - r)) by nia. ring.
    - subst r. replace ((two - (c + 1) + 1) * (two - (two - (c + 1)))) with ((c + 1) * (two - c)) by nia. ring.
  Qed.
  Lemma sy_flip r c : r < d -> c < d -> SY (two - r) (two - c) = kopp (SY r c).
  Proof.
    intros Hr Hc. rewrite !sy_ent, !P_ent, !M_ent.
    destruct (Nat.eqb_spec (two - r) (two - c + 1)) as [E1|E1], (Nat.eqb_spec (two - c) (two - r + 1)) as [E2|E2],
      (Nat.eqb_spec r (c + 1)) as [E3|E3], (Nat.eqb_spec c (r + 1)) as [E4|E4]; try lia; try ring.
    - subst c. replace ((two - (r + 1) + 1) * (two - (two - (r + 1)))) with ((r + 1) * (two - r)) by nia. ring.
    - subst r. replace ((two - (c + 1) + 1) * (two - (two - (c + 1)))) with ((c + 1) * (two - c)) by nia. ring.
  Qed.
  Lemma sz_flip r c : r < d -> c < d -> SZ (two - r) (two - c) = kopp (SZ r c).
  Proof.
    intros Hr Hc. rewrite !Z_ent. replace (two - r =? two - c) with (r =? c).
    - assert (E : kadd (zval (K:=K) two (two - r)) (zval two r) = k0).
      { unfold zval. assert (F : kofnat (K:=K) (two - r) = ksub (kofnat two) (kofnat r)).
        { transitivity (ksub (kadd (kofnat (K:=K) (two - r)) (kofnat r)) (kofnat r)); [ring|].
          rewrite <- kofnat_add. do 2 f_equal. lia. }
        rewrite F. transitivity (ksub (kmul (kadd (kQ (1 # 2)) (kQ (1 # 2))) (kofnat (K:=K) two)) (kofnat two)); [ring|].
        rewrite khalf2. ring. }
      transitivity (kmul (kb (r =? c)) (ksub (kadd (zval (K:=K) two (two - r)) (zval two r)) (zval two r))); [ring|].
      rewrite E. ring.
    - apply bool_eq_iff. rewrite !Nat.eqb_eq. lia.
  Qed.

  Definition no_yz : Prop := forall i, i < n -> sp_hy s i = k0 /\ sp_hz s i = k0.

  Lemma dig_flip p a : a < D -> p < n -> digit d n p (D - 1 - a) = two - digit d n p a.
  Proof. intros. rewrite (digit_flip d dnz) by assumption. f_equal. lia. Qed.

  Lemma H_elem_flip a b : a < D -> b < D -> no_yz -> H_elem rt s (D - 1 - a) (D - 1 - b) = H_elem rt s a b.
  Proof.
    intros Ha Hb HF. unfold H_elem, spin_elem.
    assert (LT : forall p x, digit d n p x < d) by (intros; apply digit_lt; exact dnz).
    assert (PR : forall i j A, i < n -> j < n ->
      (forall r c, r < d -> c < d -> A (two - r) (two - c) = A r c) \/
      (forall r c, r < d -> c < d -> A (two - r) (two - c) = kopp (A r c)) ->
      pair_elem d n i j A A (D - 1 - a) (D - 1 - b) = pair_elem d n i j A A a b).
    { intros i j A Hi Hj HA. unfold pair_elem. rewrite (agree_off_flip d dnz) by assumption.
      rewrite !dig_flip by assumption. destruct (agree_off _ _ _ _ _); [|reflexivity].
      destruct HA as [HA|HA]; rewrite !HA by apply LT; ring. }
    f_equal.
    - apply ksum_ext. intros i Hi. apply ksum_ext. intros j Hj.
      rewrite !PR; auto using sx_flip, sy_flip, sz_flip; lia.
    - apply ksum_ext. intros i Hi. destruct (HF i Hi) as [-> ->].
      assert (E : site_elem d n i SX (D - 1 - a) (D - 1 - b) = site_elem d n i SX a b).
      { unfold site_elem. rewrite (agree_off_flip d dnz) by assumption. rewrite !dig_flip by assumption.
        destruct (agree_off _ _ _ _ _); [|reflexivity]. apply sx_flip; apply LT. }
      rewrite E. ring.
  Qed.

  (** *** Lattice symmetries *)
  Lemma agree_pull rho pi L a b :
    (forall p, p < n -> pi p < n /\ rho p < n /\ pi (rho p) = p /\ rho (pi p) = p) -> (forall p, In p L -> p < n) ->
    agree_off d n L (pull d n pi a) (pull d n pi b) = agree_off d n (map pi L) a b.
  Proof.
    intros HP HL. apply bool_eq_iff. rewrite !agree_off_spec. split; intros H p Hp Hn.
    - destruct (HP p Hp) as (P1 & P2 & P3 & P4). specialize (H (rho p) P2).
      rewrite !(digit_pull d n dnz) in H by assumption. rewrite P3 in H. apply H.
      intros I. apply Hn. apply in_map_iff. exists (rho p). auto.
    - rewrite !(digit_pull d n dnz) by assumption. apply H; [apply HP; assumption|].
      intros I. apply in_map_iff in I as (q & E & Hq). apply Hn.
      assert (q = p). { destruct (HP p Hp) as (_ & _ & _ & P4). destruct (HP q (HL q Hq)) as (_ & _ & _ & Q4). congruence. }
      congruence.
  Qed.

  Definition invariant (pi : nat -> nat) : Prop :=
    (forall i j, i < n -> j < n ->
       sp_jx s i j = sp_jx s j i /\ sp_jx s (pi i) (pi j) = sp_jx s i j /\
       sp_jy s i j = sp_jy s j i /\ sp_jy s (pi i) (pi j) = sp_jy s i j /\
       sp_jz s i j = sp_jz s j i /\ sp_jz s (pi i) (pi j) = sp_jz s i j) /\
    (forall i, i < n -> sp_hx s (pi i) = sp_hx s i /\ sp_hy s (pi i) = sp_hy s i /\ sp_hz s (pi i) = sp_hz s i).

  Lemma lower_sum_perm (F : nat -> nat -> K) (pi : nat -> nat) :
    (forall i, i < n -> pi i < n) -> (forall i j, i < n -> j < n -> pi i = pi j -> i = j) ->
    (forall i j, i < n -> j < n -> F i j = F j i) ->
    ksum n (fun i => ksum i (fun j => F (pi i) (pi j))) = ksum n (fun i => ksum i (F i)).
  Proof.
    intros H1 H2 HS. apply half_inj.
    assert (A := ksum_lower_double n F HS).
    assert (B := ksum_lower_double n (fun i j => F (pi i) (pi j)) ltac:(intros; apply HS; auto)).
    assert (C : ksum n (fun i => ksum n (fun j => F (pi i) (pi j))) = ksum n (fun i => ksum n (F i))).
    { rewrite (ksum_ext n _ (fun i => ksum n (F (pi i)))) by (intros i Hi; apply (ksum_reindex n pi (F (pi i))); assumption).
      apply (ksum_reindex n pi (fun i => ksum n (F i))); assumption. }
    assert (E : ksum n (fun i => F (pi i) (pi i)) = ksum n (fun i => F i i)).
    { apply (ksum_reindex n pi (fun i => F i i)); assumption. }
    cbv beta in B. rewrite C, E, <- A in B. set (x := ksum n (fun i => ksum i (fun j => F (pi i) (pi j)))) in *.
    set (y := ksum n (fun i => ksum i (F i))) in *. set (z := ksum n (fun i => F i i)) in *.
    transitivity (ksub (kadd (kadd x x) z) z); [ring|]. rewrite B. ring.
  Qed.

  Lemma H_elem_perm pi rho a b :
    (forall p, p < n -> pi p < n /\ rho p < n /\ pi (rho p) = p /\ rho (pi p) = p) -> invariant pi ->
    H_elem rt s (pull d n pi a) (pull d n pi b) = H_elem rt s a b.
  Proof.
    intros HP [HJ Hh].
    assert (P1 : forall i, i < n -> pi i < n) by (intros; apply HP; assumption).
    assert (P2 : forall i j, i < n -> j < n -> pi i = pi j -> i = j).
    { intros i j Hi Hj E. destruct (HP i Hi) as (_ & _ & _ & X). destruct (HP j Hj) as (_ & _ & _ & Y). congruence. }
    unfold H_elem, spin_elem. f_equal.
    - set (F := fun i j => kmul (kofnat 2) (kadd (kadd (kmul (sp_jx s i j) (pair_elem d n i j SX SX a b))
         (kmul (sp_jy s i j) (pair_elem d n i j SY SY a b))) (kmul (sp_jz s i j) (pair_elem d n i j SZ SZ a b)))).
      transitivity (ksum n (fun i => ksum i (fun j => F (pi i) (pi j)))); [|apply (lower_sum_perm F pi); auto].
      + apply ksum_ext. intros i Hi. apply ksum_ext. intros j Hj. unfold F.
        destruct (HJ i j Hi ltac:(lia)) as (_ & -> & _ & -> & _ & ->).
        assert (E : forall A, pair_elem d n i j A A (pull d n pi a) (pull d n pi b) = pair_elem d n (pi i) (pi j) A A a b).
        { intros A. unfold pair_elem.
          rewrite (agree_pull rho) by (auto; cbn; intros p [->|[->|[]]]; lia).
          cbn [map]. rewrite !(digit_pull d n dnz) by lia. reflexivity. }
        rewrite !E. reflexivity.
      + intros i j Hi Hj. unfold F. destruct (HJ i j Hi Hj) as (-> & _ & -> & _ & -> & _).
        rewrite !(pair_elem_sym d n i j). reflexivity.
    - rewrite <- (ksum_reindex n pi (fun i => kmul k1 (kadd (kadd (kmul (sp_hx s i) (site_elem d n i SX a b))
         (kmul (sp_hy s i) (site_elem d n i SY a b))) (kmul (sp_hz s i) (site_elem d n i SZ a b))))) by assumption.
      apply ksum_ext. intros i Hi. destruct (Hh i Hi) as (-> & -> & ->).
      assert (E : forall A, site_elem d n i A (pull d n pi a) (pull d n pi b) = site_elem d n (pi i) A a b).
      { intros A. unfold site_elem. rewrite (agree_pull rho) by (auto; cbn; intros p [->|[]]; lia).
        cbn [map]. rewrite !(digit_pull d n dnz) by lia. reflexivity. }
      rewrite !E. reflexivity.
  Qed.
  End Sys.
End SpinSym.
