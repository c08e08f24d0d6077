(** Eigenvectors found in symmetry sectors, put together, are an eigenbasis of the
    whole system; averages over the sectors are averages over the system. *)
From Coq Require Import List Arith Lia Reals Lra Bool Permutation.
From Verif Require Import Scalars Res Matrix SpecMat ModelGeometry ModelPhase ModelSymmetry SymBase ModelBase SpecSymmetry Sums SymGroup
  ModelThermal SpecThermal ThermalBase ThermalSectors ThermalBasis ThermalDiag ThermalSites ThermalFacts.
Import ListNotations.
Local Open Scope R_scope.

Definition hcat (A B : cmat) : cmat :=
  Mat (nrow A) (ncol A + ncol B) (fun i k => if (k <? ncol A)%nat then ent A i k else ent B i (k - ncol A)%nat).
Fixpoint stack (N : nat) (ws : list cmat) : cmat :=
  match ws with [] => mzero N 0 | A :: t => hcat (Mat N (ncol A) (ent A)) (stack N t) end.
Definition orth (A B : cmat) : Prop :=
  forall k l, (k < ncol A)%nat -> (l < ncol B)%nat -> inner (nrow A) (col A k) (col B l) = c0.

Lemma stack_nrow N ws : nrow (stack N ws) = N.
Proof. destruct ws; reflexivity. Qed.
Lemma col_hcat1 A B k i : (k < ncol A)%nat -> col (hcat A B) k i = col A k i.
Proof. intros H. unfold col, hcat. cbn [ent]. apply Nat.ltb_lt in H. rewrite H. reflexivity. Qed.
Lemma col_hcat2 A B k i : (ncol A <= k)%nat -> col (hcat A B) k i = col B (k - ncol A) i.
Proof. intros H. unfold col, hcat. cbn [ent]. apply Nat.ltb_ge in H. rewrite H. reflexivity. Qed.

Lemma orth_sym A B : nrow A = nrow B -> orth A B -> orth B A.
Proof. intros E H k l Hk Hl. rewrite <- (inner_conj (nrow B)), <- E, H by assumption. apply kconj_0. Qed.

Lemma hcat_orthonormal A B : nrow A = nrow B -> orthonormal A -> orthonormal B -> orth A B -> orthonormal (hcat A B).
Proof.
  intros E HA HB X k l Hk Hl. cbn [hcat nrow ncol] in *.
  destruct (Nat.lt_ge_cases k (ncol A)) as [Ka|Ka], (Nat.lt_ge_cases l (ncol A)) as [La|La].
  - rewrite (inner_ext _ _ (col A k) _ (col A l)) by (intros; apply col_hcat1; assumption). apply HA; assumption.
  - rewrite (inner_ext _ _ (col A k) _ (col B (l - ncol A))) by (intros; first [apply col_hcat1; assumption | apply col_hcat2; assumption]).
    rewrite X by lia. replace (k =? l)%nat with false by (symmetry; apply Nat.eqb_neq; lia). reflexivity.
  - rewrite (inner_ext _ _ (col B (k - ncol A)) _ (col A l)) by (intros; first [apply col_hcat1; assumption | apply col_hcat2; assumption]).
    rewrite E, (orth_sym A B E X) by lia. replace (k =? l)%nat with false by (symmetry; apply Nat.eqb_neq; lia). reflexivity.
  - rewrite (inner_ext _ _ (col B (k - ncol A)) _ (col B (l - ncol A))) by (intros; apply col_hcat2; assumption).
    rewrite E, HB by lia. destruct (Nat.eqb_spec k l) as [->|Ne]; [rewrite Nat.eqb_refl; reflexivity|].
    replace (k - ncol A =? l - ncol A)%nat with false by (symmetry; apply Nat.eqb_neq; lia). reflexivity.
Qed.
Lemma orth_stack N A ws : nrow A = N -> (forall B, In B ws -> nrow B = N) -> Forall (orth A) ws -> orth A (stack N ws).
Proof.
  intros EA EW F. induction F as [|B t H F IH]; intros k l Hk Hl; [cbn in Hl; lia|]. cbn [stack hcat ncol] in Hl.
  specialize (IH ltac:(intros; apply EW; right; assumption)).
  cbn [stack]. destruct (Nat.lt_ge_cases l (ncol B)) as [La|La].
  - rewrite (inner_ext _ _ (col A k) _ (col B l)); [apply H; assumption | reflexivity |].
    intros i _. apply (col_hcat1 (Mat N (ncol B) (ent B))). exact La.
  - rewrite (inner_ext _ _ (col A k) _ (col (stack N t) (l - ncol B))); [apply IH; lia | reflexivity |].
    intros i _. apply (col_hcat2 (Mat N (ncol B) (ent B))). exact La.
Qed.
Lemma stack_orthonormal N ws : (forall A, In A ws -> nrow A = N /\ orthonormal A) -> ForallOrdPairs orth ws -> orthonormal (stack N ws).
Proof.
  intros HW F. induction F as [|A t H F IH]; [intros k l Hk; cbn in Hk; lia|].
  destruct (HW A (or_introl eq_refl)) as (E & ON). cbn [stack].
  assert (Q : Mat N (ncol A) (ent A) = A) by (subst N; destruct A; reflexivity). rewrite Q.
  apply hcat_orthonormal; [rewrite stack_nrow; exact E | exact ON | |].
  - apply IH. intros; apply HW; right; assumption.
  - apply orth_stack; [exact E | intros; apply HW; right; assumption | exact H].
Qed.

Lemma eigen_nil H N : nrow H = N -> ncol H = N -> eigen H (mzero N 0) [].
Proof. intros A B. repeat split; auto. intros i k _ Hk. cbn in Hk. lia. Qed.
Lemma hcat_eigen H A B E1 E2 : eigen H A E1 -> eigen H B E2 -> eigen H (hcat A B) (E1 ++ E2).
Proof.
  intros (A1 & A2 & A3 & A4) (B1 & B2 & B3 & B4). split; [cbn; rewrite app_length; lia|]. split; [exact A2|]. split; [exact A3|].
  intros i k Hi Hk. cbn [hcat nrow ncol] in *.
  destruct (Nat.lt_ge_cases k (ncol A)) as [Ka|Ka].
  - rewrite (apply_ext _ _ _ (col A k)) by (intros; apply col_hcat1; assumption). rewrite A4 by assumption.
    rewrite app_nth1 by lia. change (ent (hcat A B) i k) with (col (hcat A B) k i). rewrite col_hcat1 by assumption. reflexivity.
  - rewrite (apply_ext _ _ _ (col B (k - ncol A))) by (intros; apply col_hcat2; assumption).
    replace (nrow A) with (nrow B) by lia. rewrite B4 by lia.
    rewrite app_nth2 by lia. change (ent (hcat A B) i k) with (col (hcat A B) k i). rewrite col_hcat2 by assumption. rewrite A1. reflexivity.
Qed.
Lemma expect_ext' n O a b : (forall i, (i < n)%nat -> a i = b i) -> expect n O a = expect n O b.
Proof. intros H. unfold expect. f_equal. apply inner_ext; [exact H|]. intros i _. apply apply_ext, H. Qed.
Lemma hcat_levels O A B E1 E2 : ncol A = length E1 -> ncol B = length E2 -> nrow A = nrow B ->
  levels (E1 ++ E2) (hcat A B) O = levels E1 A O ++ levels E2 B O.
Proof.
  intros H1 H2 H3. unfold levels. rewrite app_length, seq_app, map_app. f_equal.
  - apply map_ext_in. intros k Hk. apply in_seq in Hk. cbn [hcat nrow]. f_equal; [apply app_nth1; lia|].
    apply expect_ext'. intros i _. apply col_hcat1. lia.
  - assert (S : forall a b n, seq (a + b) n = map (fun k => (a + k)%nat) (seq b n)).
    { intros a b n. revert b. induction n as [|n IH]; intros b; [reflexivity|]. cbn [seq map]. f_equal. rewrite <- IH. f_equal. lia. }
    replace (0 + length E1)%nat with (length E1 + 0)%nat by lia. rewrite S, map_map.
    apply map_ext_in. intros k Hk. apply in_seq in Hk. cbn [hcat nrow]. f_equal.
    + rewrite app_nth2 by lia. f_equal. lia.
    + rewrite H3. apply expect_ext'. intros i _. rewrite col_hcat2 by lia. f_equal. lia.
Qed.
Lemma complete_from V : (forall i j, (i < nrow V)%nat -> (j < nrow V)%nat ->
    ksum (ncol V) (fun k => ent V i k *c conj (ent V j k)) = kb (i =? j)%nat) -> complete_basis V.
Proof.
  intros H psi i Hi. unfold inner.
  rewrite (ksum_ext _ _ (fun k => ksum (nrow V) (fun j => (ent V i k *c conj (ent V j k)) *c psi j))).
  - rewrite ksum_swap. rewrite (ksum_ext _ _ (fun j => kb (i =? j)%nat *c psi j)).
    + rewrite (ksum_single _ i); [rewrite Nat.eqb_refl; cbn [kb]; ring | exact Hi |].
      intros j Hj Ne. replace (i =? j)%nat with false by (symmetry; apply Nat.eqb_neq; congruence). cbn [kb]. ring.
    + intros j Hj. rewrite ksum_mul_r, H by assumption. reflexivity.
  - intros k Hk. rewrite <- ksum_mul_l. apply ksum_ext. intros j Hj. unfold col. ring.
Qed.
Lemma from_complete V i j : complete_basis V -> (i < nrow V)%nat -> (j < nrow V)%nat ->
    ksum (ncol V) (fun k => ent V i k *c conj (ent V j k)) = kb (i =? j)%nat.
Proof.
  intros C Hi Hj. rewrite (C (fun m => kb (m =? j)%nat) i Hi). apply ksum_ext. intros k Hk. f_equal.
  unfold inner. symmetry. rewrite (ksum_single _ j); [unfold col; rewrite Nat.eqb_refl; cbn [kb]; ring | exact Hj |].
  intros m Hm Ne. replace (m =? j)%nat with false by (symmetry; apply Nat.eqb_neq; congruence). cbn [kb]. ring.
Qed.

Lemma msum_apply_any N (l : list cmat) x i j : (forall A, In A l -> square N A) -> nrow x = N -> (i < N)%nat ->
  ent (mmul (msum N l) x) i j = klsum l (fun A => ent (mmul A x) i j).
Proof.
  intros Hl Hr Hi. induction l as [|A l IH].
  - cbn [msum fold_right klsum mmul mzero ent ncol]. apply ksum_zero. intros k _. ring.
  - cbn [klsum]. rewrite <- IH by (intros; apply Hl; right; assumption).
    destruct (Hl A (or_introl eq_refl)) as (A1 & A2).
    assert (S : square N (msum N l)).
    { destruct l as [|B l]; [split; reflexivity|]. destruct (Hl B (or_intror (or_introl eq_refl))). split; assumption. }
    destruct S as (S1 & S2). cbn [msum fold_right]. fold (msum N l).
    cbn [mmul madd ent ncol]. rewrite A2, S2, <- ksum_add. apply ksum_ext. intros k _. ring.
Qed.
Lemma klsum_pick {A} (l : list A) (f : A -> CR) d s : (s < length l)%nat ->
  (forall t, (t < length l)%nat -> t <> s -> f (nth t l d) = c0) -> klsum l f = f (nth s l d).
Proof.
  revert s. induction l as [|a l IH]; intros s Hs H; [cbn in Hs; lia|]. cbn [klsum]. destruct s as [|s].
  - cbn [nth]. enough (X : klsum l f = c0) by (rewrite X; ring).
    assert (Z : forall t, (t < length l)%nat -> f (nth t l d) = c0) by (intros t Ht; apply (H (S t)); cbn; lia).
    clear - Z. induction l as [|b l IH]; [reflexivity|]. cbn [klsum]. pose proof (Z 0%nat ltac:(cbn; lia)) as Z0. cbn [nth] in Z0. rewrite Z0, IH; [ring|].
    intros t Ht. apply (Z (S t)). cbn. lia.
  - cbn [nth]. pose proof (H 0%nat ltac:(cbn; lia) ltac:(lia)) as H0. cbn [nth] in H0. rewrite H0. rewrite (IH s); [ring | cbn in Hs; lia | intros t Ht Ne; apply (H (S t)); cbn; lia].
Qed.
Lemma pairs_from_index {A} (R : A -> A -> Prop) (l : list A) d :
  (forall a b, (a < b < length l)%nat -> R (nth a l d) (nth b l d)) -> ForallOrdPairs R l.
Proof.
  induction l as [|x l IH]; intros H; constructor.
  - apply Forall_forall. intros y Hy. apply (In_nth _ _ d) in Hy as (b & Hb & <-). apply (H 0%nat (S b)). cbn. lia.
  - apply IH. intros a b Hab. apply (H (S a) (S b)). cbn. lia.
Qed.

(** ** Sectors *)
Definition bB (x : block) : cmat := fst (fst x).
Definition bV (x : block) : cmat := snd (fst x).
Definition bE (x : block) : list R := snd x.
Definition bW (x : block) : cmat := mmul (madj (bB x)) (bV x).

Definition d0 : block := (mzero 0 0, mzero 0 0, []).

Section Blocks.
  Variables (N : nat) (H : cmat) (l : list block).
  Hypothesis SQ : square N H.
  Hypothesis SP : splits N (map bB l).
  Hypothesis BD : block_diagonal (map bB l) H.
  Hypothesis EB : forall x, In x l -> eigenbasis (seen_in (bB x) H) (bV x) (bE x).

  Lemma nthB s : nth s (map bB l) (mzero 0 0) = bB (nth s l d0).
  Proof. exact (map_nth bB l d0 s). Qed.
  Lemma In_block x : In x l -> exists s, (s < length l)%nat /\ x = nth s l d0.
  Proof. intros Hx. apply (In_nth _ _ d0) in Hx as (s & Hs & <-). eauto. Qed.
  Lemma B_dims x : In x l -> ncol (bB x) = N /\ meq (mmul (bB x) (madj (bB x))) (meye (nrow (bB x))) /\ nrow (bV x) = nrow (bB x).
  Proof.
    intros Hx. destruct (EB x Hx) as ((_ & E2 & _) & _). cbn in E2. apply In_block in Hx as (s & Hs & ->).
    destruct SP as (S1 & _). specialize (S1 s ltac:(rewrite map_length; exact Hs)). cbv zeta in S1. rewrite nthB in S1.
    destruct S1; split; [assumption|]. split; [assumption | lia].
  Qed.
  Lemma W_nrow x : In x l -> nrow (bW x) = N.
  Proof. intros Hx. destruct (B_dims x Hx) as (H1 & _). exact H1. Qed.

  Lemma inner_W x y k m : In x l -> In y l ->
    inner (nrow (bW x)) (col (bW x) k) (col (bW y) m) = ent (mmul (madj (bV x)) (mmul (mmul (bB x) (madj (bB y))) (bV y))) k m.
  Proof.
    intros Hx Hy. destruct (B_dims x Hx) as (X1 & _ & X3). destruct (B_dims y Hy) as (Y1 & _ & Y3).
    unfold inner, col, bW. cbn [mmul madj ent nrow ncol]. rewrite X1, X3.
    rewrite (ksum_ext N _ (fun i => ksum (nrow (bB x)) (fun a => conj (ent (bV x) a k) *c (ent (bB x) a i *c ksum (nrow (bB y)) (fun b => conj (ent (bB y) b i) *c ent (bV y) b m))))).
    2:{ intros i Hi. rewrite ksum_conj, <- ksum_mul_r. apply ksum_ext. intros a Ha. rewrite kconj_mul, kconj_inv. ring. }
    rewrite ksum_swap. apply ksum_ext. intros a Ha. rewrite ksum_mul_l. f_equal.
    rewrite (ksum_ext N _ (fun i => ksum (nrow (bB y)) (fun b => ent (bB x) a i *c conj (ent (bB y) b i) *c ent (bV y) b m))).
    2:{ intros i Hi. rewrite <- ksum_mul_l. apply ksum_ext. intros b Hb. ring. }
    rewrite ksum_swap. apply ksum_ext. intros b Hb. rewrite ksum_mul_r. reflexivity.
  Qed.

  Lemma W_orthonormal x : In x l -> orthonormal (bW x).
  Proof.
    intros Hx k m Hk Hm. rewrite inner_W by assumption. destruct (B_dims x Hx) as (X1 & (D1 & D2 & X2) & X3).
    destruct (EB x Hx) as (_ & ON & _). cbn [bW mmul ncol] in Hk, Hm. rewrite <- (ON k m Hk Hm).
    unfold inner, col. cbn [mmul madj ent nrow ncol]. apply ksum_ext. intros a Ha. f_equal.
    rewrite (ksum_single _ a).
    - specialize (X2 a a). cbn [mmul madj meye ent nrow ncol] in X2. rewrite X2 by lia. rewrite Nat.eqb_refl. cbn [kb]. ring.
    - lia.
    - intros b Hb Ne. specialize (X2 a b). cbn [mmul madj meye ent nrow ncol] in X2. rewrite X2 by lia.
      replace (a =? b)%nat with false by (symmetry; apply Nat.eqb_neq; congruence). cbn [kb]. ring.
  Qed.
  Lemma W_orth s t : (s < length l)%nat -> (t < length l)%nat -> s <> t -> orth (bW (nth s l d0)) (bW (nth t l d0)).
  Proof.
    intros Hs Ht Ne k m Hk Hm. assert (Ix := nth_In l d0 Hs). assert (Iy := nth_In l d0 Ht).
    rewrite inner_W by assumption. destruct (B_dims _ Ix) as (X1 & _ & X3). destruct (B_dims _ Iy) as (Y1 & _ & Y3).
    destruct SP as (_ & S2 & _). specialize (S2 s t ltac:(rewrite map_length; exact Hs) ltac:(rewrite map_length; exact Ht) Ne).
    cbv zeta in S2. rewrite !nthB in S2. destruct S2 as (_ & _ & S2). cbn [mmul madj mzero ent nrow ncol] in S2 |- *.
    apply ksum_zero. intros a Ha. rewrite ksum_zero; [ring|]. intros b Hb. rewrite S2 by lia. ring.
  Qed.

  Lemma W_eigen x : In x l -> eigen H (bW x) (bE x).
  Proof.
    intros Hx. destruct (B_dims x Hx) as (X1 & _ & X3). destruct (EB x Hx) as ((E1 & _ & _ & E4) & _). destruct SQ as (Q1 & Q2).
    split; [exact E1|]. rewrite W_nrow by assumption. split; [exact Q1|]. split; [exact Q2|]. intros i k Hi Hk. cbn [bW mmul ncol] in Hk.
    assert (P : forall i m, (i < N)%nat -> (m < nrow (bB x))%nat ->
       ent (mmul H (madj (bB x))) i m = ent (mmul (madj (bB x)) (seen_in (bB x) H)) i m).
    { clear - SP BD SQ Hx. intros i m Hi Hm. destruct SP as (S1 & _ & S3). destruct SQ as (Q1 & Q2). apply In_block in Hx as (s & Hs & ->).
      assert (X1 : forall t, (t < length l)%nat -> ncol (bB (nth t l d0)) = N).
      { intros t Ht. specialize (S1 t ltac:(rewrite map_length; exact Ht)). cbv zeta in S1. rewrite nthB in S1. apply S1. }
      set (B := bB (nth s l d0)) in *. set (X := mmul H (madj B)).
      assert (XB : ncol B = N) by (apply X1; exact Hs).
      transitivity (ent (mmul (msum N (map (fun A => mmul (madj A) A) (map bB l))) X) i m).
      { symmetry. transitivity (ent (mmul (meye N) X) i m).
        - assert (M : meq (mmul (msum N (map (fun A => mmul (madj A) A) (map bB l))) X) (mmul (meye N) X)).
          { apply mmul_meq; [apply meq_ncol in S3; rewrite S3; cbn; lia | exact S3 | reflexivity]. }
          apply M.
          + apply meq_nrow in S3. cbn [mmul nrow]. rewrite S3. exact Hi.
          + cbn. exact Hm.
        - apply mmul_eye_l; [exact Q1 | cbn; exact Hi | cbn; exact Hm]. }
      rewrite msum_apply_any; [| | exact Q1 | exact Hi].
      2:{ intros A HA. apply in_map_iff in HA as (A' & <- & HA). apply in_map_iff in HA as (y & <- & Hy).
          apply In_block in Hy as (t & Ht & ->). split; cbn; apply X1; exact Ht. }
      rewrite map_map. rewrite klsum_map.
      rewrite (klsum_pick l _ d0 s Hs).
      - fold B. assert (M : meq (mmul (mmul (madj B) B) X) (mmul (madj B) (mmul B X))) by (apply mmul_assoc; cbn; lia).
        rewrite (proj2 (proj2 M) i m) by (cbn; lia).
        cbn [mmul madj ent nrow ncol]. apply ksum_ext. intros a Ha. f_equal. unfold seen_in.
        assert (M2 : meq (mmul (mmul B H) (madj B)) (mmul B X)) by (apply mmul_assoc; cbn; lia).
        symmetry. apply M2; cbn; assumption.
      - intros t Ht Ne. set (A := bB (nth t l d0)).
        assert (M : meq (mmul (mmul (madj A) A) X) (mmul (madj A) (mmul A X))) by (apply mmul_assoc; cbn; unfold A; rewrite X1 by exact Ht; exact Q1).
        rewrite (proj2 (proj2 M) i m) by (cbn; unfold A; rewrite ?X1 by exact Ht; assumption).
        specialize (BD t s ltac:(rewrite map_length; exact Ht) ltac:(rewrite map_length; exact Hs) Ne). cbv zeta in BD. rewrite !nthB in BD.
        destruct BD as (_ & _ & Z). apply ksum_zero. intros a Ha. fold A B X in Z. cbn [mmul madj ncol] in Ha.
        rewrite (Z a m) by (cbn; assumption). cbn [mzero ent]. ring. }
    transitivity (ksum (nrow (bB x)) (fun m => ent (mmul H (madj (bB x))) i m *c ent (bV x) m k)).
    { unfold apply, col, bW. cbn [mmul madj ent nrow ncol]. rewrite Q2.
      rewrite (ksum_ext N _ (fun j => ksum (nrow (bB x)) (fun a => ent H i j *c conj (ent (bB x) a j) *c ent (bV x) a k))).
      2:{ intros j Hj. rewrite <- ksum_mul_l. apply ksum_ext. intros a Ha. ring. }
      rewrite ksum_swap. apply ksum_ext. intros a Ha. rewrite ksum_mul_r. reflexivity. }
    rewrite (ksum_ext _ _ (fun m => ksum (nrow (bB x)) (fun a => conj (ent (bB x) a i) *c (ent (seen_in (bB x) H) a m *c ent (bV x) m k)))).
    2:{ intros m Hm. rewrite P by assumption. cbn [mmul madj ent nrow ncol]. rewrite <- ksum_mul_r. apply ksum_ext. intros a Ha. ring. }
    rewrite ksum_swap. unfold bW. cbn [mmul madj ent nrow ncol]. rewrite <- ksum_mul_l. apply ksum_ext. intros a Ha.
    rewrite ksum_mul_l. specialize (E4 a k ltac:(lia) Hk). unfold apply, col in E4. rewrite X3 in E4. rewrite E4. ring.
  Qed.

  Let big := stack N (map bW l).
  Let bigE := concat (map bE l).

  Lemma big_eigen : eigen H big bigE.
  Proof.
    unfold big, bigE. assert (HW := W_eigen). assert (HN := W_nrow). destruct SQ as (Q1 & Q2). clear - HW HN Q1 Q2.
    induction l as [|x t IH]; [apply eigen_nil; assumption|]. cbn [map stack concat].
    assert (Q : Mat N (ncol (bW x)) (ent (bW x)) = bW x).
    { specialize (HN x (or_introl eq_refl)). destruct (bW x). cbn in *. subst. reflexivity. }
    rewrite Q. apply hcat_eigen; [apply HW; left; reflexivity|]. apply IH; intros; [apply HW | apply HN]; right; assumption.
  Qed.
  Lemma big_orthonormal : orthonormal big.
  Proof.
    apply stack_orthonormal.
    - intros A HA. apply in_map_iff in HA as (x & <- & Hx). split; [apply W_nrow; exact Hx | apply W_orthonormal; exact Hx].
    - apply (pairs_from_index _ _ (bW d0)). intros a b Hab. rewrite map_length in Hab. rewrite !(map_nth bW l d0). apply W_orth; lia.
  Qed.
  Lemma stack_rows ws i j : (i < N)%nat -> (j < N)%nat ->
    ksum (ncol (stack N ws)) (fun k => ent (stack N ws) i k *c conj (ent (stack N ws) j k)) =
    klsum ws (fun A => ksum (ncol A) (fun k => ent A i k *c conj (ent A j k))).
  Proof.
    intros Hi Hj. induction ws as [|A t IH]; [reflexivity|]. cbn [stack klsum hcat ncol]. rewrite ksum_plus. f_equal.
    - apply ksum_ext. intros k Hk. unfold hcat. cbn [ent ncol]. cbn [ncol] in Hk. apply Nat.ltb_lt in Hk. rewrite Hk. reflexivity.
    - rewrite <- IH. apply ksum_ext. intros k Hk. unfold hcat. cbn [ent ncol].
      replace (ncol A + k <? ncol A)%nat with false by (symmetry; apply Nat.ltb_ge; lia).
      replace (ncol A + k - ncol A)%nat with k by lia. reflexivity.
  Qed.
  Lemma big_complete : complete_basis big.
  Proof.
    apply complete_from. unfold big. rewrite stack_nrow. intros i j Hi Hj. rewrite stack_rows by assumption. rewrite klsum_map.
    destruct SP as (_ & _ & S3). destruct S3 as (_ & _ & S3). specialize (S3 i j).
    destruct (msum_ent N (map (fun A => mmul (madj A) A) (map bB l)) i j) as (D1 & D2 & D3).
    { intros A HA. apply in_map_iff in HA as (A' & <- & HA). apply in_map_iff in HA as (y & <- & Hy). destruct (B_dims y Hy) as (Y1 & _). split; exact Y1. }
    rewrite D1, D2, D3 in S3. specialize (S3 Hi Hj). cbn [meye ent] in S3. rewrite <- S3, map_map, klsum_map.
    apply klsum_ext. intros x Hx. destruct (B_dims x Hx) as (X1 & _ & X3). destruct (EB x Hx) as (_ & _ & CM).
    unfold bW. cbn [mmul madj ent nrow ncol].
    rewrite (ksum_ext _ _ (fun k => ksum (nrow (bB x)) (fun a => conj (ent (bB x) a i) *c ksum (nrow (bB x)) (fun b => ent (bB x) b j *c (ent (bV x) a k *c conj (ent (bV x) b k)))))).
    2:{ intros k Hk. rewrite <- ksum_mul_r. apply ksum_ext. intros a Ha. rewrite ksum_conj, <- !ksum_mul_l. apply ksum_ext. intros b Hb.
        rewrite kconj_mul, kconj_inv. ring. }
    rewrite ksum_swap. apply ksum_ext. intros a Ha. rewrite ksum_mul_l. f_equal. rewrite ksum_swap.
    rewrite (ksum_ext _ _ (fun b => ent (bB x) b j *c kb (a =? b)%nat)).
    2:{ intros b Hb. rewrite ksum_mul_l. f_equal. apply from_complete; [exact CM | lia | lia]. }
    rewrite (ksum_single _ a); [rewrite Nat.eqb_refl; cbn [kb]; ring | exact Ha |].
    intros b Hb Ne. replace (a =? b)%nat with false by (symmetry; apply Nat.eqb_neq; congruence). cbn [kb]. ring.
  Qed.
  Lemma big_levels O : square N O -> levels bigE big O = concat (map (fun x => levels (bE x) (bV x) (seen_in (bB x) O)) l).
  Proof.
    intros (O1 & O2). unfold big, bigE. assert (HN := B_dims).
    assert (HE : forall x, In x l -> ncol (bV x) = length (bE x)) by (intros x Hx; apply (EB x Hx)). clear - HN HE O1 O2.
    induction l as [|x t IH]; [reflexivity|]. cbn [map stack concat].
    destruct (HN x (or_introl eq_refl)) as (X1 & _ & X3). pose proof (HE x (or_introl eq_refl)) as X4.
    rewrite hcat_levels.
    - rewrite IH by (intros; first [apply HN; right; assumption | apply HE; right; assumption]). f_equal.
      unfold levels. apply map_ext_in. intros k Hk. f_equal. rewrite X3. unfold seen_in. rewrite expect_lift by (cbn; lia).
      cbn [nrow]. rewrite X1. reflexivity.
    - exact X4.
    - assert (HE' : forall y, In y t -> ncol (bV y) = length (bE y)) by (intros; apply HE; right; assumption).
      clear - HE'. induction t as [|y t IH]; [reflexivity|]. cbn [map stack concat hcat ncol]. rewrite app_length, <- IH by (intros; apply HE'; right; assumption).
      rewrite <- HE' by (left; reflexivity). reflexivity.
    - rewrite stack_nrow. reflexivity.
  Qed.

  Theorem blocks_thermal V E O T : hermitian N H -> eigenbasis H V E -> nrow V = N -> square N O -> (0 < N)%nat ->
    (forall x, In x l -> (0 < nrow (bB x))%nat) ->
    T <> 0 \/ (sorted_list E /\ (forall x, In x l -> sorted_list (bE x)) /\ apart gap13 E) ->
    (vals <- rmap (fun x => exp_vals_thermal (bV x) (seen_in (bB x) O) (bE x) T) l ;; combine_sectors vals (map bE l) T) =
    exp_vals_thermal V O E T.
  Proof.
    intros HH HV NV SO NP NB HT.
    set (sec := fun x => (bV x, seen_in (bB x) O, bE x) : sector).
    assert (R1 : forall f : sector -> res R, rmap (fun x => f (sec x)) l = rmap f (map sec l)) by (intros f; clear; induction l as [|x t IH]; [reflexivity|]; cbn [rmap map]; rewrite IH; reflexivity).
    assert (R2 : map bE l = map sE (map sec l)) by (rewrite map_map; reflexivity).
    rewrite R2. change (rmap (fun x => exp_vals_thermal (bV x) (seen_in (bB x) O) (bE x) T) l) with (rmap (fun x => sector_avg T (sec x)) l). rewrite R1.
    assert (BIG : eigenbasis H big bigE) by (split; [exact big_eigen | split; [exact big_orthonormal | exact big_complete]]).
    assert (NL : l <> []).
    { intros ->. destruct SP as (_ & _ & S3). cbn in S3. destruct S3 as (_ & _ & S3). specialize (S3 0%nat 0%nat NP NP). cbn in S3. apply c1_neq_0. symmetry. exact S3. }
    assert (OK : forall s, In s (map sec l) -> sector_ok s).
    { intros s Hs. apply in_map_iff in Hs as (x & <- & Hx). destruct (B_dims x Hx) as (X1 & _ & X3). destruct (EB x Hx) as ((X4 & _) & ON & CM).
      unfold sector_ok, fits, sec, sV, sop, sE. cbn [fst snd]. split; [cbn; lia|]. split; [cbn; lia|]. split; [exact X4|].
      intros Z. rewrite Z in X4. cbn in X4. pose proof (from_complete (bV x) 0 0 CM) as C. specialize (NB x Hx).
      rewrite X4 in C. cbn [ksum Nat.eqb kb] in C. apply c1_neq_0. symmetry. apply C; lia. }
    assert (FB : fits big O bigE).
    { destruct SO as (O1 & O2). unfold fits. unfold big at 1 2. rewrite stack_nrow. split; [exact O1|]. split; [exact O2|]. split; [apply big_eigen|].
      intros Z. destruct l as [|x t]; [congruence|]. destruct (OK (sec x) (or_introl eq_refl)) as (_ & _ & _ & NE). apply NE. unfold bigE in Z. cbn in Z.
      apply app_eq_nil in Z. apply Z. }
    assert (FV : fits V O E).
    { destruct SO as (O1 & O2). destruct HV as ((V1 & _) & ON & CM). unfold fits. rewrite NV. split; [exact O1|]. split; [exact O2|]. split; [exact V1|].
      intros ->. cbn in V1. pose proof (from_complete V 0 0 CM) as C. rewrite V1 in C. cbn [ksum Nat.eqb kb] in C. apply c1_neq_0. symmetry. apply C; lia. }
    assert (LV : concat (map sector_levels (map sec l)) = levels bigE big O).
    { rewrite (big_levels O SO). rewrite map_map. reflexivity. }
    destruct (Req_EM_T T 0) as [->|NT].
    - destruct HT as [C|(SE & SS & GA)]; [congruence|].
      assert (INC : forall e, In e bigE -> In e E).
      { intros e He. apply (energies_sub H big V bigE E); auto. - unfold big; rewrite stack_nrow; exact HH. - rewrite NV; unfold big; rewrite stack_nrow; reflexivity. }
      assert (INC' : forall e, In e E -> In e bigE).
      { intros e He. apply (energies_sub H V big E bigE); auto. - rewrite NV; exact HH. - rewrite NV; unfold big; rewrite stack_nrow; reflexivity. }
      rewrite (combine_zero (map sec l) (nth 0 E 0)).
      + rewrite LV. rewrite (thermal_zero V O E FV SE GA). f_equal.
        apply (average_basis H); auto.
        * unfold big; rewrite stack_nrow; exact HH.
        * rewrite NV; unfold big; rewrite stack_nrow; reflexivity.
      + destruct l; [congruence | discriminate].
      + exact OK.
      + rewrite map_map. change (map (fun x => sE (sec x)) l) with (map bE l). fold bigE.
        destruct (sorted_least E) as (L1 & L2); [apply FV | exact SE |]. split; [apply INC'; exact L1 | intros x Hx; apply L2, INC, Hx].
      + rewrite map_map. change (map (fun x => sE (sec x)) l) with (map bE l). fold bigE. intros x y Hx Hy. apply GA; apply INC; assumption.
      + intros s Hs. apply in_map_iff in Hs as (x & <- & Hx). apply (SS x Hx).
    - rewrite (combine_finite (map sec l)); [| destruct l; [congruence | discriminate] | exact OK | exact NT].
      rewrite LV, (thermal_finite V O E T FV NT). f_equal. apply (boltzmann_basis H); auto.
      * unfold big; rewrite stack_nrow; exact HH.
      * rewrite NV; unfold big; rewrite stack_nrow; reflexivity.
  Qed.
End Blocks.
