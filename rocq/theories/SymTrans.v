(** Sectors of two commuting translations. *)
From Coq Require Import List Arith Lia ZArith Reals Lra Bool Ring Setoid Morphisms Permutation.
From Verif Require Import Scalars Sums Res Matrix SpecMat ModelPhase ModelSymmetry SpecSymmetry
  GeoPhase SymBase SymReduce SymMany SymGroup SymRep SymTable SymZn.
Import ListNotations.
Local Open Scope R_scope.

Definition compress (B X : cmat) : cmat := mmul B (mmul X (madj B)).

Ltac dims := unfold compress; cbn [mmul madj mscale madd meye mzero nrow ncol]; congruence.

(** ** Restricting operators to a sector. *)
Section Compress.
  Variables (N : nat) (B : cmat).
  Hypothesis HB : ncol B = N.
  Hypothesis HBB : meq (mmul B (madj B)) (meye (nrow B)).
  Definition keeps (X : cmat) : Prop := square N X /\ meq (mmul (mmul (madj B) B) X) (mmul X (mmul (madj B) B)).

  Lemma adj_fix : meq (mmul (mmul (madj B) B) (madj B)) (madj B).
  Proof.
    etransitivity; [apply mmul_assoc; dims|]. etransitivity; [apply mm; [reflexivity|dims|exact HBB]|].
    apply mmul_eye_r. reflexivity.
  Qed.

  Lemma push_adj X : keeps X -> meq (mmul X (madj B)) (mmul (madj B) (compress B X)).
  Proof.
    intros ((X1 & X2) & HX). unfold compress.
    etransitivity; [apply mm; [reflexivity|dims|symmetry; apply adj_fix]|].
    etransitivity; [symmetry; apply mmul_assoc; dims|].
    etransitivity; [apply mm; [symmetry; exact HX|dims|reflexivity]|].
    etransitivity; [apply mmul_assoc; dims|]. apply mmul_assoc. dims.
  Qed.

  Lemma compress_mul X Y : keeps X -> square N Y ->
    meq (mmul (compress B Y) (compress B X)) (compress B (mmul Y X)).
  Proof.
    intros HX (Y1 & Y2). pose proof HX as ((X1 & X2) & _). unfold compress at 1.
    etransitivity; [apply mmul_assoc; dims|]. unfold compress at 2. apply mm; [reflexivity|dims|].
    etransitivity; [apply mmul_assoc; dims|]. 
    etransitivity; [apply mm; [reflexivity|cbn [compress mmul nrow ncol madj]; congruence|symmetry; apply push_adj; exact HX]|].
    symmetry. apply mmul_assoc. dims.
  Qed.

  Lemma compress_eye : meq (compress B (meye N)) (meye (nrow B)).
  Proof.
    unfold compress. etransitivity; [apply mm; [reflexivity|dims|apply mmul_eye_l; dims]|]. exact HBB.
  Qed.
  Lemma compress_meq X Y : square N X -> meq X Y -> meq (compress B X) (compress B Y).
  Proof.
    intros (X1 & X2) H. unfold compress. apply mm; [reflexivity|dims|]. apply mm; [exact H|dims|reflexivity].
  Qed.
  Lemma compress_sq X : square N X -> square (nrow B) (compress B X).
  Proof. split; reflexivity. Qed.
  Lemma compress_adj X : square N X -> meq (madj (compress B X)) (compress B (madj X)).
  Proof.
    intros (X1 & X2). unfold compress. etransitivity; [apply madj_mul; dims|].
    etransitivity; [apply mm; [apply madj_mul; dims|dims|reflexivity]|].
    etransitivity; [apply mm; [apply mm; [apply madj_inv|dims|reflexivity]|dims|reflexivity]|].
    apply mmul_assoc. dims.
  Qed.
  Lemma keeps_adj X : keeps X -> keeps (madj X).
  Proof.
    intros ((X1 & X2) & H). split; [split; dims|].
    assert (E : meq (madj (mmul (madj B) B)) (mmul (madj B) B)).
    { etransitivity; [apply madj_mul; dims|]. apply mm; [reflexivity|dims|apply madj_inv]. }
    assert (D : nrow (madj (mmul (madj B) B)) = N /\ ncol (madj (mmul (madj B) B)) = N) by (split; dims).
    destruct D as (D1 & D2).
    etransitivity; [apply mm; [symmetry; exact E|dims|reflexivity]|].
    etransitivity; [symmetry; apply madj_mul; dims|].
    etransitivity; [apply madj_proper; symmetry; exact H|].
    etransitivity; [apply madj_mul; dims|]. apply mm; [reflexivity|dims|exact E].
  Qed.
  Lemma keeps_mul X Y : keeps X -> keeps Y -> keeps (mmul X Y).
  Proof.
    intros ((X1 & X2) & HX) ((Y1 & Y2) & HY). split; [split; dims|].
    etransitivity; [symmetry; apply mmul_assoc; dims|].
    etransitivity; [apply mm; [exact HX|dims|reflexivity]|].
    etransitivity; [apply mmul_assoc; dims|].
    etransitivity; [apply mm; [reflexivity|dims|exact HY]|].
    symmetry. apply mmul_assoc. dims.
  Qed.
  Lemma keeps_eye : keeps (meye N).
  Proof.
    split; [split; reflexivity|]. etransitivity; [apply mmul_eye_r; dims|]. symmetry. apply mmul_eye_l. dims.
  Qed.

  Lemma compress_unitary U : keeps U -> unitary_mat N U -> unitary_mat (nrow B) (compress B U).
  Proof.
    intros HU ((U1 & U2) & H1 & H2). pose proof (keeps_adj U HU) as HA. split; [split; reflexivity|]. split.
    - etransitivity; [apply mm; [apply compress_adj; split; assumption|reflexivity|reflexivity]|].
      etransitivity; [apply compress_mul; [exact HU|apply HA]|].
      etransitivity; [apply compress_meq; [split; dims|exact H1]|]. apply compress_eye.
    - etransitivity; [apply mm; [reflexivity|reflexivity|apply compress_adj; split; assumption]|].
      etransitivity; [apply compress_mul; [exact HA|apply HU]|].
      etransitivity; [apply compress_meq; [split; dims|exact H2]|]. apply compress_eye.
  Qed.

  Lemma compress_pow U k : keeps U -> meq (mpow (nrow B) (compress B U) k) (compress B (mpow N U k)).
  Proof.
    intros HU. assert (Hs : forall k, keeps (mpow N U k)).
    { clear k. induction k as [|k IH]; cbn [mpow]; [apply keeps_eye|]. apply keeps_mul; assumption. }
    induction k as [|k IH]; cbn [mpow]; [symmetry; apply compress_eye|].
    etransitivity; [apply mm; [reflexivity| |exact IH]|].
    { rewrite (meq_nrow _ _ IH). reflexivity. }
    apply compress_mul; [apply Hs|apply HU].
  Qed.
End Compress.

(** ** Lists of sectors. *)
Definition clean_pair (H A B : cmat) : Prop :=
  meq (mmul A (mmul H (madj B))) (mzero (nrow A) (nrow B)) /\ meq (mmul B (mmul H (madj A))) (mzero (nrow B) (nrow A)).

Lemma FOP_nth {A} (R : A -> A -> Prop) d l : ForallOrdPairs R l ->
  forall a b, (a < b < length l)%nat -> R (nth a l d) (nth b l d).
Proof.
  induction 1 as [|x l Hx H IH]; intros a b Hab; [simpl in Hab; lia|].
  destruct b as [|b]; [lia|]. destruct a as [|a]; cbn [nth].
  - rewrite Forall_forall in Hx. apply Hx, nth_In. simpl in Hab. lia.
  - apply IH. simpl in Hab. lia.
Qed.
Lemma nth_FOP {A} (R : A -> A -> Prop) d l :
  (forall a b, (a < b < length l)%nat -> R (nth a l d) (nth b l d)) -> ForallOrdPairs R l.
Proof.
  induction l as [|x l IH]; intros H; constructor.
  - apply Forall_forall. intros y Hy. destruct (In_nth l y d Hy) as (b & Hb & <-). apply (H O (S b)). simpl. lia.
  - apply IH. intros a b Hab. apply (H (S a) (S b)). simpl. lia.
Qed.
Lemma FOP_app {A} (R : A -> A -> Prop) l1 l2 : ForallOrdPairs R l1 -> ForallOrdPairs R l2 ->
  (forall x y, In x l1 -> In y l2 -> R x y) -> ForallOrdPairs R (l1 ++ l2).
Proof.
  induction 1 as [|x l Hx H IH]; intros H2 H3; cbn [app]; [assumption|]. constructor.
  - apply Forall_app. split; [assumption|]. apply Forall_forall. intros y Hy. apply H3; [left; reflexivity|assumption].
  - apply IH; [assumption|]. intros; apply H3; [right|]; assumption.
Qed.
Lemma FOP_filter {A} (R : A -> A -> Prop) f l : ForallOrdPairs R l -> ForallOrdPairs R (filter f l).
Proof.
  induction 1 as [|x l Hx H IH]; cbn [filter]; [constructor|]. destruct (f x); [|assumption]. constructor; [|assumption].
  apply Forall_forall. intros y Hy. apply filter_In in Hy as (Hy & _). rewrite Forall_forall in Hx. auto.
Qed.
Lemma FOP_map {A B} (R : B -> B -> Prop) (f : A -> B) l :
  ForallOrdPairs (fun x y => R (f x) (f y)) l -> ForallOrdPairs R (map f l).
Proof.
  induction 1 as [|x l Hx H IH]; cbn [map]; constructor; [|assumption].
  apply Forall_map. assumption.
Qed.
Lemma FOP_impl {A} (R S : A -> A -> Prop) l : (forall x y, In x l -> In y l -> R x y -> S x y) -> ForallOrdPairs R l -> ForallOrdPairs S l.
Proof.
  intros Hi H. induction H as [|x l Hx H IH]; constructor.
  - rewrite Forall_forall in *. intros y Hy. apply Hi; [left; reflexivity|right; assumption|auto].
  - apply IH. intros; apply Hi; auto; right; assumption.
Qed.

Lemma block_diagonal_FOP H Bs : block_diagonal Bs H <-> ForallOrdPairs (clean_pair H) Bs.
Proof.
  split.
  - intros HH. apply (nth_FOP _ (mzero 0 0)). intros a b Hab. split; apply HH; lia.
  - intros HF a b Ha Hb Hne. cbv zeta. destruct (Nat.lt_ge_cases a b).
    + apply (FOP_nth _ (mzero 0 0) _ HF a b). lia.
    + apply (FOP_nth _ (mzero 0 0) _ HF b a). lia.
Qed.

Lemma orth_FOP N Bs : (forall A, In A Bs -> ncol A = N) ->
  (forall a b, (a < length Bs)%nat -> (b < length Bs)%nat -> a <> b ->
     let A := nth a Bs (mzero 0 0) in let B := nth b Bs (mzero 0 0) in
     meq (mmul A (madj B)) (mzero (nrow A) (nrow B))) <-> block_diagonal Bs (meye N).
Proof.
  intros HN. split; intros H a b Ha Hb Hne; specialize (H a b Ha Hb Hne); cbv zeta in *.
  - etransitivity; [|exact H]. apply mm; [reflexivity| |].
    + cbn [mmul meye nrow]. symmetry. apply HN, nth_In. assumption.
    + apply mmul_eye_l. cbn [madj nrow]. apply HN, nth_In. assumption.
  - etransitivity; [|exact H]. apply mm; [reflexivity| |].
    + cbn [madj nrow]. rewrite !HN by (apply nth_In; assumption). reflexivity.
    + symmetry. apply mmul_eye_l. cbn [madj nrow]. apply HN, nth_In. assumption.
Qed.

Lemma splits_lists N Bs : splits N Bs <->
  (forall A, In A Bs -> ncol A = N /\ meq (mmul A (madj A)) (meye (nrow A))) /\
  ForallOrdPairs (clean_pair (meye N)) Bs /\
  (forall i j, (i < N)%nat -> (j < N)%nat -> klsum Bs (fun A => ent (mmul (madj A) A) i j) = kb (i =? j)%nat).
Proof.
  assert (Hs : (forall A, In A Bs -> ncol A = N) -> forall i j,
    nrow (msum N (map (fun A => mmul (madj A) A) Bs)) = N /\ ncol (msum N (map (fun A => mmul (madj A) A) Bs)) = N /\
    ent (msum N (map (fun A => mmul (madj A) A) Bs)) i j = klsum Bs (fun A => ent (mmul (madj A) A) i j)).
  { intros HA i j. rewrite <- (klsum_map (fun A => mmul (madj A) A) Bs (fun A => ent A i j)).
    apply msum_ent. intros A HA'. apply in_map_iff in HA' as (B & <- & HB). cbn. rewrite HA by assumption. auto. }
  split.
  - intros (H1 & H2 & (_ & _ & H3)).
    assert (HA : forall A, In A Bs -> ncol A = N /\ meq (mmul A (madj A)) (meye (nrow A))).
    { intros A HA. destruct (In_nth Bs A (mzero 0 0) HA) as (a & Ha & <-). apply H1. assumption. }
    assert (HA' : forall A, In A Bs -> ncol A = N) by (intros; apply HA; assumption).
    split; [exact HA|]. split.
    + apply block_diagonal_FOP. apply orth_FOP; assumption.
    + intros i j Hi Hj. destruct (Hs HA' i j) as (S1 & S2 & S3). rewrite <- S3. apply H3; congruence.
  - intros (H1 & H2 & H3).
    assert (HA' : forall A, In A Bs -> ncol A = N) by (intros; apply H1; assumption).
    split; [|split].
    + intros a Ha. apply H1, nth_In. assumption.
    + apply (proj2 (orth_FOP N Bs HA')). apply block_diagonal_FOP. assumption.
    + split; [apply (Hs HA' 0 0)%nat|]. split; [apply (Hs HA' 0 0)%nat|]. intros i j Hi Hj.
      destruct (Hs HA' i j) as (S1 & S2 & S3). rewrite S3. apply H3; congruence.
Qed.
