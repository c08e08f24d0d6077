(** Sectors of sectors: a symmetry reduced inside a sector of another one. *)
From Coq Require Import List Arith Lia ZArith Reals Lra Bool Ring Setoid Morphisms Permutation.
From Verif Require Import Scalars Sums Res Matrix SpecMat ModelPhase ModelSymmetry SpecSymmetry
  GeoPhase SymBase SymReduce SymMany SymGroup SymRep SymTable SymZn SymTrans SymTrans2.
Import ListNotations.
Local Open Scope R_scope.

Definition lone (N : nat) (B : cmat) : Prop :=
  forall a b j, (a < nrow B)%nat -> (b < nrow B)%nat -> (j < N)%nat -> ent B a j <> c0 -> ent B b j <> c0 -> a = b.
Definition good (N : nat) (B : cmat) : Prop :=
  ncol B = N /\ meq (mmul B (madj B)) (meye (nrow B)) /\ lone N B.

Lemma klsum_one {A} (l : list A) (f : A -> CR) d s : (s < length l)%nat ->
  (forall t, (t < length l)%nat -> t <> s -> f (nth t l d) = c0) -> klsum l f = f (nth s l d).
Proof.
  revert s. induction l as [|a l IH]; intros s Hs H; [cbn in Hs; lia|]. cbn [klsum]. destruct s as [|s].
  - cbn [nth]. enough (X : klsum l f = c0) by (rewrite X; ring).
    apply klsum_zero. intros x Hx. apply (In_nth _ _ d) in Hx as (t & Ht & <-). apply (H (S t)); cbn; lia.
  - cbn [nth]. pose proof (H 0%nat ltac:(cbn; lia) ltac:(lia)) as X. cbn [nth] in X. rewrite X. rewrite (IH s); [ring|cbn in Hs; lia|].
    intros t Ht Hts. apply (H (S t)); cbn; lia.
Qed.
Lemma ksum_nonzero n (f : nat -> CR) : ksum n f <> c0 -> exists i, (i < n)%nat /\ f i <> c0.
Proof.
  induction n as [|n IH]; intros H; [cbn in H; congruence|]. cbn [ksum] in H.
  destruct (cr_eq_dec (f n) c0) as [E|E]; [|exists n; split; [lia|exact E]].
  destruct IH as (i & Hi & X); [|exists i; split; [lia|exact X]]. intros Z. apply H. rewrite Z. change (0,0) with c0 in E. rewrite E. ring.
Qed.
Lemma mul_n0 a b : a <> c0 -> b <> c0 -> a *c b <> c0.
Proof. intros Ha Hb E. apply mul_0 in E. tauto. Qed.
Lemma n0_mul a b : a *c b <> c0 -> a <> c0 /\ b <> c0.
Proof. intros H. split; intros E; apply H; rewrite E; ring. Qed.
Lemma conj_n0 a : a <> c0 -> conj a <> c0.
Proof. intros H E. apply H. rewrite <- (kconj_inv a), E. apply kconj_0. Qed.
Lemma n0_conj a : conj a <> c0 -> a <> c0.
Proof. intros H E. apply H. rewrite E. apply kconj_0. Qed.

Section One.
  Variables (N : nat) (B : cmat).
  Hypothesis G : good N B.
  Let HB : ncol B = N := proj1 G.
  Let HBB : meq (mmul B (madj B)) (meye (nrow B)) := proj1 (proj2 G).
  Let HL : lone N B := proj2 (proj2 G).

  (** A row of an orthonormal matrix is not zero. *)
  Lemma row_entry a : (a < nrow B)%nat -> exists x, (x < N)%nat /\ ent B a x <> c0.
  Proof.
    intros Ha. destruct HBB as (_ & _ & E). specialize (E a a Ha Ha). cbn [mmul madj meye ent ncol] in E.
    rewrite Nat.eqb_refl in E. destruct (ksum_nonzero (ncol B) (fun k => ent B a k *c conj (ent B a k))) as (x & Hx & X).
    - rewrite E. apply c1_neq_0.
    - exists x. apply n0_mul in X as (X & _). split; [congruence|exact X].
  Qed.

  (** An operator that keeps the sector, row by row. *)
  Lemma push_ent U x a j : keeps N B U -> (a < nrow B)%nat -> (x < N)%nat -> (j < nrow B)%nat -> ent B a x <> c0 ->
    ksum N (fun y => ent U x y *c conj (ent B j y)) = conj (ent B a x) *c ent (compress B U) a j.
  Proof.
    intros HU Ha Hx Hj X. pose proof HU as ((U1 & U2) & _).
    destruct (push_adj N B HB HBB U HU) as (_ & _ & E). specialize (E x j). cbn [mmul madj ent nrow ncol] in E.
    rewrite U1, U2 in E. specialize (E Hx Hj). rewrite E. apply (ksum_single (nrow B) a).
    - exact Ha.
    - intros b Hb Hne. destruct (cr_eq_dec (ent B b x) c0) as [Z|Z]; [change (0,0) with c0 in Z; rewrite Z, kconj_0; ring|].
      exfalso. apply Hne. apply (HL b a x); assumption.
  Qed.

  Lemma sub_moves_states U : keeps N B U -> moves_states N U -> moves_states (nrow B) (compress B U).
  Proof.
    intros HU (UU & M). split; [apply (compress_unitary N B HB HBB); assumption|].
    intros a b c Ha Hb Hc Xb Xc. destruct (row_entry a Ha) as (x & Hx & X).
    pose proof (push_ent U x a b HU Ha Hx Hb X) as Eb. pose proof (push_ent U x a c HU Ha Hx Hc X) as Ec.
    destruct (ksum_nonzero N (fun y => ent U x y *c conj (ent B b y))) as (y & Hy & Y).
    { rewrite Eb. apply mul_n0; [apply conj_n0; exact X|exact Xb]. }
    destruct (ksum_nonzero N (fun y => ent U x y *c conj (ent B c y))) as (z & Hz & Z).
    { rewrite Ec. apply mul_n0; [apply conj_n0; exact X|exact Xc]. }
    apply n0_mul in Y as (Y1 & Y2). apply n0_mul in Z as (Z1 & Z2). apply n0_conj in Y2, Z2.
    assert (y = z) by (apply (M x); assumption). subst z. apply (HL b c y); assumption.
  Qed.
  Lemma sub_pow U n : keeps N B U -> meq (mpow N U n) (meye N) -> meq (mpow (nrow B) (compress B U) n) (meye (nrow B)).
  Proof.
    intros HU E. etransitivity; [apply (compress_pow N B HB HBB); exact HU|].
    etransitivity; [|apply (compress_eye N B HB HBB)]. apply (compress_meq N B HB); [|exact E].
    assert (Hs : forall q, square N (mpow N U q)); [|apply Hs].
    destruct HU as ((U1 & U2) & _). induction q as [|q (I1 & I2)]; [split; reflexivity|]. split; cbn; assumption.
  Qed.
  Lemma sub_commute X Y : keeps N B X -> keeps N B Y -> meq (mmul X Y) (mmul Y X) ->
    meq (mmul (compress B X) (compress B Y)) (mmul (compress B Y) (compress B X)).
  Proof.
    intros HX HY E. pose proof HX as ((X1 & X2) & _). pose proof HY as ((Y1 & Y2) & _).
    etransitivity; [apply (compress_mul N B HB HBB); [exact HY|split; assumption]|].
    etransitivity; [|symmetry; apply (compress_mul N B HB HBB); [exact HX|split; assumption]].
    apply (compress_meq N B HB); [split; dims|exact E].
  Qed.
  Lemma sub_twist U X : keeps N B U -> keeps N B X -> meq (mmul U (mmul X U)) X ->
    meq (mmul (compress B U) (mmul (compress B X) (compress B U))) (compress B X).
  Proof.
    intros HU HX E. pose proof HX as ((X1 & X2) & _). pose proof HU as ((U1 & U2) & _).
    etransitivity; [apply mm; [reflexivity|reflexivity|apply (compress_mul N B HB HBB); [exact HU|split; assumption]]|].
    etransitivity; [apply (compress_mul N B HB HBB); [apply keeps_mul; assumption|split; assumption]|].
    apply (compress_meq N B HB); [split; dims|exact E].
  Qed.

  (** A sector [Q] inside the sector [B]. *)
  Section Inner.
    Variable Q : cmat.
    Hypothesis GQ : good (nrow B) Q.
    Let HQ : ncol Q = nrow B := proj1 GQ.
    Let HQQ : meq (mmul Q (madj Q)) (meye (nrow Q)) := proj1 (proj2 GQ).

    Lemma adj_inner : meq (madj (mmul Q B)) (mmul (madj B) (madj Q)).
    Proof. apply madj_mul. congruence. Qed.

    Lemma good_inner : good N (mmul Q B).
    Proof.
      split; [exact HB|]. split.
      - etransitivity; [apply mm; [reflexivity|dims|exact adj_inner]|].
        etransitivity; [apply mmul_assoc; dims|].
        etransitivity; [apply mm; [reflexivity|dims|]|].
        { etransitivity; [symmetry; apply mmul_assoc; dims|].
          etransitivity; [apply mm; [exact HBB|dims|reflexivity]|]. apply mmul_eye_l. dims. }
        exact HQQ.
      - intros a b j Ha Hb Hj Xa Xb. cbn [mmul ent nrow] in *.
        apply ksum_nonzero in Xa as (k & Hk & Ka). apply ksum_nonzero in Xb as (l & Hl & Lb).
        apply n0_mul in Ka as (K1 & K2). apply n0_mul in Lb as (L1 & L2). rewrite HQ in Hk, Hl.
        assert (k = l) by (apply (HL k l j); assumption). subst l. apply (proj2 (proj2 GQ) a b k); assumption.
    Qed.
    Lemma keeps_inner X : keeps N B X -> keeps (nrow B) Q (compress B X) -> keeps N (mmul Q B) X.
    Proof.
      intros HX (_ & E). pose proof HX as ((X1 & X2) & HC). split; [split; assumption|].
      assert (A : meq (mmul (madj (mmul Q B)) (mmul Q B)) (mmul (madj B) (mmul (mmul (madj Q) Q) B))).
      { etransitivity; [apply mm; [exact adj_inner|dims|reflexivity]|].
        etransitivity; [apply mmul_assoc; dims|]. apply mm; [reflexivity|dims|]. symmetry. apply mmul_assoc. dims. }
      assert (P : meq (mmul B X) (mmul (compress B X) B)).
      { etransitivity; [apply mm; [symmetry; apply mmul_eye_l; reflexivity|dims|reflexivity]|].
        etransitivity; [apply mm; [apply mm; [symmetry; exact HBB|dims|reflexivity]|dims|reflexivity]|].
        etransitivity; [apply mm; [apply mmul_assoc; dims|dims|reflexivity]|].
        etransitivity; [apply mmul_assoc; dims|].
        etransitivity; [apply mm; [reflexivity|dims|exact HC]|].
        unfold compress.
        etransitivity; [apply mm; [reflexivity|dims|symmetry; apply mmul_assoc; dims]|].
        symmetry. apply mmul_assoc. dims. }
      etransitivity; [apply mm; [exact A|dims|reflexivity]|].
      etransitivity; [|symmetry; apply mm; [reflexivity|dims|exact A]].
      etransitivity; [apply mmul_assoc; dims|].
      etransitivity; [apply mm; [reflexivity|dims|]|].
      { etransitivity; [apply mmul_assoc; dims|].
        etransitivity; [apply mm; [reflexivity|dims|exact P]|].
        etransitivity; [symmetry; apply mmul_assoc; dims|].
        etransitivity; [apply mm; [exact E|dims|reflexivity]|]. apply mmul_assoc. dims. }
      etransitivity; [symmetry; apply mmul_assoc; dims|].
      etransitivity; [apply mm; [symmetry; apply (push_adj N B HB HBB X HX)|dims|reflexivity]|].
      apply mmul_assoc. dims.
    Qed.
    Lemma acts_inner X z : square N X -> acts_as B X z -> acts_as (mmul Q B) X z.
    Proof.
      intros (X1 & X2) E. unfold acts_as in *. etransitivity; [apply mm; [reflexivity|dims|exact adj_inner]|].
      etransitivity; [symmetry; apply mmul_assoc; dims|].
      etransitivity; [apply mm; [exact E|dims|reflexivity]|].
      etransitivity; [apply mmul_scale_l|]. apply mscale_meq. symmetry. exact adj_inner.
    Qed.
    Lemma acts_sub X z : keeps N B X -> acts_as Q (compress B X) z -> acts_as (mmul Q B) X z.
    Proof.
      intros HX E. pose proof HX as ((X1 & X2) & _). unfold acts_as in *.
      etransitivity; [apply mm; [reflexivity|dims|exact adj_inner]|].
      etransitivity; [symmetry; apply mmul_assoc; dims|].
      etransitivity; [apply mm; [apply (push_adj N B HB HBB X HX)|dims|reflexivity]|].
      etransitivity; [apply mmul_assoc; dims|].
      etransitivity; [apply mm; [reflexivity|dims|exact E]|].
      etransitivity; [apply mmul_scale_r|]. apply mscale_meq. symmetry. exact adj_inner.
    Qed.
    Lemma inside_inner : meq (mmul (mmul Q B) (mmul (madj B) B)) (mmul Q B).
    Proof.
      etransitivity; [apply mmul_assoc; dims|]. apply mm; [reflexivity|dims|].
      etransitivity; [symmetry; apply mmul_assoc; dims|].
      etransitivity; [apply mm; [exact HBB|dims|reflexivity]|]. apply mmul_eye_l. reflexivity.
    Qed.
  End Inner.
End One.

(** ** Blocks without elements between them. *)
Lemma keeps_blocks M Qs k X : splits M Qs -> (k < length Qs)%nat -> square M X ->
  (forall l, (l < length Qs)%nat -> l <> k ->
     meq (mmul (nth l Qs (mzero 0 0)) (mmul X (madj (nth k Qs (mzero 0 0))))) (mzero (nrow (nth l Qs (mzero 0 0))) (nrow (nth k Qs (mzero 0 0)))) /\
     meq (mmul (nth k Qs (mzero 0 0)) (mmul X (madj (nth l Qs (mzero 0 0))))) (mzero (nrow (nth k Qs (mzero 0 0))) (nrow (nth l Qs (mzero 0 0))))) ->
  keeps M (nth k Qs (mzero 0 0)) X.
Proof.
  intros SP Hk (X1 & X2) HZ. split; [split; assumption|]. apply splits_lists in SP as (S1 & _ & S3).
  set (Q := nth k Qs (mzero 0 0)) in *.
  assert (CQ : forall l, (l < length Qs)%nat -> ncol (nth l Qs (mzero 0 0)) = M) by (intros; apply S1, nth_In; assumption).
  pose proof (CQ k Hk) as Ck. fold Q in Ck.
  (* right and left insertion of the unit *)
  assert (RI : forall Y, nrow Y = M -> ncol Y = M -> forall i j, (i < M)%nat -> (j < M)%nat ->
    ent Y i j = klsum Qs (fun A => ent (mmul Y (mmul (madj A) A)) i j)).
  { intros Y Y1 Y2 i j Hi Hj.
    transitivity (ksum M (fun l => ent Y i l *c klsum Qs (fun A => ent (mmul (madj A) A) l j))).
    - rewrite (ksum_single M j); [|exact Hj|].
      + rewrite S3, Nat.eqb_refl by assumption. cbn [kb]. ring.
      + intros l Hl Hne. rewrite S3 by assumption. destruct (Nat.eqb_spec l j); [congruence|]. cbn [kb]. ring.
    - rewrite (klsum_ext Qs _ (fun A => ksum M (fun l => ent Y i l *c ent (mmul (madj A) A) l j))) by (intros; cbn [mmul ent]; rewrite Y2; reflexivity).
      rewrite klsum_ksum. apply ksum_ext. intros l _. rewrite klsum_mul_l. reflexivity. }
  assert (LI : forall Y, nrow Y = M -> ncol Y = M -> forall i j, (i < M)%nat -> (j < M)%nat ->
    ent Y i j = klsum Qs (fun A => ent (mmul (mmul (madj A) A) Y) i j)).
  { intros Y Y1 Y2 i j Hi Hj.
    transitivity (ksum M (fun l => klsum Qs (fun A => ent (mmul (madj A) A) i l) *c ent Y l j)).
    - rewrite (ksum_single M i); [|exact Hi|].
      + rewrite S3, Nat.eqb_refl by assumption. cbn [kb]. ring.
      + intros l Hl Hne. rewrite S3 by assumption. destruct (Nat.eqb_spec i l); [congruence|]. cbn [kb]. ring.
    - rewrite (klsum_ext Qs _ (fun A => ksum M (fun l => ent (mmul (madj A) A) i l *c ent Y l j))).
      2:{ intros A HA. cbn [mmul ent ncol]. destruct (S1 A HA) as (-> & _). reflexivity. }
      rewrite klsum_ksum. apply ksum_ext. intros l _. rewrite klsum_mul_r. reflexivity. }
  split; [cbn; congruence|]. split; [cbn; congruence|].
  assert (D1 : nrow (mmul (mmul (madj Q) Q) X) = M) by dims.
  assert (D2 : ncol (mmul (mmul (madj Q) Q) X) = M) by dims.
  assert (D3 : nrow (mmul X (mmul (madj Q) Q)) = M) by dims.
  assert (D4 : ncol (mmul X (mmul (madj Q) Q)) = M) by dims.
  intros i j Hi Hj. rewrite D1 in Hi. rewrite D2 in Hj.
  rewrite (RI _ D1 D2 i j Hi Hj), (LI _ D3 D4 i j Hi Hj).
  rewrite (klsum_one Qs _ (mzero 0 0) k Hk), (klsum_one Qs _ (mzero 0 0) k Hk).
  - fold Q. assert (A : meq (mmul (mmul (mmul (madj Q) Q) X) (mmul (madj Q) Q)) (mmul (mmul (madj Q) Q) (mmul X (mmul (madj Q) Q)))) by (apply mmul_assoc; dims).
    apply (proj2 (proj2 A)); dims.
  - intros l Hl Hne. pose proof (CQ l Hl) as Cl. set (L := nth l Qs (mzero 0 0)) in *. destruct (HZ l Hl Hne) as (Z1 & _). fold L in Z1.
    assert (A : meq (mmul (mmul (madj L) L) (mmul X (mmul (madj Q) Q))) (mzero M M)).
    { etransitivity; [apply mmul_assoc; dims|].
      etransitivity; [apply mm; [reflexivity|dims|]|].
      { etransitivity; [apply mm; [reflexivity|dims|symmetry; apply mmul_assoc; dims]|].
        etransitivity; [symmetry; apply mmul_assoc; dims|].
        etransitivity; [apply mm; [exact Z1|dims|reflexivity]|]. apply mmul_zero_l. }
      etransitivity; [apply mmul_zero_r|]. cbn [madj nrow]. rewrite Cl, Ck. reflexivity. }
    destruct A as (A1 & A2 & A3). rewrite A3; [reflexivity|rewrite A1; exact Hi|rewrite A2; exact Hj].
  - intros l Hl Hne. pose proof (CQ l Hl) as Cl. set (L := nth l Qs (mzero 0 0)) in *. destruct (HZ l Hl Hne) as (_ & Z1). fold L in Z1.
    assert (A : meq (mmul (mmul (mmul (madj Q) Q) X) (mmul (madj L) L)) (mzero M M)).
    { etransitivity; [apply mm; [apply mmul_assoc; dims|dims|reflexivity]|].
      etransitivity; [apply mmul_assoc; dims|].
      etransitivity; [apply mm; [reflexivity|dims|]|].
      { etransitivity; [symmetry; apply mmul_assoc; dims|].
        etransitivity; [apply mm; [etransitivity; [apply mmul_assoc; dims|exact Z1]|dims|reflexivity]|]. apply mmul_zero_l. }
      etransitivity; [apply mmul_zero_r|]. cbn [madj nrow ncol]. rewrite Cl, Ck. reflexivity. }
    destruct A as (A1 & A2 & A3). rewrite A3; [reflexivity|rewrite A1; exact Hi|rewrite A2; exact Hj].
Qed.
