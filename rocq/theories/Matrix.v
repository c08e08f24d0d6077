(** Matrices as shape plus entry function, with the operations the python code
    takes from numpy/scipy.sparse.  Storage formats are not modelled. *)
From Coq Require Import List Arith Lia QArith Ring Setoid Morphisms Bool.
From Verif Require Import Scalars.
Import ListNotations.
Local Open Scope nat_scope.
Arguments Nat.div : simpl never.
Arguments Nat.modulo : simpl never.

Record mat (K : Type) := Mat { nrow : nat; ncol : nat; ent : nat -> nat -> K }.
Arguments Mat {K}. Arguments nrow {K}. Arguments ncol {K}. Arguments ent {K}.

Section Mat.
  Context {K : Type} {SR : StarRing K}.
  Add Ring Kring1 : (@k_ring K SR).
  Notation "x +k y" := (kadd x y) (at level 50, left associativity).
  Notation "x *k y" := (kmul x y) (at level 40, left associativity).

  (** Equality of matrices: same shape, same entries inside the shape. *)
  Definition meq (A B : mat K) : Prop :=
    nrow A = nrow B /\ ncol A = ncol B /\
    forall i j, i < nrow A -> j < ncol A -> ent A i j = ent B i j.

  Definition meye (n : nat) : mat K := Mat n n (fun i j => kb (i =? j)).
  Definition mzero (n m : nat) : mat K := Mat n m (fun _ _ => k0).
  Definition mdiag (n : nat) (d : nat -> K) : mat K :=
    Mat n n (fun i j => if i =? j then d i else k0).
  Definition madd (A B : mat K) : mat K := Mat (nrow A) (ncol A) (fun i j => ent A i j +k ent B i j).
  Definition mopp (A : mat K) : mat K := Mat (nrow A) (ncol A) (fun i j => kopp (ent A i j)).
  Definition msub (A B : mat K) : mat K := Mat (nrow A) (ncol A) (fun i j => ksub (ent A i j) (ent B i j)).
  Definition mscale (c : K) (A : mat K) : mat K := Mat (nrow A) (ncol A) (fun i j => c *k ent A i j).
  Definition mmul (A B : mat K) : mat K :=
    Mat (nrow A) (ncol B) (fun i j => ksum (ncol A) (fun k => ent A i k *k ent B k j)).
  Definition madj (A : mat K) : mat K := Mat (ncol A) (nrow A) (fun i j => kconj (ent A j i)).
  Definition mkron (A B : mat K) : mat K :=
    Mat (nrow A * nrow B) (ncol A * ncol B)
        (fun i j => ent A (i / nrow B) (j / ncol B) *k ent B (i mod nrow B) (j mod ncol B)).

  (** Literal matrices given by rows. *)
  Definition mlit (r c : nat) (l : list (list K)) : mat K :=
    Mat r c (fun i j => nth j (nth i l []) k0).

  Definition square (n : nat) (A : mat K) : Prop := nrow A = n /\ ncol A = n.

  (** ** Equality is an equivalence and a congruence. *)
  Lemma meq_refl A : meq A A.
  Proof. repeat split. Qed.
  Lemma meq_sym A B : meq A B -> meq B A.
  Proof.
    intros (H1 & H2 & H3). repeat split; auto. intros. symmetry. apply H3; congruence.
  Qed.
  Lemma meq_trans A B C : meq A B -> meq B C -> meq A C.
  Proof.
    intros (H1 & H2 & H3) (G1 & G2 & G3). repeat split; try congruence.
    intros. rewrite H3 by assumption. apply G3; congruence.
  Qed.
  #[export] Instance meq_equiv : Equivalence meq.
  Proof. split; red; eauto using meq_refl, meq_sym, meq_trans. Qed.

  Lemma meq_nrow A B : meq A B -> nrow A = nrow B.
  Proof. intros H; apply H. Qed.
  Lemma meq_ncol A B : meq A B -> ncol A = ncol B.
  Proof. intros H; apply H. Qed.
  #[export] Instance nrow_proper : Proper (meq ==> eq) nrow.
  Proof. intros A B H; apply H. Qed.
  #[export] Instance ncol_proper : Proper (meq ==> eq) ncol.
  Proof. intros A B H; apply H. Qed.

  (** Congruence of [madd], [msub] and [mmul] needs no shape condition because the
      shapes of the two sides of each equation agree; for [madd] the second
      summand is only read inside the shape of the first. *)
  Lemma madd_meq A A' B B' :
    nrow B = nrow A -> ncol B = ncol A -> meq A A' -> meq B B' -> meq (madd A B) (madd A' B').
  Proof.
    intros Hr Hc (H1 & H2 & H3) (G1 & G2 & G3). repeat split; simpl; auto.
    intros. rewrite H3, G3; try congruence; auto; rewrite ?Hr, ?Hc; assumption.
  Qed.

  Lemma mscale_meq c A A' : meq A A' -> meq (mscale c A) (mscale c A').
  Proof. intros (H1 & H2 & H3). repeat split; simpl; auto. intros. rewrite H3; auto. Qed.
  #[export] Instance mscale_proper c : Proper (meq ==> meq) (mscale c).
  Proof. intros A A' H. apply mscale_meq, H. Qed.

  #[export] Instance mopp_proper : Proper (meq ==> meq) mopp.
  Proof. intros A A' (H1 & H2 & H3). repeat split; simpl; auto. intros. rewrite H3; auto. Qed.

  #[export] Instance madj_proper : Proper (meq ==> meq) madj.
  Proof. intros A A' (H1 & H2 & H3). repeat split; simpl; auto. intros. rewrite H3; auto. Qed.

  Lemma mmul_meq A A' B B' :
    nrow B = ncol A -> meq A A' -> meq B B' -> meq (mmul A B) (mmul A' B').
  Proof.
    intros Hd (H1 & H2 & H3) (G1 & G2 & G3). repeat split; simpl; auto.
    intros. rewrite H2 in *. apply ksum_ext. intros k Hk.
    rewrite H3 by auto. rewrite G3; auto. rewrite Hd; auto.
  Qed.

  Lemma mod_lt' a b : a < b -> a mod b < b.
  Proof. intros. apply Nat.mod_upper_bound. lia. Qed.

  Lemma kron_idx a n m : a < n * m -> a / m < n /\ a mod m < m.
  Proof.
    intros H. assert (m <> 0) by nia. split.
    - apply Nat.div_lt_upper_bound; lia.
    - apply Nat.mod_upper_bound; lia.
  Qed.

  #[export] Instance mkron_proper : Proper (meq ==> meq ==> meq) mkron.
  Proof.
    intros A A' (H1 & H2 & H3) B B' (G1 & G2 & G3). repeat split; simpl; auto.
    intros i j Hi Hj. rewrite <- G1, <- G2.
    apply kron_idx in Hi, Hj. rewrite H3, G3 by tauto. reflexivity.
  Qed.

  (** ** Products *)
  Lemma mmul_assoc A B C : nrow C = ncol B -> meq (mmul (mmul A B) C) (mmul A (mmul B C)).
  Proof.
    intros Hd. repeat split; simpl. intros i j Hi Hj.
    transitivity (ksum (ncol B) (fun k => ksum (ncol A) (fun l => ent A i l *k ent B l k *k ent C k j))).
    { apply ksum_ext. intros k _. rewrite <- ksum_mul_r. reflexivity. }
    rewrite ksum_swap. apply ksum_ext. intros l _.
    rewrite <- ksum_mul_l. apply ksum_ext. intros k _. ring.
  Qed.

  Lemma mmul_eye_l n A : nrow A = n -> meq (mmul (meye n) A) A.
  Proof.
    intros Hn. repeat split; simpl; auto. intros i j Hi Hj.
    rewrite (ksum_single n i); auto.
    - rewrite Nat.eqb_refl. simpl. ring.
    - intros k Hk Hne. rewrite (proj2 (Nat.eqb_neq i k)) by auto. simpl. ring.
  Qed.

  Lemma mmul_eye_r n A : ncol A = n -> meq (mmul A (meye n)) A.
  Proof.
    intros Hn. repeat split; simpl; auto. intros i j Hi Hj. rewrite Hn.
    rewrite (ksum_single n j); auto.
    - rewrite Nat.eqb_refl. simpl. ring.
    - intros k Hk Hne. rewrite (proj2 (Nat.eqb_neq k j)) by auto. simpl. ring.
  Qed.

  Lemma mmul_add_l A B C :
    nrow B = nrow A -> ncol B = ncol A -> meq (mmul (madd A B) C) (madd (mmul A C) (mmul B C)).
  Proof.
    intros Hr Hc. repeat split; simpl. intros i j Hi Hj. rewrite Hc.
    rewrite <- ksum_add. apply ksum_ext. intros. ring.
  Qed.

  Lemma mmul_add_r A B C : meq (mmul A (madd B C)) (madd (mmul A B) (mmul A C)).
  Proof.
    repeat split; simpl. intros i j Hi Hj.
    rewrite <- ksum_add. apply ksum_ext. intros. ring.
  Qed.

  Lemma mmul_scale_l c A B : meq (mmul (mscale c A) B) (mscale c (mmul A B)).
  Proof.
    repeat split; simpl. intros. rewrite <- ksum_mul_l. apply ksum_ext. intros. ring.
  Qed.
  Lemma mmul_scale_r c A B : meq (mmul A (mscale c B)) (mscale c (mmul A B)).
  Proof.
    repeat split; simpl. intros. rewrite <- ksum_mul_l. apply ksum_ext. intros. ring.
  Qed.

  Lemma mmul_zero_l n m A : meq (mmul (mzero n m) A) (mzero n (ncol A)).
  Proof. repeat split; simpl. intros. apply ksum_zero. intros. ring. Qed.
  Lemma mmul_zero_r n m A : meq (mmul A (mzero n m)) (mzero (nrow A) m).
  Proof. repeat split; simpl. intros. apply ksum_zero. intros. ring. Qed.

  Lemma madj_mul A B : nrow B = ncol A -> meq (madj (mmul A B)) (mmul (madj B) (madj A)).
  Proof.
    intros Hd. repeat split; simpl. intros. rewrite ksum_conj, Hd.
    apply ksum_ext. intros. rewrite kconj_mul. ring.
  Qed.
  Lemma madj_add A B : meq (madj (madd A B)) (madd (madj A) (madj B)).
  Proof. repeat split; simpl. intros. apply kconj_add. Qed.
  Lemma madj_scale c A : meq (madj (mscale c A)) (mscale (kconj c) (madj A)).
  Proof. repeat split; simpl. intros. apply kconj_mul. Qed.
  Lemma madj_inv A : meq (madj (madj A)) A.
  Proof. repeat split; simpl. intros. apply kconj_inv. Qed.
  Lemma madj_eye n : meq (madj (meye n)) (meye n).
  Proof.
    repeat split; simpl. intros. rewrite kb_conj, Nat.eqb_sym. reflexivity.
  Qed.
  Lemma madj_zero n m : meq (madj (mzero n m)) (mzero m n).
  Proof. repeat split; simpl. intros. apply kconj_0. Qed.

  (** ** Kronecker products *)
  Lemma mkron_adj A B : meq (madj (mkron A B)) (mkron (madj A) (madj B)).
  Proof. repeat split; simpl. intros. apply kconj_mul. Qed.

  Lemma mkron_mul A B C D :
    nrow C = ncol A -> nrow D = ncol B ->
    meq (mmul (mkron A B) (mkron C D)) (mkron (mmul A C) (mmul B D)).
  Proof.
    intros HC HD. repeat split; simpl. intros i j Hi Hj.
    rewrite ksum_prod. rewrite HD.
    transitivity (ksum (ncol A) (fun k1 => ksum (ncol B) (fun k2 =>
       (ent A (i / nrow B) k1 *k ent C k1 (j / ncol D)) *k
       (ent B (i mod nrow B) k2 *k ent D k2 (j mod ncol D))))).
    - apply ksum_ext. intros a Ha. apply ksum_ext. intros b Hb.
      rewrite (Nat.div_add_l a (ncol B) b) by lia.
      rewrite (Nat.div_small b) by lia.
      rewrite (Nat.add_comm (a * ncol B) b), Nat.mod_add by lia.
      rewrite (Nat.mod_small b) by lia. rewrite Nat.add_0_r. ring.
    - rewrite <- ksum_mul_r. apply ksum_ext. intros a Ha. rewrite ksum_mul_l. reflexivity.
  Qed.

  Lemma mkron_assoc A B C : meq (mkron (mkron A B) C) (mkron A (mkron B C)).
  Proof.
    repeat split; simpl; try lia. intros i j Hi Hj.
    apply kron_idx in Hi. apply kron_idx in Hj. destruct Hi as [Hi1 Hi2], Hj as [Hj1 Hj2].
    apply kron_idx in Hi1. apply kron_idx in Hj1.
    rewrite !Nat.div_div by lia.
    rewrite (Nat.mul_comm (nrow C)), (Nat.mul_comm (ncol C)).
    rewrite (Nat.mul_comm (nrow B)), (Nat.mul_comm (ncol B)).
    rewrite !Nat.mod_mul_r by lia.
    replace ((i mod nrow C + nrow C * ((i / nrow C) mod nrow B)) / nrow C) with ((i / nrow C) mod nrow B).
    2:{ rewrite Nat.add_comm, (Nat.mul_comm (nrow C)), Nat.div_add_l by lia.
        rewrite (Nat.div_small (i mod nrow C)) by lia. lia. }
    replace ((j mod ncol C + ncol C * ((j / ncol C) mod ncol B)) / ncol C) with ((j / ncol C) mod ncol B).
    2:{ rewrite Nat.add_comm, (Nat.mul_comm (ncol C)), Nat.div_add_l by lia.
        rewrite (Nat.div_small (j mod ncol C)) by lia. lia. }
    replace ((i mod nrow C + nrow C * ((i / nrow C) mod nrow B)) mod nrow C) with (i mod nrow C).
    2:{ rewrite (Nat.mul_comm (nrow C)), Nat.mod_add by lia. symmetry. apply Nat.mod_small; lia. }
    replace ((j mod ncol C + ncol C * ((j / ncol C) mod ncol B)) mod ncol C) with (j mod ncol C).
    2:{ rewrite (Nat.mul_comm (ncol C)), Nat.mod_add by lia. symmetry. apply Nat.mod_small; lia. }
    rewrite (Nat.mul_comm (nrow C)), (Nat.mul_comm (ncol C)).
    ring.
  Qed.

  Lemma mkron_eye n m : meq (mkron (meye n) (meye m)) (meye (n * m)).
  Proof.
    repeat split; simpl. intros i j Hi Hj. rewrite <- kb_and. f_equal.
    apply kron_idx in Hi. apply kron_idx in Hj.
    apply eq_true_iff_eq. rewrite andb_true_iff, !Nat.eqb_eq. split.
    - intros [H1 H2].
      rewrite (Nat.div_mod i m), (Nat.div_mod j m), H1, H2 by lia. reflexivity.
    - intros ->. auto.
  Qed.

  Lemma mkron_eye1_l A : meq (mkron (meye 1) A) A.
  Proof.
    repeat split; simpl; try lia. intros i j Hi Hj.
    rewrite Nat.add_0_r in *. rewrite !Nat.div_small, !Nat.mod_small by lia. simpl. ring.
  Qed.

  Lemma mkron_eye1_r A : meq (mkron A (meye 1)) A.
  Proof.
    repeat split; simpl; try lia. intros i j Hi Hj.
    rewrite !Nat.div_1_r. simpl. ring.
  Qed.

  Lemma mkron_add_l A A' B : meq (mkron (madd A A') B) (madd (mkron A B) (mkron A' B)) .
  Proof. repeat split; simpl. intros. ring. Qed.

  Lemma mkron_scale_l c A B : meq (mkron (mscale c A) B) (mscale c (mkron A B)).
  Proof. repeat split; simpl. intros. ring. Qed.
  Lemma mkron_scale_r c A B : meq (mkron A (mscale c B)) (mscale c (mkron A B)).
  Proof. repeat split; simpl. intros. ring. Qed.

  (** ** Chains of Kronecker products *)
  Fixpoint kchain (l : list (mat K)) : mat K :=
    match l with [] => meye 1 | A :: t => mkron A (kchain t) end.

  Lemma kchain_app l1 l2 : meq (kchain (l1 ++ l2)) (mkron (kchain l1) (kchain l2)).
  Proof.
    induction l1 as [|A l1 IH]; simpl.
    - rewrite mkron_eye1_l. reflexivity.
    - rewrite IH, mkron_assoc. reflexivity.
  Qed.

  Lemma kchain_single A : meq (kchain [A]) A.
  Proof. apply mkron_eye1_r. Qed.

  Lemma kchain_eye d n : meq (kchain (repeat (meye d) n)) (meye (d ^ n)).
  Proof.
    induction n as [|n IH]; simpl; [reflexivity|]. rewrite IH, mkron_eye. reflexivity.
  Qed.

  Lemma kchain_dims d l : Forall (square d) l ->
    nrow (kchain l) = d ^ length l /\ ncol (kchain l) = d ^ length l.
  Proof.
    induction 1 as [|A l [H1 H2] _ IH]; simpl; [auto|]. rewrite H1, H2. lia.
  Qed.

  Fixpoint zipmul (l1 l2 : list (mat K)) : list (mat K) :=
    match l1, l2 with A :: t1, B :: t2 => mmul A B :: zipmul t1 t2 | _, _ => [] end.

  Lemma zipmul_app a a' b b' : length a = length b ->
    zipmul (a ++ a') (b ++ b') = zipmul a b ++ zipmul a' b'.
  Proof.
    revert b. induction a as [|x a IH]; intros [|y b] H; simpl in *; try discriminate; auto.
    rewrite IH by congruence. reflexivity.
  Qed.

  Lemma zipmul_repeat A B n : zipmul (repeat A n) (repeat B n) = repeat (mmul A B) n.
  Proof. induction n; simpl; congruence. Qed.

  Lemma kchain_mul d l1 l2 : length l1 = length l2 -> Forall (square d) l1 -> Forall (square d) l2 ->
    meq (mmul (kchain l1) (kchain l2)) (kchain (zipmul l1 l2)).
  Proof.
    revert l2. induction l1 as [|A l1 IH]; intros [|B l2] Hl H1 H2; simpl in *; try discriminate.
    - apply mmul_eye_l. reflexivity.
    - inversion_clear H1. inversion_clear H2.
      destruct H as [HA1 HA2], H1 as [HB1 HB2].
      rewrite mkron_mul.
      + rewrite IH by auto. reflexivity.
      + congruence.
      + destruct (kchain_dims d l1), (kchain_dims d l2); auto. congruence.
  Qed.

  Lemma kchain_meq l1 l2 : Forall2 meq l1 l2 -> meq (kchain l1) (kchain l2).
  Proof.
    induction 1; simpl; [reflexivity|]. rewrite H, IHForall2. reflexivity.
  Qed.

  Lemma kchain_adj l : meq (madj (kchain l)) (kchain (map madj l)).
  Proof.
    induction l as [|A l IH]; simpl; [apply madj_eye|].
    rewrite mkron_adj, IH. reflexivity.
  Qed.

  Lemma Forall2_repeat A B n : meq A B -> Forall2 meq (repeat A n) (repeat B n).
  Proof. intros H. induction n; simpl; constructor; auto. Qed.

  Lemma Forall2_meq_refl l : Forall2 meq l l.
  Proof. induction l; constructor; auto. reflexivity. Qed.
End Mat.

Arguments meq {K}. Arguments mat : clear implicits.
