(** N-by-N matrices as a non-commutative ring, so that
    [non_commutative_ring] can be used on operator identities. *)
From Coq Require Import List Arith Lia Setoid Morphisms Bool Ncring Ncring_tac.
From Coq Require Ring.
From Verif Require Import Scalars Matrix.
Import ListNotations.
Local Open Scope nat_scope.

Definition sq (K : Type) (N : nat) := nat -> nat -> K.

Section Sq.
  Context {K : Type} {SR : StarRing K} {N : nat}.
  Add Ring Kr : (@k_ring K SR).

  Definition seqv (f g : sq K N) := forall i j, i < N -> j < N -> f i j = g i j.
  Definition s0 : sq K N := fun _ _ => k0.
  Definition s1 : sq K N := fun i j => kb (i =? j).
  Definition sadd (f g : sq K N) : sq K N := fun i j => kadd (f i j) (g i j).
  Definition ssub (f g : sq K N) : sq K N := fun i j => ksub (f i j) (g i j).
  Definition sopp (f : sq K N) : sq K N := fun i j => kopp (f i j).
  Definition smul (f g : sq K N) : sq K N := fun i j => ksum N (fun k => kmul (f i k) (g k j)).
  Definition sscale (c : K) (f : sq K N) : sq K N := fun i j => kmul c (f i j).
  Definition sadj (f : sq K N) : sq K N := fun i j => kconj (f j i).

  #[export] Instance seqv_equiv : Equivalence seqv.
  Proof.
    split.
    - intros x i j Hi Hj. reflexivity.
    - intros x y H i j Hi Hj. symmetry. apply H; auto.
    - intros x y z H G i j Hi Hj. etransitivity; [apply H|apply G]; auto.
  Qed.
  #[export] Instance sadd_proper : Proper (seqv ==> seqv ==> seqv) sadd.
  Proof. intros a b H c d G i j Hi Hj. unfold sadd. rewrite H, G; auto. Qed.
  #[export] Instance ssub_proper : Proper (seqv ==> seqv ==> seqv) ssub.
  Proof. intros a b H c d G i j Hi Hj. unfold ssub. rewrite H, G; auto. Qed.
  #[export] Instance sopp_proper : Proper (seqv ==> seqv) sopp.
  Proof. intros a b H i j Hi Hj. unfold sopp. rewrite H; auto. Qed.
  #[export] Instance smul_proper : Proper (seqv ==> seqv ==> seqv) smul.
  Proof. intros a b H c d G i j Hi Hj. unfold smul. apply ksum_ext. intros. rewrite H, G; auto. Qed.
  #[export] Instance sscale_proper c : Proper (seqv ==> seqv) (sscale c).
  Proof. intros a b H i j Hi Hj. unfold sscale. rewrite H; auto. Qed.
  #[export] Instance sadj_proper : Proper (seqv ==> seqv) sadj.
  Proof. intros a b H i j Hi Hj. unfold sadj. rewrite H; auto. Qed.

  #[export] Instance sq_ops : @Ring_ops (sq K N) s0 s1 sadd smul ssub sopp seqv := {}.

  #[export] Instance sq_ring : @Ring (sq K N) s0 s1 sadd smul ssub sopp seqv sq_ops.
  Proof.
    split.
    - split.
      + intros x i j Hi Hj. reflexivity.
      + intros x y H i j Hi Hj. symmetry. apply H; auto.
      + intros x y z H G i j Hi Hj. etransitivity; [apply H|apply G]; auto.
    - intros a b H c d G i j Hi Hj. unfold addition, add_notation, sadd. rewrite H, G; auto.
    - intros a b H c d G i j Hi Hj. unfold multiplication, mul_notation, smul.
      apply ksum_ext. intros. rewrite H, G; auto.
    - intros a b H c d G i j Hi Hj. unfold subtraction, sub_notation, ssub. rewrite H, G; auto.
    - intros a b H i j Hi Hj. unfold opposite, opp_notation, sopp. rewrite H; auto.
    - intros x i j Hi Hj. unfold addition, add_notation, sadd, zero, zero_notation, s0. ring.
    - intros x y i j Hi Hj. unfold addition, add_notation, sadd. ring.
    - intros x y z i j Hi Hj. unfold addition, add_notation, sadd. ring.
    - intros x i j Hi Hj. unfold multiplication, mul_notation, smul, one, one_notation, s1.
      rewrite (ksum_single N i); auto.
      + rewrite Nat.eqb_refl; cbn; ring.
      + intros k Hk Hne. rewrite (proj2 (Nat.eqb_neq i k)); auto. cbn; ring.
    - intros x i j Hi Hj. unfold multiplication, mul_notation, smul, one, one_notation, s1.
      rewrite (ksum_single N j); auto.
      + rewrite Nat.eqb_refl; cbn; ring.
      + intros k Hk Hne. rewrite (proj2 (Nat.eqb_neq k j)); auto. cbn; ring.
    - intros x y z i j Hi Hj. unfold multiplication, mul_notation, smul.
      transitivity (ksum N (fun k => ksum N (fun l => kmul (kmul (x i l) (y l k)) (z k j)))).
      { symmetry. rewrite ksum_swap. apply ksum_ext. intros l _.
        rewrite <- ksum_mul_l. apply ksum_ext. intros k _. ring. }
      apply ksum_ext. intros k _. rewrite <- ksum_mul_r. reflexivity.
    - intros x y z i j Hi Hj. unfold multiplication, mul_notation, smul, addition, add_notation, sadd.
      rewrite <- ksum_add. apply ksum_ext. intros. ring.
    - intros x y z i j Hi Hj. unfold multiplication, mul_notation, smul, addition, add_notation, sadd.
      rewrite <- ksum_add. apply ksum_ext. intros. ring.
    - intros x y i j Hi Hj. unfold addition, add_notation, sadd, subtraction, sub_notation, ssub,
        opposite, opp_notation, sopp. ring.
    - intros x i j Hi Hj. unfold addition, add_notation, sadd, opposite, opp_notation, sopp,
        zero, zero_notation, s0. ring.
  Qed.
End Sq.

Section Test.
  Context {K : Type} {SR : StarRing K} {N : nat}.
  Goal forall a b c : sq K N, seqv (smul (sadd a b) (ssub (sadd a b) c)) (ssub (sadd (smul a a) (sadd (smul b a) (sadd (smul a b) (smul b b)))) (sadd (smul a c) (smul b c))).
  Proof. intros. non_commutative_ring. Qed.
End Test.
