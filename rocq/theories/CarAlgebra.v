(** Consequences of the canonical anticommutation relations in any ring. *)
From Coq Require Import List Arith Lia Setoid Morphisms Ncring Ncring_tac.
Import ListNotations.

Section Car.
  Context {T : Type} `{Rr : Ring T}.

  Definition acomm (x y : T) : T := x * y + y * x.

  Lemma acomm_sym x y : acomm x y == 0 -> acomm y x == 0.
  Proof. unfold acomm. intros H. rewrite <- H. non_commutative_ring. Qed.

  (** Swap operator of two modes. *)
  Definition swp (a' a b' b : T) : T := a' * b + b' * a + 1 - a' * a - b' * b.

  Section TwoModes.
    Variables a a' b b' : T.
    Hypothesis Haa : acomm a a' == 1.
    Hypothesis Hbb : acomm b b' == 1.
    Hypothesis Hab : acomm a b == 0.
    Hypothesis Hab' : acomm a b' == 0.
    Hypothesis Ha'b : acomm a' b == 0.
    Hypothesis Ha'b' : acomm a' b' == 0.
    Hypothesis Na : a * a == 0.
    Hypothesis Na' : a' * a' == 0.
    Hypothesis Nb : b * b == 0.
    Hypothesis Nb' : b' * b' == 0.

    Lemma swp_a' : swp a' a b' b * a' == b' * swp a' a b' b.
    Proof.
      assert (E : swp a' a b' b * a' - b' * swp a' a b' b ==
         a' * acomm a' b - (a' * a') * b + b' * (acomm a a' - 1) - a' * (acomm a a' - 1)
         + (a' * a') * a - b' * acomm a' b - (b' * b') * a + (b' * b') * b).
      { unfold swp, acomm. non_commutative_ring. }
      rewrite Haa, Ha'b, Na', Nb' in E.
      assert (E2 : swp a' a b' b * a' == b' * swp a' a b' b + (swp a' a b' b * a' - b' * swp a' a b' b))
        by non_commutative_ring.
      rewrite E2, E. non_commutative_ring.
    Qed.

    Lemma swp_a : swp a' a b' b * a == b * swp a' a b' b.
    Proof.
      assert (E : swp a' a b' b * a - b * swp a' a b' b ==
         a' * acomm a b - acomm a a' * b + (a * a') * b + (b' * (a * a) - a' * (a * a)) - b' * acomm a b
         + (b' * a) * b - b * (a' * b) - (b * b') * a - b + b * (a' * a) + (b * b') * b + a).
      { unfold swp, acomm. non_commutative_ring. }
      (* rewrite towards normal order by hand *)
      assert (F1 : a * a' == 1 - a' * a).
      { rewrite <- Haa. unfold acomm. non_commutative_ring. }
      assert (F2 : b * b' == 1 - b' * b).
      { rewrite <- Hbb. unfold acomm. non_commutative_ring. }
      assert (F3 : b * a' == - (a' * b)).
      { transitivity (acomm a' b - a' * b); [unfold acomm; non_commutative_ring|].
        rewrite Ha'b. non_commutative_ring. }
      assert (F4 : a * b == - (b * a)).
      { transitivity (acomm a b - b * a); [unfold acomm; non_commutative_ring|].
        rewrite Hab. non_commutative_ring. }
      assert (G1 : b * (a' * b) == 0).
      { transitivity ((b * a') * b); [non_commutative_ring|]. rewrite F3.
        transitivity (- (a' * (b * b))); [non_commutative_ring|]. rewrite Nb. non_commutative_ring. }
      assert (G2 : b * (a' * a) == a' * a * b).
      { transitivity ((b * a') * a); [non_commutative_ring|]. rewrite F3.
        transitivity (- (a' * (b * a))); [non_commutative_ring|].
        transitivity (a' * - (b * a)); [non_commutative_ring|]. rewrite <- F4. non_commutative_ring. }
      assert (G3 : (b * b') * b == b).
      { rewrite F2. transitivity (b - b' * (b * b)); [non_commutative_ring|]. rewrite Nb. non_commutative_ring. }
      assert (G4 : (b * b') * a == a - b' * b * a).
      { rewrite F2. non_commutative_ring. }
      assert (G5 : (b' * a) * b == - (b' * b * a)).
      { transitivity (b' * (a * b)); [non_commutative_ring|]. rewrite F4. non_commutative_ring. }
      rewrite Haa, Hab, G1, G2, G3, G4, G5, F1, Na in E.
      assert (E2 : swp a' a b' b * a == b * swp a' a b' b + (swp a' a b' b * a - b * swp a' a b' b))
        by non_commutative_ring.
      rewrite E2, E. non_commutative_ring.
    Qed.
  End TwoModes.

  Lemma swp_sym a' a b' b : swp a' a b' b == swp b' b a' a.
  Proof. unfold swp. non_commutative_ring. Qed.

  Section Swap.
    Variables a a' b b' : T.
    Hypothesis Haa : acomm a a' == 1.
    Hypothesis Hbb : acomm b b' == 1.
    Hypothesis Hab : acomm a b == 0.
    Hypothesis Hab' : acomm a b' == 0.
    Hypothesis Ha'b : acomm a' b == 0.
    Hypothesis Ha'b' : acomm a' b' == 0.
    Hypothesis Na : a * a == 0.
    Hypothesis Na' : a' * a' == 0.
    Hypothesis Nb : b * b == 0.
    Hypothesis Nb' : b' * b' == 0.

    Lemma swp_b' : swp a' a b' b * b' == a' * swp a' a b' b.
    Proof.
      rewrite swp_sym. apply swp_a'; auto using acomm_sym.
    Qed.
    Lemma swp_b : swp a' a b' b * b == a * swp a' a b' b.
    Proof.
      rewrite swp_sym. apply swp_a; auto using acomm_sym.
    Qed.

    Lemma swp_sq : swp a' a b' b * swp a' a b' b == 1.
    Proof.
      set (S := swp a' a b' b).
      assert (H1 : S * a' == b' * S) by (apply swp_a'; auto).
      assert (H2 : S * b' == a' * S) by (apply swp_b'; auto).
      assert (H3 : S * a == b * S) by (apply swp_a; auto).
      assert (H4 : S * b == a * S) by (apply swp_b; auto).
      assert (E : S * S == (S * a') * b + (S * b') * a + S - (S * a') * a - (S * b') * b).
      { unfold S at 2. unfold swp at 1. non_commutative_ring. }
      rewrite H1, H2 in E.
      assert (E2 : S * S == b' * (S * b) + a' * (S * a) + S - b' * (S * a) - a' * (S * b)).
      { rewrite E. non_commutative_ring. }
      rewrite H3, H4 in E2.
      assert (E3 : S * S == (b' * a + a' * b + 1 - b' * b - a' * a) * S).
      { rewrite E2. non_commutative_ring. }
      (* now (b'a + a'b + 1 - b'b - a'a) is S itself: need S*S = 1 directly *)
      clear E E2 E3.
      assert (F1 : a * a' == 1 - a' * a).
      { rewrite <- Haa. unfold acomm. non_commutative_ring. }
      assert (F2 : b * b' == 1 - b' * b).
      { rewrite <- Hbb. unfold acomm. non_commutative_ring. }
      assert (F3 : b * a' == - (a' * b)).
      { transitivity (acomm a' b - a' * b); [unfold acomm; non_commutative_ring|].
        rewrite Ha'b. non_commutative_ring. }
      assert (F4 : a * b' == - (b' * a)).
      { transitivity (acomm a b' - b' * a); [unfold acomm; non_commutative_ring|].
        rewrite Hab'. non_commutative_ring. }
      assert (F5 : b' * a' == - (a' * b')).
      { transitivity (acomm a' b' - a' * b'); [unfold acomm; non_commutative_ring|].
        rewrite Ha'b'. non_commutative_ring. }
      assert (F6 : b * a == - (a * b)).
      { transitivity (acomm a b - a * b); [unfold acomm; non_commutative_ring|].
        rewrite Hab. non_commutative_ring. }
      (* S = 1 - (a'-b')(a-b); (a-b)(a'-b') + (a'-b')(a-b) = 2 *)
      set (p := a' - b'). set (m := a - b).
      assert (HS : S == 1 - p * m) by (unfold S, swp, p, m; non_commutative_ring).
      assert (Hpm : m * p == 1 + 1 - p * m).
      { transitivity (a * a' - a * b' - b * a' + b * b'); [unfold m, p; non_commutative_ring|].
        rewrite F1, F2, F3, F4. unfold m, p. non_commutative_ring. }
      assert (Hm : m * m == 0).
      { transitivity (a * a - a * b - b * a + b * b); [unfold m; non_commutative_ring|].
        rewrite Na, Nb, F6. non_commutative_ring. }
      rewrite HS.
      transitivity (1 - p * m - p * m + p * (m * p) * m); [non_commutative_ring|].
      rewrite Hpm.
      transitivity (1 - p * p * (m * m)); [non_commutative_ring|].
      rewrite Hm. non_commutative_ring.
    Qed.

    (** Odd elements anticommuting with both modes commute with the swap. *)
    Lemma swp_other k :
      acomm k a == 0 -> acomm k a' == 0 -> acomm k b == 0 -> acomm k b' == 0 ->
      swp a' a b' b * k == k * swp a' a b' b.
    Proof.
      intros K1 K2 K3 K4.
      assert (E : swp a' a b' b * k - k * swp a' a b' b ==
        a' * acomm k b - acomm k a' * b + b' * acomm k a - acomm k b' * a
        - a' * acomm k a + acomm k a' * a - b' * acomm k b + acomm k b' * b).
      { unfold swp, acomm. non_commutative_ring. }
      rewrite K1, K2, K3, K4 in E.
      transitivity (k * swp a' a b' b + (swp a' a b' b * k - k * swp a' a b' b)); [non_commutative_ring|].
      rewrite E. non_commutative_ring.
    Qed.
  End Swap.

  (** Swapping a mode with itself is the identity. *)
  Lemma swp_self a a' : swp a' a a' a == 1.
  Proof. unfold swp. non_commutative_ring. Qed.

  (** ** Commutators with number operators *)
  Definition comm (x y : T) : T := x * y - y * x.

  Lemma comm_add_l x y z : comm (x + y) z == comm x z + comm y z.
  Proof. unfold comm. non_commutative_ring. Qed.
  Lemma comm_mul x y z : comm x (y * z) == comm x y * z + y * comm x z.
  Proof. unfold comm. non_commutative_ring. Qed.

  Lemma number_cdag a a' : acomm a a' == 1 -> a' * a' == 0 -> comm (a' * a) a' == a'.
  Proof.
    intros H1 H2.
    assert (E : comm (a' * a) a' == a' * acomm a a' - (a' * a') * a - (a' * a') * a).
    { unfold comm, acomm. non_commutative_ring. }
    rewrite E, H1, H2. non_commutative_ring.
  Qed.
  Lemma number_c a a' : acomm a a' == 1 -> a * a == 0 -> comm (a' * a) a == - a.
  Proof.
    intros H1 H2.
    assert (E : comm (a' * a) a == a' * (a * a) - acomm a a' * a + a' * (a * a)).
    { unfold comm, acomm. non_commutative_ring. }
    rewrite E, H1, H2. non_commutative_ring.
  Qed.
  Lemma number_other a a' k : acomm k a == 0 -> acomm k a' == 0 -> comm (a' * a) k == 0.
  Proof.
    intros H1 H2.
    assert (E : comm (a' * a) k == a' * acomm k a - acomm k a' * a).
    { unfold comm, acomm. non_commutative_ring. }
    rewrite E, H1, H2. non_commutative_ring.
  Qed.
End Car.
