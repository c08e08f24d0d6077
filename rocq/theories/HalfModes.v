(** A unitary that exchanges creation and annihilation of every mode: proofs. *)
From Coq Require Import List Arith Lia Reals Lra Bool QArith Setoid Morphisms Ring Ncring Ncring_tac.
From Verif Require Import Scalars Res Matrix Sums SqMat CarAlgebra ModelBase ModelFermions SpecFock SpecHubbard OpsProofs
  FockProofs FermiOps SwapProofs HamProofs HamSym
  ModelGeometry ModelPhase ModelSymmetry SymBase ModelThermal SpecThermal ThermalBase ThermalBasis SymAverage FreeKms FreeFermi.
Import ListNotations.
Section AnyRing.
  Context {T : Type} `{Rr : Ring T}.
  Lemma move_through (x w a b c : T) : w * a == b * w -> x * b == c * x -> (x * w) * a == c * (x * w).
  Proof.
    intros A B. transitivity (x * (w * a)); [non_commutative_ring|]. rewrite A.
    transitivity ((x * b) * w); [non_commutative_ring|]. rewrite B. non_commutative_ring.
  Qed.
  Lemma pass (a b y : T) : a * y + y * a == 0 -> b * y + y * b == 0 -> (a + b) * y == - (y * (a + b)).
  Proof.
    intros A B. transitivity ((a * y + y * a) + (b * y + y * b) - y * (a + b)); [non_commutative_ring|]. rewrite A, B. non_commutative_ring.
  Qed.
End AnyRing.

Local Open Scope nat_scope.
Arguments Nat.pow : simpl never.
Definition isg (e : CR) : Prop := e = c1 \/ e = kopp c1.
Lemma isg_sq e : isg e -> e *c e = c1. Proof. intros [->| ->]; ring. Qed.
Lemma isg_conj e : isg e -> conj e = e.
Proof. intros [->| ->]; apply injective_projections; cbn; ring. Qed.
Lemma isg_opp e : isg e -> isg (kopp e).
Proof. intros [->| ->]; [right; reflexivity|left; ring]. Qed.
Lemma isg_mul a b : isg a -> isg b -> isg (a *c b).
Proof. intros [->| ->] [->| ->]; [left|right|right|left]; ring. Qed.

Section Modes.
  Variable nl : nat.
  Notation N := (2 ^ nl).
  Variable e : nat -> CR.
  Hypothesis e_sg : forall p, isg (e p).

  Definition X (p : nat) : sq CR N := sadd (Ca nl p) (sscale (e p) (Cd nl p)).

  Lemma scale_mul_l c (A B : sq CR N) : seqv (smul (sscale c A) B) (sscale c (smul A B)).
  Proof. apply sscale_mul_l. Qed.
  Lemma scale_scale c d (A : sq CR N) : seqv (sscale c (sscale d A)) (sscale (c *c d) A).
  Proof. intros i j _ _. unfold sscale. ring. Qed.
  Lemma scale_0 c : seqv (N:=N) (sscale c s0) (s0 (K:=CR)).
  Proof. intros i j _ _. unfold sscale, s0. ring. Qed.
  Lemma scale_1 (A : sq CR N) : seqv (sscale c1 A) A.
  Proof. intros i j _ _. unfold sscale. ring. Qed.
  Lemma add_0_l (A : sq CR N) : seqv (sadd s0 A) A.
  Proof. intros i j _ _. unfold sadd, s0. ring. Qed.
  Lemma add_0_r (A : sq CR N) : seqv (sadd A s0) A.
  Proof. intros i j _ _. unfold sadd, s0. ring. Qed.
  Lemma scale_add c (A B : sq CR N) : seqv (sscale c (sadd A B)) (sadd (sscale c A) (sscale c B)).
  Proof. intros i j _ _. unfold sscale, sadd. ring. Qed.
  Lemma scale_eq c d (A : sq CR N) : c = d -> seqv (sscale c A) (sscale d A).
  Proof. intros ->. reflexivity. Qed.

  Lemma X_Ca p : p < nl -> seqv (smul (X p) (Ca nl p)) (smul (sscale (e p) (Cd nl p)) (X p)).
  Proof.
    intros Hp. unfold X. rewrite smul_add_l, smul_add_r, !sscale_mul_l, !sscale_mul_r, Ca_sq, Cd_sq by exact Hp.
    rewrite !scale_0, add_0_l, add_0_r. reflexivity.
  Qed.
  Lemma X_Cd p : p < nl -> seqv (smul (X p) (Cd nl p)) (smul (sscale (e p) (Ca nl p)) (X p)).
  Proof.
    intros Hp. unfold X. rewrite smul_add_l, smul_add_r, !sscale_mul_l, !sscale_mul_r, Ca_sq, Cd_sq by exact Hp.
    rewrite !scale_0, add_0_l, add_0_r, scale_scale, (isg_sq (e p) (e_sg p)), scale_1. reflexivity.
  Qed.
  Lemma anti_scale c (A B : sq CR N) : seqv (sadd (smul A B) (smul B A)) s0 -> seqv (sadd (smul (sscale c A) B) (smul B (sscale c A))) s0.
  Proof.
    intros Z. rewrite sscale_mul_l, sscale_mul_r, <- scale_add, Z. apply scale_0.
  Qed.
  Lemma X_other p (A : sq CR N) : seqv (sadd (smul (Ca nl p) A) (smul A (Ca nl p))) s0 ->
    seqv (sadd (smul (Cd nl p) A) (smul A (Cd nl p))) s0 -> seqv (smul (X p) A) (smul (sscale (kopp c1) A) (X p)).
  Proof.
    intros A1 A2. unfold X.
    pose proof (pass (Rr:=sq_ring (K:=CR) (N:=N)) (Ca nl p) (sscale (e p) (Cd nl p)) A A1 (anti_scale (e p) (Cd nl p) A A2)) as P.
    intros i j Hi Hj. transitivity (kopp (smul A (sadd (Ca nl p) (sscale (e p) (Cd nl p))) i j)); [exact (P i j Hi Hj)|].
    rewrite (sscale_mul_l (kopp c1) A _ i j Hi Hj). unfold sscale at 2. ring.
  Qed.
  Lemma X_sq p : p < nl -> seqv (smul (X p) (X p)) (sscale (e p) s1).
  Proof.
    intros Hp. unfold X. rewrite smul_add_l, !smul_add_r, !sscale_mul_l, !sscale_mul_r, Ca_sq, Cd_sq by exact Hp.
    rewrite !scale_0, add_0_l, add_0_r, <- scale_add, Ca_Cd_same by exact Hp. reflexivity.
  Qed.
  Lemma X_adj p : p < nl -> seqv (sadj (X p)) (sscale (e p) (X p)).
  Proof.
    intros Hp. unfold X. rewrite sadj_add, sadj_scale, sadj_Ca, sadj_Cd by exact Hp. rewrite scale_add, scale_scale.
    rewrite (isg_sq (e p) (e_sg p)), scale_1, (isg_conj (e p) (e_sg p)). intros i j _ _. unfold sadd. ring.
  Qed.
  Lemma X_unitary p : p < nl -> unitary_sq (X p).
  Proof.
    intros Hp. split.
    - rewrite X_adj, sscale_mul_r, X_sq, scale_scale, (isg_sq (e p) (e_sg p)), scale_1 by exact Hp. reflexivity.
    - rewrite X_adj, sscale_mul_l, X_sq, scale_scale, (isg_sq (e p) (e_sg p)), scale_1 by exact Hp. reflexivity.
  Qed.
  Lemma unitary_mul (A B : sq CR N) : unitary_sq A -> unitary_sq B -> unitary_sq (smul A B).
  Proof.
    intros [A1 A2] [B1 B2]. split.
    - rewrite sadj_mul, smul_assoc, <- (smul_assoc B), B1, smul_1_l. exact A1.
    - rewrite sadj_mul, smul_assoc, <- (smul_assoc (sadj A)), A2, smul_1_l. exact B2.
  Qed.
  Lemma unitary_one : unitary_sq (s1 (K:=CR) (N:=N)).
  Proof. split; rewrite sadj_1; apply smul_1_l. Qed.

  Lemma through c d (x w a b : sq CR N) : seqv (smul w a) (smul (sscale c b) w) -> forall b', seqv (smul x b) (smul (sscale d b') x) ->
    seqv (smul (smul x w) a) (smul (sscale (c *c d) b') (smul x w)).
  Proof.
    intros A b' B.
    apply (move_through (Rr:=sq_ring (K:=CR) (N:=N)) x w a (sscale c b) (sscale (c *c d) b') A).
    change (seqv (smul x (sscale c b)) (smul (sscale (c *c d) b') x)).
    rewrite sscale_mul_r, B, !sscale_mul_l, scale_scale. reflexivity.
  Qed.

  Lemma exchange_all n : n <= nl -> exists (W : sq CR N) k, isg k /\ unitary_sq W /\
    (forall p, p < n -> seqv (smul W (Ca nl p)) (smul (sscale (k *c e p) (Cd nl p)) W) /\
                        seqv (smul W (Cd nl p)) (smul (sscale (k *c e p) (Ca nl p)) W)) /\
    (forall p, n <= p < nl -> seqv (smul W (Ca nl p)) (smul (sscale (kopp k) (Ca nl p)) W) /\
                              seqv (smul W (Cd nl p)) (smul (sscale (kopp k) (Cd nl p)) W)).
  Proof using e_sg.
    induction n as [|n IH]; intros Hn.
    - exists s1, (kopp c1). split; [right; reflexivity|]. split; [apply unitary_one|]. split; [intros; lia|].
      intros p _. assert (Z : kopp (kopp c1) = c1) by ring. rewrite Z.
      split; rewrite scale_1, smul_1_l, smul_1_r; reflexivity.
    - destruct (IH ltac:(lia)) as (W & k & K1 & U & B & C). exists (smul (X n) W), (kopp k).
      split; [apply isg_opp, K1|]. split; [apply unitary_mul; [apply X_unitary; lia | exact U]|].
      assert (OC : forall p, p < nl -> p <> n -> seqv (smul (X n) (Ca nl p)) (smul (sscale (kopp c1) (Ca nl p)) (X n))).
      { intros p Hp Ne. apply X_other; [apply Ca_Ca_ne; lia | apply Cd_Ca_ne; lia]. }
      assert (OD : forall p, p < nl -> p <> n -> seqv (smul (X n) (Cd nl p)) (smul (sscale (kopp c1) (Cd nl p)) (X n))).
      { intros p Hp Ne. apply X_other; [apply Ca_Cd_ne; lia | apply Cd_Cd_ne; lia]. }
      split.
      + intros p Hp. destruct (Nat.eq_dec p n) as [->|Ne].
        * destruct (C n ltac:(lia)) as [C1 C2]. split; [rewrite (through _ _ _ _ _ _ C1 _ (X_Ca n ltac:(lia))) | rewrite (through _ _ _ _ _ _ C2 _ (X_Cd n ltac:(lia)))]; reflexivity.
        * destruct (B p ltac:(lia)) as [B1 B2].
          split; [rewrite (through _ _ _ _ _ _ B1 _ (OD p ltac:(lia) Ne)) | rewrite (through _ _ _ _ _ _ B2 _ (OC p ltac:(lia) Ne))];
            rewrite (scale_eq (k *c e p *c kopp c1) (kopp k *c e p)) by ring; reflexivity.
      + intros p Hp. destruct (C p ltac:(lia)) as [C1 C2].
        split; [rewrite (through _ _ _ _ _ _ C1 _ (OC p ltac:(lia) ltac:(lia))) | rewrite (through _ _ _ _ _ _ C2 _ (OD p ltac:(lia) ltac:(lia)))];
          rewrite (scale_eq (kopp k *c kopp c1) (kopp (kopp k))) by ring; reflexivity.
  Qed.

  Definition swaps (W : sq CR N) : Prop := unitary_sq W /\
    (forall p, p < nl -> seqv (smul W (Nn nl p)) (smul (ssub s1 (Nn nl p)) W)) /\
    (forall p r, p < nl -> r < nl -> p <> r -> seqv (smul W (smul (Cd nl p) (Ca nl r))) (smul (sscale (kopp (e p *c e r)) (smul (Cd nl r) (Ca nl p))) W)).

  Lemma particle_hole : exists W, swaps W.
  Proof using e_sg.
    destruct (exchange_all nl (le_n _)) as (W & k & K1 & U & B & _). exists W. split; [exact U|].
    assert (PR : forall p r, p < nl -> r < nl -> seqv (smul W (smul (Cd nl p) (Ca nl r))) (smul (sscale (e p *c e r) (smul (Ca nl p) (Cd nl r))) W)).
    { intros p r Hp Hr. destruct (B p Hp) as [_ B1]. destruct (B r Hr) as [B2 _].
      rewrite <- smul_assoc, B1, smul_assoc, B2, !sscale_mul_l, sscale_mul_r, scale_scale, smul_assoc.
      apply scale_eq. transitivity ((k *c k) *c (e p *c e r)); [ring|]. rewrite (isg_sq k K1). ring. }
    split.
    - intros p Hp. rewrite <- (Cd_Ca nl p Hp), PR by exact Hp. rewrite (isg_sq (e p) (e_sg p)), scale_1.
      apply smul_proper; [|reflexivity]. rewrite <- (Ca_Cd_same nl p Hp). intros i j _ _. unfold sadd, ssub. ring.
    - intros p r Hp Hr Ne. rewrite PR by assumption. apply smul_proper; [|reflexivity].
      pose proof (Ca_Cd_ne nl p r Ne Hp Hr) as Z. intros i j Hi Hj. specialize (Z i j Hi Hj). unfold sadd, s0 in Z. unfold sscale.
      assert (Z' : smul (N:=N) (Ca nl p) (Cd nl r) i j = kopp (smul (N:=N) (Cd nl r) (Ca nl p) i j)).
      { transitivity ((smul (N:=N) (Ca nl p) (Cd nl r) i j +c smul (N:=N) (Cd nl r) (Ca nl p) i j) +c kopp (smul (N:=N) (Cd nl r) (Ca nl p) i j)); [ring|]. rewrite Z. ring. }
      rewrite Z'. ring.
  Qed.
End Modes.
