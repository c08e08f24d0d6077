(** A site without bonds: proofs. *)
From Coq Require Import List Arith Lia Reals Lra Bool QArith Qabs Setoid Morphisms Ring Ncring Ncring_tac.
From Verif Require Import Scalars Res Matrix Sums SqMat CarAlgebra ModelBase ModelFermions SpecFock SpecHubbard OpsProofs
  FockProofs FermiOps SwapProofs HamProofs HamSym
  ModelGeometry ModelPhase ModelSymmetry SymBase ModelThermal SpecThermal ThermalBase ThermalFacts ThermalBasis SymAverage FreeKms FreeFermi FreeThermal SpecFermiGas SpecHalf HalfModes HalfHam SpinRotate SpecAtomic.
From Verif Require FreeWick.
Import ListNotations.
Section AnyRing.
  Context {T : Type} `{Rr : Ring T}.
  (** [d], [a], [n]: creation, annihilation and number; [n']: number of the other species. *)
  Lemma num_stays (h d a n al u : T) : h * d - d * h == al * d + u * (d * n) -> h * a - a * h == - (al * a + u * (n * a)) ->
    d * al == al * d -> d * u == u * d -> h * (d * a) - (d * a) * h == 0.
  Proof.
    intros H1 H2 C1 C2. transitivity ((h * d - d * h) * a + d * (h * a - a * h)); [non_commutative_ring|]. rewrite H1, H2.
    transitivity (- ((d * al - al * d) * a) - (d * u - u * d) * (n * a)); [non_commutative_ring|]. rewrite C1, C2. non_commutative_ring.
  Qed.
  Lemma lift_empty (h d n al u : T) : h * d - d * h == al * d + u * (d * n) -> h * n - n * h == 0 -> n * n == n ->
    h * (d * (1 - n)) - d * (1 - n) * h == al * (d * (1 - n)).
  Proof.
    intros H1 H2 NN. transitivity ((h * d - d * h) * (1 - n) - d * (h * n - n * h)); [non_commutative_ring|]. rewrite H1, H2.
    transitivity (al * (d * (1 - n)) + u * d * (n - n * n)); [non_commutative_ring|]. rewrite NN. non_commutative_ring.
  Qed.
  Lemma lift_full (h d n al u : T) : h * d - d * h == al * d + u * (d * n) -> h * n - n * h == 0 -> n * n == n ->
    h * (d * n) - d * n * h == (al + u) * (d * n).
  Proof.
    intros H1 H2 NN. transitivity ((h * d - d * h) * n + d * (h * n - n * h)); [non_commutative_ring|]. rewrite H1, H2.
    transitivity ((al + u) * (d * n) + u * d * (n * n - n)); [non_commutative_ring|]. rewrite NN. non_commutative_ring.
  Qed.
  Lemma front (d a n c y : T) : n * a - a * n == 0 -> c == n \/ c == 1 - n -> d * c * (a * y) == d * a * c * y.
  Proof.
    intros H1 [Hc|Hc].
    - rewrite Hc. transitivity (d * a * n * y + d * (n * a - a * n) * y); [non_commutative_ring|]. rewrite H1. non_commutative_ring.
    - rewrite Hc. transitivity (d * a * (1 - n) * y - d * (n * a - a * n) * y); [non_commutative_ring|]. rewrite H1. non_commutative_ring.
  Qed.
  Lemma back_ (d a n c y : T) : a * d + d * a == 1 -> y * d - d * y == 0 -> y * n - n * y == 0 -> c == n \/ c == 1 - n ->
    a * y * (d * c) == (1 - d * a) * c * y.
  Proof.
    intros CR1 H1 H2 Hc.
    assert (Hc' : y * c - c * y == 0).
    { destruct Hc as [Hc|Hc]; rewrite Hc; [exact H2|]. transitivity (- (y * n - n * y)); [non_commutative_ring|]. rewrite H2. non_commutative_ring. }
    transitivity ((1 - d * a) * c * y + (a * d + d * a - 1) * c * y + a * (y * d - d * y) * c + a * d * (y * c - c * y)); [non_commutative_ring|].
    rewrite CR1, H1, Hc'. non_commutative_ring.
  Qed.
  Lemma sub_split (x n y : T) : x * (1 - n) * y == x * y - x * n * y.
  Proof. non_commutative_ring. Qed.
  Lemma sub_split_l (n c y : T) : (1 - n) * c * y == c * y - n * c * y.
  Proof. non_commutative_ring. Qed.
  Lemma sub_split_2 (n c y : T) : (1 - n) * (1 - c) * y == y - n * y - c * y + n * c * y.
  Proof. non_commutative_ring. Qed.
End AnyRing.
Local Open Scope nat_scope.
Arguments Nat.pow : simpl never.

Lemma mul_assoc_real a b c : real a *c (real b *c c) = real (a * b) *c c.
Proof. rewrite real_mul. ring. Qed.

Section Atom.
  Variable f : fermions CR.
  Notation ns := (fg_nsites (f_geom f)).
  Notation m := (f_nspecies f).
  Notation nl := (nlog (f_sys f)).
  Notation N := (2 ^ nlog (f_sys f)).
  Notation q i k := (lsite (f_sys f) i k).
  Variables (i : nat) (a0 a1 u : R).
  Hypothesis two : 2 <= m.
  Hypothesis Hi : i < ns.
  Hypothesis iso : isolated f i.
  Hypothesis en : site_energies f i a0 a1 u.
  Notation al s := (if s =? 0 then a0 else a1).

  Lemma teff_0 j k : j < ns -> k < m -> teff f i j k = c0 /\ teff f j i k = c0.
  Proof using iso. intros Hj Hk. destruct (iso j k Hj Hk) as (A & B & _). unfold teff. rewrite A, B. change k0 with c0. split; ring. Qed.
  Lemma ad_other j k s : j < ns -> k < m -> s < m -> j <> i \/ k <> s -> seqv (N:=N) (ad (Cd nl (q i s)) (Nn nl (q j k))) s0.
  Proof using Hi.
    clear two. intros Hj Hk Hs Ne. rewrite ad_N by (apply q_lt; assumption). intros a b _ _. unfold sscale, s0. rewrite q_eqb by assumption.
    destruct (Nat.eqb_spec j i), (Nat.eqb_spec k s); cbn [kb]; try (change k0 with c0; ring). lia.
  Qed.
  Lemma ad_self s : s < m -> seqv (N:=N) (ad (Cd nl (q i s)) (Nn nl (q i s))) (Cd nl (q i s)).
  Proof using Hi. intros Hs. rewrite ad_N by (apply q_lt; assumption). intros a b _ _. unfold sscale. rewrite Nat.eqb_refl. cbn [kb]. ring. Qed.
  Lemma zero_l (X : sq CR N) : seqv (N:=N) (smul s0 X) s0.
  Proof using. clear. intros a b _ _. unfold smul, s0. apply ksum_zero. intros. ring. Qed.
  Lemma zero_r (X : sq CR N) : seqv (N:=N) (smul X s0) s0.
  Proof using. clear. intros a b _ _. unfold smul, s0. apply ksum_zero. intros. ring. Qed.
  Lemma N_Cd s s' : s < m -> s' < m -> s <> s' -> seqv (N:=N) (smul (Nn nl (q i s')) (Cd nl (q i s))) (smul (Cd nl (q i s)) (Nn nl (q i s'))).
  Proof using Hi.
    intros Hs Hs' Ne. pose proof (ad_other i s' s Hi Hs' Hs (or_intror (not_eq_sym Ne))) as X. intros a b Ha Hb. specialize (X a b Ha Hb). unfold ad, s0 in X. change k0 with c0 in X.
    match type of X with ksub ?x ?y = _ => transitivity ((x -c y) +c y); [ring|]; rewrite X; ring end.
  Qed.

  Lemma H_lift s s' : s < 2 -> s' < 2 -> s <> s' ->
    seqv (N:=N) (ad (Cd nl (q i s)) (HS2 f (teff f))) (sadd (sscale (real (al s)) (Cd nl (q i s))) (sscale (real u) (smul (Cd nl (q i s)) (Nn nl (q i s'))))).
  Proof using two Hi iso en.
    intros S2 S2' Ne a b Ha Hb. unfold HS2. rewrite ad_add, ad_sub, ad_add, ad_add. rewrite !ad_ksum.
    assert (T1 : ksum ns (fun i' => ad (Cd nl (q i s)) (fun a b => ksum i' (fun j => ksum m (fun k => kopp (teff f i' j k *c hop f (q i' k) (q j k) a b)))) a b) = c0).
    { apply ksum_zero. intros i' Hi'. rewrite ad_ksum. apply ksum_zero. intros j Hj. rewrite ad_ksum. apply ksum_zero. intros k Hk.
      rewrite ad_opp, ad_scale. destruct (Nat.eq_dec i' i) as [->|N1]; [rewrite (proj1 (teff_0 j k ltac:(lia) Hk)); ring|].
      destruct (Nat.eq_dec j i) as [->|N2]; [rewrite (proj2 (teff_0 i' k ltac:(lia) Hk)); ring|].
      rewrite ad_hop by (try apply q_lt; lia). unfold sadd, sscale. rewrite !q_eqb by lia.
      rewrite (proj2 (Nat.eqb_neq j i)), (proj2 (Nat.eqb_neq i' i)) by assumption. cbn [kb]. change k0 with c0. ring. }
    assert (T2 : ksum ns (fun i' => ad (Cd nl (q i s)) (fun a b => f_us f i' *c smul (Nn nl (q i' 0)) (Nn nl (q i' 1)) a b) a b) = real u *c smul (N:=N) (Cd nl (q i s)) (Nn nl (q i s')) a b).
    { rewrite (ksum_single ns i); [| exact Hi |].
      - rewrite ad_scale. destruct en as (-> & _). f_equal.
        pose proof (ad_mul f (Cd nl (q i s)) (Nn nl (q i 0)) (Nn nl (q i 1)) a b Ha Hb) as X. rewrite X.
        assert (C : s = 0 /\ s' = 1 \/ s = 1 /\ s' = 0) by lia. destruct C as [(-> & ->)|(-> & ->)].
        + assert (Y : seqv (N:=N) (sadd (smul (ad (Cd nl (q i 0)) (Nn nl (q i 0))) (Nn nl (q i 1))) (smul (Nn nl (q i 0)) (ad (Cd nl (q i 0)) (Nn nl (q i 1))))) (smul (Cd nl (q i 0)) (Nn nl (q i 1)))).
          { rewrite ad_self, (ad_other i 1 0 Hi), zero_r by lia. intros x y _ _. unfold sadd, s0. change k0 with c0. ring. }
          apply Y; assumption.
        + assert (Y : seqv (N:=N) (sadd (smul (ad (Cd nl (q i 1)) (Nn nl (q i 0))) (Nn nl (q i 1))) (smul (Nn nl (q i 0)) (ad (Cd nl (q i 1)) (Nn nl (q i 1))))) (smul (Cd nl (q i 1)) (Nn nl (q i 0)))).
          { rewrite ad_self, (ad_other i 0 1 Hi), zero_l, N_Cd by lia. intros x y _ _. unfold sadd, s0. change k0 with c0. ring. }
          apply Y; assumption.
      - intros j Hj Nj. rewrite ad_scale. pose proof (ad_mul f (Cd nl (q i s)) (Nn nl (q j 0)) (Nn nl (q j 1)) a b Ha Hb) as X. rewrite X.
        assert (Y : seqv (N:=N) (sadd (smul (ad (Cd nl (q i s)) (Nn nl (q j 0))) (Nn nl (q j 1))) (smul (Nn nl (q j 0)) (ad (Cd nl (q i s)) (Nn nl (q j 1))))) s0).
        { rewrite !(ad_other j), zero_l, zero_r by lia. intros x y _ _. unfold sadd, s0. change k0 with c0. ring. }
        rewrite Y by assumption. unfold s0. change k0 with c0. ring. }
    assert (T3 : ksum ns (fun i' => ad (Cd nl (q i s)) (fun a b => ksum (S i') (fun j => ksum m (fun k => f_same f i' j k *c smul (Nn nl (q i' k)) (Nn nl (q j k)) a b))) a b) = c0).
    { apply ksum_zero. intros i' Hi'. rewrite ad_ksum. apply ksum_zero. intros j Hj. rewrite ad_ksum. apply ksum_zero. intros k Hk.
      rewrite ad_scale. destruct (Nat.eq_dec i' i) as [->|N1]; [destruct (iso j k ltac:(lia) Hk) as (_ & _ & -> & _); change k0 with c0; ring|].
      destruct (Nat.eq_dec j i) as [->|N2]; [destruct (iso i' k ltac:(lia) Hk) as (_ & _ & _ & ->); change k0 with c0; ring|].
      pose proof (ad_mul f (Cd nl (q i s)) (Nn nl (q i' k)) (Nn nl (q j k)) a b Ha Hb) as X. rewrite X.
      assert (Y : seqv (N:=N) (sadd (smul (ad (Cd nl (q i s)) (Nn nl (q i' k))) (Nn nl (q j k))) (smul (Nn nl (q i' k)) (ad (Cd nl (q i s)) (Nn nl (q j k))))) s0).
      { rewrite (ad_other i' k), (ad_other j k), zero_l, zero_r by lia. intros x y _ _. unfold sadd, s0. change k0 with c0. ring. }
      rewrite Y by assumption. unfold s0. change k0 with c0. ring. }
    assert (T4 : forall g : nat -> nat -> CR, ksum ns (fun i' => ad (Cd nl (q i s)) (fun a b => ksum m (fun k0 => g i' k0 *c Nn nl (q i' k0) a b)) a b) = g i s *c Cd nl (q i s) a b).
    { intros g. rewrite (ksum_single ns i); [| exact Hi |].
      - rewrite ad_ksum, (ksum_single m s); [| lia |].
        + rewrite ad_scale, ad_self by (assumption || lia). reflexivity.
        + intros k Hk Nk. rewrite ad_scale, ad_other by (assumption || lia). unfold s0. change k0 with c0. ring.
      - intros j Hj Nj. rewrite ad_ksum. apply ksum_zero. intros k Hk. rewrite ad_scale, ad_other by (assumption || lia). unfold s0. change k0 with c0. ring. }
    rewrite T1, T2, T3, (T4 (fun _ k => f_mus f k)), (T4 (fun i k => f_pot f i k)). unfold sadd, sscale.
    assert (EN : f_pot f i s -c f_mus f s = real (al s)).
    { destruct en as (_ & A & B). assert (C : s = 0 \/ s = 1) by lia. destruct C as [-> | ->]; [exact A | exact B]. }
    rewrite <- EN. ring.
  Qed.

  Variables (H V : mat CR) (E : list R) (T : R).
  Hypothesis ham : createH f None = Ok H.
  Hypothesis basis : eigenbasis H V E.
  Hypothesis T0 : T <> 0%R.
  Notation om := (omega N V E T).
  Notation n s := (Nn nl (q i s)).

  Lemma H_val : nrow H = N /\ ncol H = N /\ seqv (N:=N) (ent H) (HS2 f (teff f)).
  Proof using ham two. apply (H_is f (or_introl two) H ham). Qed.
  Lemma V_val : nrow V = N.
  Proof using ham two basis. destruct H_val as (A & _). destruct basis as ((_ & B & _) & _). congruence. Qed.
  Lemma H_herm : seqv (N:=N) (sadj (ent H)) (ent H).
  Proof using ham two basis. intros a b Ha Hb. unfold sadj. symmetry. pose proof (eigenbasis_hermitian H V E basis) as X. rewrite V_val in X. apply X; assumption. Qed.
  Lemma lift s s' : s < 2 -> s' < 2 -> s <> s' ->
    seqv (N:=N) (ssub (smul (ent H) (Cd nl (q i s))) (smul (Cd nl (q i s)) (ent H)))
      (sadd (smul (sscale (real (al s)) s1) (Cd nl (q i s))) (smul (sscale (real u) s1) (smul (Cd nl (q i s)) (n s')))).
  Proof using two Hi iso en ham.
    intros A B C. destruct H_val as (_ & _ & HH). change (ssub (smul (ent H) (Cd nl (q i s))) (smul (Cd nl (q i s)) (ent H))) with (ad (Cd nl (q i s)) (ent H)).
    rewrite (ad_ext _ _ _ HH), (H_lift s s' A B C), !sscale_mul_l, !smul_1_l. reflexivity.
  Qed.
  Lemma drop s s' : s < 2 -> s' < 2 -> s <> s' ->
    seqv (N:=N) (ssub (smul (ent H) (Ca nl (q i s))) (smul (Ca nl (q i s)) (ent H)))
      (sopp (sadd (smul (sscale (real (al s)) s1) (Ca nl (q i s))) (smul (sscale (real u) s1) (smul (n s') (Ca nl (q i s)))))).
  Proof using two Hi iso en ham basis.
    intros A B C. assert (Q : forall k, k < 2 -> q i k < nl) by (intros; apply q_lt; lia).
    assert (X : seqv (N:=N) (sadj (ssub (smul (ent H) (Cd nl (q i s))) (smul (Cd nl (q i s)) (ent H)))) (sadj (sadd (smul (sscale (real (al s)) s1) (Cd nl (q i s))) (smul (sscale (real u) s1) (smul (Cd nl (q i s)) (n s')))))) by (rewrite (lift s s' A B C); reflexivity).
    rewrite sadj_sub, sadj_add, !sadj_mul, !sadj_scale, sadj_1, sadj_Cd, sadj_Nn, H_herm in X by (apply Q; assumption).
    rewrite !sscale_mul_r, !smul_1_r in X.
    assert (RC : forall x, kconj (real x) = real x) by (intros; apply injective_projections; cbn; ring). rewrite !RC in X.
    rewrite !sscale_mul_l, !smul_1_l. intros a b Ha Hb. specialize (X a b Ha Hb). unfold ssub, sopp, sadd, sscale in *.
    match type of X with ksub ?x ?y = ?z => transitivity (kopp (x -c y)); [ring|]; rewrite X; reflexivity end.
  Qed.
  Lemma scalar c X : seqv (N:=N) (smul X (sscale c s1)) (smul (sscale c s1) X).
  Proof using. clear. rewrite sscale_mul_l, sscale_mul_r, smul_1_l, smul_1_r. reflexivity. Qed.
  Lemma stays s : s < 2 -> seqv (N:=N) (ssub (smul (ent H) (n s)) (smul (n s) (ent H))) s0.
  Proof using two Hi iso en ham basis.
    intros A. assert (Hq : q i s < nl) by (apply q_lt; lia). rewrite <- (Cd_Ca nl (q i s) Hq).
    refine (num_stays (Rr:=sq_ring (K:=CR) (N:=N)) (ent H) (Cd nl (q i s)) (Ca nl (q i s)) (n (1 - s)) (sscale (real (al s)) s1) (sscale (real u) s1) _ _ (scalar _ _) (scalar _ _)).
    - apply (lift s (1 - s)); lia.
    - apply (drop s (1 - s)); lia.
  Qed.

  (** [Y] commutes with the operators of the site. *)
  Section With.
    Variable Y : sq CR N.
    Hypothesis Yd : forall s, s < 2 -> seqv (N:=N) (ssub (smul Y (Cd nl (q i s))) (smul (Cd nl (q i s)) Y)) s0.
    Hypothesis Yn : forall s, s < 2 -> seqv (N:=N) (ssub (smul Y (n s)) (smul (n s) Y)) s0.
    Notation x s := (exp (- al s / T)).
    Notation y := (exp (- u / T)).

    Lemma step s s' (c : sq CR N) e : s < 2 -> s' < 2 -> s <> s' -> seqv c (n s') \/ seqv c (ssub s1 (n s')) ->
      seqv (N:=N) (ssub (smul (ent H) (smul (Cd nl (q i s)) c)) (smul (smul (Cd nl (q i s)) c) (ent H))) (sscale (real e) (smul (Cd nl (q i s)) c)) ->
      om (smul (smul (n s) c) Y) = real (exp (- e / T)) *c om (smul (smul (ssub s1 (n s)) c) Y).
    Proof using two Hi ham basis T0 Yd Yn.
      intros A B C Hc HL. assert (Q : forall k, k < 2 -> q i k < nl) by (intros; apply q_lt; lia).
      assert (NA : seqv (N:=N) (ssub (smul (n s') (Ca nl (q i s))) (smul (Ca nl (q i s)) (n s'))) s0).
      { rewrite (Nn_Ca f (q i s') (q i s)) by (apply Q; assumption). intros a b _ _. unfold ssub, sscale, s0. rewrite q_eqb by assumption.
        rewrite (proj2 (Nat.eqb_neq s' s)) by congruence. cbn [kb]. change k0 with c0. ring. }
      pose proof (exchange N H V E T V_val basis T0 (smul (Cd nl (q i s)) c) (smul (Ca nl (q i s)) Y) e HL) as EX.
      assert (F : seqv (N:=N) (smul (smul (Cd nl (q i s)) c) (smul (Ca nl (q i s)) Y)) (smul (smul (n s) c) Y)).
      { rewrite <- (Cd_Ca nl (q i s)) by (apply Q; exact A). exact (front (Rr:=sq_ring (K:=CR) (N:=N)) (Cd nl (q i s)) (Ca nl (q i s)) (n s') c Y NA Hc). }
      assert (G : seqv (N:=N) (smul (smul (Ca nl (q i s)) Y) (smul (Cd nl (q i s)) c)) (smul (smul (ssub s1 (n s)) c) Y)).
      { rewrite <- (Cd_Ca nl (q i s)) by (apply Q; exact A).
        exact (back_ (Rr:=sq_ring (K:=CR) (N:=N)) (Cd nl (q i s)) (Ca nl (q i s)) (n s') c Y (Ca_Cd_same nl (q i s) (Q s A)) (Yd s A) (Yn s' B) Hc). }
      rewrite <- (omega_ext N V E T _ _ F), <- (omega_ext N V E T _ _ G). exact EX.
    Qed.
    Lemma up_empty s s' : s < 2 -> s' < 2 -> s <> s' -> om (smul (smul (n s) (ssub s1 (n s'))) Y) = real (x s) *c om (smul (smul (ssub s1 (n s)) (ssub s1 (n s'))) Y).
    Proof using All.
      intros A B C. assert (Q : forall k, k < 2 -> q i k < nl) by (intros; apply q_lt; lia).
      apply (step s s' (ssub s1 (n s')) (al s) A B C (or_intror (fun a b _ _ => eq_refl))).
      pose proof (lift_empty (Rr:=sq_ring (K:=CR) (N:=N)) (ent H) (Cd nl (q i s)) (n s') (sscale (real (al s)) s1) (sscale (real u) s1) (lift s s' A B C) (stays s' B) (Nn_idem nl (q i s') (Q s' B))) as L.
      etransitivity; [exact L|]. etransitivity; [apply sscale_mul_l|]. rewrite smul_1_l. reflexivity.
    Qed.
    Lemma up_full s s' : s < 2 -> s' < 2 -> s <> s' -> om (smul (smul (n s) (n s')) Y) = real (x s * y) *c om (smul (smul (ssub s1 (n s)) (n s')) Y).
    Proof using All.
      intros A B C. assert (Q : forall k, k < 2 -> q i k < nl) by (intros; apply q_lt; lia).
      replace (x s * y)%R with (exp (- (al s + u) / T)) by (rewrite <- exp_plus; f_equal; field; exact T0).
      apply (step s s' (n s') (al s + u)%R A B C (or_introl (fun a b _ _ => eq_refl))).
      pose proof (lift_full (Rr:=sq_ring (K:=CR) (N:=N)) (ent H) (Cd nl (q i s)) (n s') (sscale (real (al s)) s1) (sscale (real u) s1) (lift s s' A B C) (stays s' B) (Nn_idem nl (q i s') (Q s' B))) as L.
      etransitivity; [exact L|]. transitivity (smul (N:=N) (sscale (real (al s + u)) s1) (smul (Cd nl (q i s)) (n s'))).
      - apply smul_proper; [|reflexivity]. intros a b _ _. unfold sscale, addition, add_notation, sadd. rewrite real_add. ring.
      - rewrite sscale_mul_l, smul_1_l. reflexivity.
    Qed.
    Lemma n_comm : seqv (N:=N) (smul (n 1) (n 0)) (smul (n 0) (n 1)).
    Proof using two Hi.
      clear - two Hi. assert (Q : forall k, k < 2 -> q i k < nl) by (intros; apply q_lt; lia).
      rewrite <- (Cd_Ca nl (q i 0)) by (apply Q; lia). rewrite <- !smul_assoc, (N_Cd 0 1) by lia. rewrite !smul_assoc.
      apply smul_proper; [reflexivity|]. rewrite (Nn_Ca f (q i 1) (q i 0)) by (apply Q; lia). intros a b _ _. unfold ssub, sscale. rewrite q_eqb by assumption. rewrite Nat.eqb_refl. cbn [kb Nat.eqb]. change k0 with c0. ring.
    Qed.
    Lemma om_sub X Z : om (ssub X Z) = om X -c om Z.
    Proof using.
      clear. rewrite (omega_ext N V E T _ (sadd X (sscale (kopp c1) Z))) by (intros a b _ _; unfold ssub, sadd, sscale; ring). rewrite omega_add, omega_scale. ring.
    Qed.
    Notation A := (om Y). Notation B s := (om (smul (n s) Y)). Notation D := (om (smul (smul (n 0) (n 1)) Y)).
    Notation z := (1 + x 0 + x 1 + x 0 * x 1 * y)%R.
    Lemma om_hole X s : om (smul (smul X (ssub s1 (n s))) Y) = om (smul X Y) -c om (smul (smul X (n s)) Y).
    Proof using. clear. rewrite <- om_sub. apply omega_ext. exact (sub_split (Rr:=sq_ring (K:=CR) (N:=N)) X (n s) Y). Qed.
    Lemma om_hole_l X s : om (smul (smul (ssub s1 (n s)) X) Y) = om (smul X Y) -c om (smul (smul (n s) X) Y).
    Proof using. clear. rewrite <- om_sub. apply omega_ext. exact (sub_split_l (Rr:=sq_ring (K:=CR) (N:=N)) (n s) X Y). Qed.
    Lemma om_holes s s' : om (smul (smul (ssub s1 (n s)) (ssub s1 (n s'))) Y) = A -c B s -c B s' +c om (smul (smul (n s) (n s')) Y).
    Proof using.
      clear. rewrite <- !om_sub, <- omega_add. apply omega_ext. exact (sub_split_2 (Rr:=sq_ring (K:=CR) (N:=N)) (n s) (n s') Y).
    Qed.
    Lemma solve : real z *c B 0 = real (x 0 + x 0 * x 1 * y) *c A /\ real z *c B 1 = real (x 1 + x 0 * x 1 * y) *c A /\ real z *c D = real (x 0 * x 1 * y) *c A.
    Proof using All.
      pose proof (up_empty 0 1 ltac:(lia) ltac:(lia) ltac:(lia)) as E0. pose proof (up_empty 1 0 ltac:(lia) ltac:(lia) ltac:(lia)) as E1. pose proof (up_full 0 1 ltac:(lia) ltac:(lia) ltac:(lia)) as F0.
      assert (D' : om (smul (smul (n 1) (n 0)) Y) = D) by (apply omega_ext; rewrite n_comm; reflexivity).
      rewrite om_hole, om_holes in E0, E1. rewrite D' in E1. rewrite om_hole_l in F0. cbn [Nat.eqb] in *.
      set (X0 := exp (- a0 / T)) in *. set (X1 := exp (- a1 / T)) in *. set (YY := exp (- u / T)) in *.
      set (a := A) in *. set (b := B 0) in *. set (b' := B 1) in *. set (d := D) in *. clearbody X0 X1 YY a b b' d. clear - E0 E1 F0.
      set (w := a -c b -c b' +c d). assert (E1' : b' -c d = real X1 *c w) by (rewrite E1; unfold w; ring). fold w in E0.
      assert (Q : d = real (X0 * X1 * YY) *c w). { rewrite F0. rewrite E1'. rewrite !real_mul. ring. }
      assert (Q0 : b = d +c real X0 *c w) by (rewrite <- E0; ring). assert (Q1 : b' = d +c real X1 *c w) by (rewrite <- E1'; ring).
      assert (QA : a = real (1 + X0 + X1 + X0 * X1 * YY) *c w).
      { transitivity (w +c b +c b' -c d); [unfold w; ring|]. rewrite Q0, Q1, Q, !real_add. change (real 1) with c1. ring. }
      rewrite QA, Q0, Q1, Q. rewrite !real_add. repeat split; ring.
    Qed.
  End With.

  (** Averages. *)
  Notation Z := (Zp E T).
  Notation x s := (exp (- al s / T)).
  Notation y := (exp (- u / T)).
  Notation z := (1 + x 0 + x 1 + x 0 * x 1 * y)%R.
  Lemma z_pos : (0 < z)%R.
  Proof using. clear. pose proof (exp_pos (- a0 / T)). pose proof (exp_pos (- a1 / T)). pose proof (exp_pos (- u / T)). cbn [Nat.eqb]. assert (0 < exp (- a0 / T) * exp (- a1 / T) * exp (- u / T))%R by (repeat apply Rmult_lt_0_compat; assumption). lra. Qed.
  Lemma weights : atom_partition T a0 a1 u = z /\ atom_weight T a0 a1 u true false = x 0 /\ atom_weight T a0 a1 u false true = x 1 /\ atom_weight T a0 a1 u true true = (x 0 * x 1 * y)%R.
  Proof using T0.
    assert (W : atom_weight T a0 a1 u false false = 1%R /\ atom_weight T a0 a1 u true false = x 0 /\ atom_weight T a0 a1 u false true = x 1 /\ atom_weight T a0 a1 u true true = (x 0 * x 1 * y)%R).
    { clear - T0. unfold atom_weight. cbn [bit Nat.eqb]. repeat split.
      - rewrite <- exp_0. f_equal. field. exact T0.
      - f_equal. field. exact T0.
      - f_equal. field. exact T0.
      - rewrite <- !exp_plus. f_equal. field. exact T0. }
    destruct W as (W0 & W1 & W2 & W3). unfold atom_partition. rewrite W0, W1, W2, W3. repeat split; reflexivity.
  Qed.
  Lemma read O X c : square N O -> seqv (N:=N) (ent O) X -> om X = real Z *c c -> exp_vals_thermal V O E T = Ok (fst c).
  Proof using two ham basis T0.
    intros (S1 & S2) AX OX. pose proof V_val as VR.
    assert (NE : E <> []). { apply (FreeWick.basis_not_empty V E H basis). rewrite VR. apply Nat.neq_0_lt_0, Nat.pow_nonzero. discriminate. }
    rewrite thermal_finite; [|repeat split; [congruence | congruence | apply basis | exact NE] | exact T0].
    rewrite <- (boltzmann_omega N V E T VR O S1 S2), (omega_ext N V E T _ X AX), OX. f_equal.
    pose proof (Zp_pos E T NE). cbn. field. lra.
  Qed.
  Lemma div_z c d w : real z *c c = real w *c d -> c = real (w / z) *c d.
  Proof using.
    clear. intros Q. pose proof z_pos as P. transitivity (real (/ z) *c (real z *c c)).
    - rewrite (mul_assoc_real (/ z) z c). replace (/ z * z)%R with 1%R by (field; lra). change (real 1) with c1. ring.
    - rewrite Q, (mul_assoc_real (/ z) w d). f_equal. f_equal. field. lra.
  Qed.
  Lemma one_commutes s : s < 2 -> seqv (N:=N) (ssub (smul s1 (Cd nl (q i s))) (smul (Cd nl (q i s)) s1)) s0 /\ seqv (N:=N) (ssub (smul s1 (n s)) (smul (n s) s1)) s0.
  Proof using. clear. intros _. split; rewrite smul_1_l, smul_1_r; intros a b _ _; unfold ssub, s0; change k0 with c0; ring. Qed.
  Lemma dens k : k < 2 -> atom_density T a0 a1 u k = ((x k + x 0 * x 1 * y) / z)%R.
  Proof using T0.
    clear two Hi. intros Hk. destruct weights as (WZ & W1 & W2 & W3). unfold atom_density, atom_prob. rewrite WZ, W1, W2, W3. pose proof z_pos as P.
    assert (C : k = 0 \/ k = 1) by lia. destruct C as [-> | ->]; cbn [Nat.eqb] in *; field; lra.
  Qed.
  Lemma B_val Y : (forall s, s < 2 -> seqv (N:=N) (ssub (smul Y (Cd nl (q i s))) (smul (Cd nl (q i s)) Y)) s0 /\ seqv (N:=N) (ssub (smul Y (n s)) (smul (n s) Y)) s0) ->
    forall k, k < 2 -> om (smul (n k) Y) = real (atom_density T a0 a1 u k) *c om Y.
  Proof using two Hi iso en ham basis T0.
    intros HY k Hk. destruct (solve Y (fun s Hs => proj1 (HY s Hs)) (fun s Hs => proj2 (HY s Hs))) as (S0 & S1 & _). rewrite dens by exact Hk. apply div_z.
    assert (C : k = 0 \/ k = 1) by lia. destruct C as [-> | ->]; assumption.
  Qed.
  Lemma om_1 : om s1 = real Z. Proof using ham two basis. apply (omega_one N H V E T V_val basis). Qed.

  Theorem atom_density_avg k O : k < 2 -> single_site_op (f_sys f) i k n_op Boson = Ok O -> exp_vals_thermal V O E T = Ok (atom_density T a0 a1 u k).
  Proof using All.
    intros Hk EO. destruct (single_ok (f_sys f) i k n_op Boson (f_two f) ltac:(discriminate) Hi ltac:(change (k < m); lia) (sq2 _ _ _ _)) as (O' & EO' & SO & VO).
    rewrite EO in EO'. injection EO' as <-. rewrite (read O (smul (n k) s1) (real (atom_density T a0 a1 u k)) SO); [reflexivity | rewrite smul_1_r; exact VO|].
    rewrite (B_val s1 one_commutes k Hk), om_1. ring.
  Qed.
  Theorem atom_double_avg O : two_site_op (f_sys f) i 0 i 1 n_op n_op Boson = Ok O -> exp_vals_thermal V O E T = Ok (atom_prob T a0 a1 u true true).
  Proof using All.
    intros EO. destruct (two_ok (f_sys f) i 0 i 1 n_op n_op Boson (f_two f) ltac:(discriminate) Hi ltac:(change (0 < m); lia) Hi ltac:(change (1 < m); lia) (sq2 _ _ _ _) (sq2 _ _ _ _)) as (O' & EO' & SO & VO).
    rewrite EO in EO'. injection EO' as <-. rewrite (read O (smul (smul (n 0) (n 1)) s1) (real (atom_prob T a0 a1 u true true)) SO); [reflexivity | rewrite smul_1_r; exact VO|].
    destruct (solve s1 (fun s Hs => proj1 (one_commutes s Hs)) (fun s Hs => proj2 (one_commutes s Hs))) as (_ & _ & S). apply div_z in S. rewrite S, om_1.
    unfold atom_prob. destruct weights as (-> & _ & _ & ->). ring.
  Qed.
  Theorem atom_uncorrelated k j k' O O' r : k < 2 -> j < ns -> j <> i -> k' < m -> two_site_op (f_sys f) i k j k' n_op n_op Boson = Ok O ->
    single_site_op (f_sys f) j k' n_op Boson = Ok O' -> exp_vals_thermal V O' E T = Ok r -> exp_vals_thermal V O E T = Ok (atom_density T a0 a1 u k * r)%R.
  Proof using All.
    intros Hk Hj Ne Hk' EO EO' ER.
    destruct (two_ok (f_sys f) i k j k' n_op n_op Boson (f_two f) ltac:(discriminate) Hi ltac:(change (k < m); lia) Hj Hk' (sq2 _ _ _ _) (sq2 _ _ _ _)) as (O1 & E1 & SO & VO). rewrite EO in E1. injection E1 as <-.
    destruct (single_ok (f_sys f) j k' n_op Boson (f_two f) ltac:(discriminate) Hj Hk' (sq2 _ _ _ _)) as (O2 & E2 & SO' & VO'). rewrite EO' in E2. injection E2 as <-.
    set (Y := Nn (K:=CR) nl (q j k')) in *. change (seqv (N:=N) (ent O') Y) in VO'. change (seqv (N:=N) (ent O) (smul (n k) Y)) in VO.
    assert (HY : forall s, s < 2 -> seqv (N:=N) (ssub (smul Y (Cd nl (q i s))) (smul (Cd nl (q i s)) Y)) s0 /\ seqv (N:=N) (ssub (smul Y (n s)) (smul (n s) Y)) s0).
    { intros s Hs. assert (Hq : q i s < nl) by (apply q_lt; lia). assert (D1 : seqv (N:=N) (smul Y (Cd nl (q i s))) (smul (Cd nl (q i s)) Y)).
      { unfold Y. rewrite (Nn_Cd f (q j k') (q i s)) by (assumption || (apply q_lt; assumption)). intros a b _ _. unfold sadd, sscale. rewrite q_eqb by assumption. rewrite (proj2 (Nat.eqb_neq j i)) by exact Ne. cbn [kb]. change k0 with c0. ring. }
      assert (D2 : seqv (N:=N) (smul Y (Ca nl (q i s))) (smul (Ca nl (q i s)) Y)).
      { unfold Y. rewrite (Nn_Ca f (q j k') (q i s)) by (assumption || (apply q_lt; assumption)). intros a b _ _. unfold ssub, sscale. rewrite q_eqb by assumption. rewrite (proj2 (Nat.eqb_neq j i)) by exact Ne. cbn [kb]. change k0 with c0. ring. }
      split.
      - rewrite D1. intros a b _ _. unfold ssub, s0. change k0 with c0. ring.
      - rewrite <- (Cd_Ca nl (q i s) Hq). rewrite <- smul_assoc, D1, smul_assoc, D2, <- smul_assoc. intros a b _ _. unfold ssub, s0. change k0 with c0. ring. }
    destruct SO' as (S1 & S2). pose proof V_val as VR.
    assert (NE : E <> []). { apply (FreeWick.basis_not_empty V E H basis). rewrite VR. apply Nat.neq_0_lt_0, Nat.pow_nonzero. discriminate. }
    rewrite thermal_finite in ER; [|repeat split; [congruence | congruence | apply basis | exact NE] | exact T0]. injection ER as <-.
    destruct SO as (S3 & S4). rewrite thermal_finite; [|repeat split; [congruence | congruence | apply basis | exact NE] | exact T0].
    rewrite <- (boltzmann_omega N V E T VR O S3 S4), <- (boltzmann_omega N V E T VR O' S1 S2), (omega_ext N V E T _ _ VO), (omega_ext N V E T _ _ VO'), (B_val Y HY k Hk). f_equal.
    pose proof (Zp_pos E T NE). cbn. field. lra.
  Qed.
End Atom.
