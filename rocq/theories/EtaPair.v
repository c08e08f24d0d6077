(** Pairs of particles on lattices with two classes of sites: proofs. *)
From Coq Require Import List Arith Lia Reals Lra Bool QArith Qabs Setoid Morphisms Ring Ncring Ncring_tac.
From Verif Require Import Scalars Res Matrix Sums SqMat CarAlgebra ModelBase ModelFermions SpecFock SpecHubbard OpsProofs
  FockProofs FermiOps SwapProofs HamProofs HamSym
  ModelGeometry ModelPhase ModelSymmetry SymBase ModelThermal SpecThermal ThermalBase ThermalFacts ThermalBasis SymAverage FreeKms FreeFermi FreeThermal SpecFermiGas SpecHalf HalfModes HalfHam SpinRotate SpecEta.
From Verif Require FreeWick.
Import ListNotations.
Section AnyRing.
  Context {T : Type} `{Rr : Ring T}.
  Lemma comm_pair_a (x p r : T) : x * (p * r) - p * r * x == (x * p + p * x) * r - p * (x * r + r * x).
  Proof. non_commutative_ring. Qed.
  Lemma comm_pair_d (x p r : T) : x * p + p * x == 0 -> x * r + r * x == 0 -> x * (p * r) - p * r * x == 0.
  Proof. intros A B. transitivity ((x * p + p * x) * r - p * (x * r + r * x)); [non_commutative_ring|]. rewrite A, B. non_commutative_ring. Qed.
  Lemma kill_r (d a e : T) : d * d == 0 -> (e * d) * (d * a) == 0.
  Proof. intros A. transitivity (e * (d * d) * a); [non_commutative_ring|]. rewrite A. non_commutative_ring. Qed.
  Lemma flip (x y : T) : x * y + y * x == 0 -> x * y == - (y * x).
  Proof. intros A. transitivity (x * y + y * x - y * x); [non_commutative_ring|]. rewrite A. non_commutative_ring. Qed.
End AnyRing.
Local Open Scope nat_scope.
Arguments Nat.pow : simpl never.

Section Eta.
  Variable f : fermions CR.
  Notation ns := (fg_nsites (f_geom f)).
  Notation m := (f_nspecies f).
  Notation nl := (nlog (f_sys f)).
  Notation N := (2 ^ nlog (f_sys f)).
  Notation q i k := (lsite (f_sys f) i k).
  Variables (side : nat -> bool) (e : R).
  Hypothesis sym : pair_symmetric f side e.
  Notation sg i := (real (sign side i)).

  Definition put (i : nat) : sq CR N := smul (Cd nl (q i 0)) (Cd nl (q i 1)).
  Definition take (i : nat) : sq CR N := smul (Ca nl (q i 1)) (Ca nl (q i 0)).
  Definition ETA : sq CR N := fun a b => ksum ns (fun i => sg i *c put i a b).

  Lemma two : 2 <= m. Proof using sym. apply sym. Qed.
  Lemma q0 i : i < ns -> q i 0 < nl. Proof using sym. intros Hi. apply q_lt; [exact Hi|]. pose proof two. lia. Qed.
  Lemma q1 i : i < ns -> q i 1 < nl. Proof using sym. intros Hi. apply q_lt; [exact Hi|]. pose proof two. lia. Qed.

  Lemma ad_ETA X a b : ad ETA X a b = ksum ns (fun i => sg i *c ad (put i) X a b).
  Proof using.
    clear sym. unfold ad, ETA. rewrite smul_ksum_l, smul_ksum_r.
    assert (Sb : forall x y : CR, ksub x y = kadd x (kopp y)) by (intros; ring).
    rewrite Sb, <- ksum_opp, <- ksum_add. apply ksum_ext. intros i Hi. rewrite smul_scale_r', smul_scale_l'. ring.
  Qed.
  Lemma Cd_anti p x : p < nl -> x < nl -> seqv (N:=N) (sadd (smul (Cd nl p) (Cd nl x)) (smul (Cd nl x) (Cd nl p))) (s0 (K:=CR)).
  Proof using.
    clear sym. intros Hp Hx. destruct (Nat.eq_dec p x) as [->|Ne]; [|apply Cd_Cd_ne; assumption]. rewrite (Cd_sq nl x Hx). intros i j _ _. unfold sadd, s0. change k0 with c0. ring.
  Qed.
  Lemma ad_Cd i k : i < ns -> k < m -> seqv (ad ETA (Cd nl (q i k))) s0.
  Proof using sym.
    intros Hi Hk a b Ha Hb. rewrite ad_ETA. apply ksum_zero. intros j Hj.
    pose proof (comm_pair_d (Rr:=sq_ring (K:=CR) (N:=N)) (Cd nl (q i k)) (Cd nl (q j 0)) (Cd nl (q j 1)) (Cd_anti _ _ (q_lt f i k Hi Hk) (q0 j Hj)) (Cd_anti _ _ (q_lt f i k Hi Hk) (q1 j Hj)) a b Ha Hb) as Z.
    change (ad (put j) (Cd nl (q i k)) a b = c0) in Z. rewrite Z. ring.
  Qed.
  Lemma ad_Ca i k : i < ns -> k < m ->
    seqv (ad ETA (Ca nl (q i k))) (sscale (sg i) (ssub (sscale (kb (k =? 0)) (Cd nl (q i 1))) (sscale (kb (k =? 1)) (Cd nl (q i 0))))).
  Proof using sym.
    intros Hi Hk a b Ha Hb. rewrite ad_ETA.
    rewrite (ksum_ext ns _ (fun j => kb (j =? i) *c (sg j *c (kb (k =? 0) *c Cd nl (q j 1) a b -c kb (k =? 1) *c Cd nl (q j 0) a b)))).
    - rewrite (ksum_pick ns i (fun j => sg j *c (kb (k =? 0) *c Cd nl (q j 1) a b -c kb (k =? 1) *c Cd nl (q j 0) a b))) by exact Hi. reflexivity.
    - intros j Hj.
      pose proof (comm_pair_a (Rr:=sq_ring (K:=CR) (N:=N)) (Ca nl (q i k)) (Cd nl (q j 0)) (Cd nl (q j 1))) as X.
      change (seqv (N:=N) (ad (put j) (Ca nl (q i k))) (ssub (smul (sadd (smul (Ca nl (q i k)) (Cd nl (q j 0))) (smul (Cd nl (q j 0)) (Ca nl (q i k)))) (Cd nl (q j 1)))
        (smul (Cd nl (q j 0)) (sadd (smul (Ca nl (q i k)) (Cd nl (q j 1))) (smul (Cd nl (q j 1)) (Ca nl (q i k))))))) in X.
      rewrite !(car_mixed nl) in X by (apply q0 || apply q1 || apply q_lt; assumption).
      rewrite sscale_mul_l, sscale_mul_r, smul_1_l, smul_1_r in X. rewrite (X a b Ha Hb). unfold ssub, sscale. rewrite !q_eqb by assumption.
      rewrite (Nat.eqb_sym i j). ring.
  Qed.
  Lemma ad_pair i j k l : i < ns -> j < ns -> k < m -> l < m ->
    seqv (ad ETA (smul (Cd nl (q i k)) (Ca nl (q j l))))
      (sscale (sg j) (ssub (sscale (kb (l =? 0)) (smul (Cd nl (q i k)) (Cd nl (q j 1)))) (sscale (kb (l =? 1)) (smul (Cd nl (q i k)) (Cd nl (q j 0)))))).
  Proof using sym.
    intros Hi Hj Hk Hl. rewrite (ad_mul f), ad_Cd, ad_Ca by assumption. rewrite sscale_mul_r.
    intros a b Ha Hb. unfold sadd, ssub, sscale. cbv beta. rewrite smul_sub_r', !smul_scale_r'.
    assert (Z : smul (N:=N) s0 (Ca nl (q j l)) a b = c0) by (unfold smul, s0; apply ksum_zero; intros; change k0 with c0; ring).
    rewrite Z. ring.
  Qed.
  Lemma swap_put i j : i < ns -> j < ns -> seqv (N:=N) (smul (Cd nl (q i 1)) (Cd nl (q j 0))) (sopp (smul (Cd nl (q j 0)) (Cd nl (q i 1)))).
  Proof using sym.
    intros Hi Hj. apply (flip (Rr:=sq_ring (K:=CR) (N:=N))). apply Cd_anti; [apply q1 | apply q0]; assumption.
  Qed.
  Lemma ad_Nn i k : i < ns -> k < m -> seqv (ad ETA (Nn nl (q i k))) (sscale (sg i *c kb (k <? 2)) (put i)).
  Proof using sym.
    intros Hi Hk. assert (Hq : q i k < nl) by (apply q_lt; assumption).
    transitivity (ad ETA (smul (Cd nl (q i k)) (Ca nl (q i k)))); [apply ad_ext; symmetry; apply Cd_Ca; exact Hq|].
    rewrite ad_pair by assumption. intros a b Ha Hb. unfold ssub, sscale, put.
    destruct k as [|[|k]]; cbn [Nat.eqb Nat.ltb Nat.leb kb]; [ring | | ring].
    rewrite (swap_put i i Hi Hi a b Ha Hb). unfold sopp. ring.
  Qed.
  Lemma ad_double i : i < ns -> seqv (ad ETA (smul (Nn nl (q i 0)) (Nn nl (q i 1)))) (sscale (sg i) (put i)).
  Proof using sym.
    intros Hi. pose proof two as M2. rewrite (ad_mul f), !ad_Nn by (assumption || lia). cbn [Nat.ltb Nat.leb kb].
    rewrite (scale_eq nl (sg i *c c1) (sg i)) by ring. rewrite sscale_mul_r, sscale_mul_l.
    assert (L : seqv (smul (put i) (Nn nl (q i 1))) s0).
    { rewrite <- (Cd_Ca nl (q i 1)) by (apply q1; exact Hi).
      apply (kill_r (Rr:=sq_ring (K:=CR) (N:=N)) (Cd nl (q i 1)) (Ca nl (q i 1)) (Cd nl (q i 0))). apply Cd_sq, q1, Hi. }
    assert (Rr : seqv (smul (Nn nl (q i 0)) (put i)) (put i)).
    { rewrite <- (Cd_Ca nl (q i 0)) by (apply q0; exact Hi).
      apply (absorb_r (Rr:=sq_ring (K:=CR) (N:=N)) (Cd nl (q i 0)) (Ca nl (q i 0)) (Cd nl (q i 1))); [apply Ca_Cd_same | apply Cd_sq]; apply q0; exact Hi. }
    rewrite L, Rr. intros a b _ _. unfold sadd, sscale, s0. change k0 with c0. ring.
  Qed.
  Lemma ad_hops i j k : i < ns -> j < ns -> k < m -> 2 <= k -> seqv (ad ETA (hop f (q i k) (q j k))) s0.
  Proof using sym.
    intros Hi Hj Hk K2 a b Ha Hb. unfold hop, sadd. rewrite ad_add, !ad_pair by assumption.
    rewrite (proj2 (Nat.eqb_neq k 1)), (proj2 (Nat.eqb_neq k 0)) by lia. unfold ssub, sscale, s0. cbn [kb]. change k0 with c0. ring.
  Qed.
  Lemma ad_hop01 i j : i < ns -> j < ns -> side i <> side j -> seqv (sadd (ad ETA (hop f (q i 0) (q j 0))) (ad ETA (hop f (q i 1) (q j 1)))) s0.
  Proof using sym.
    intros Hi Hj Ne a b Ha Hb. pose proof two as M2. unfold hop, sadd. rewrite !ad_add, !ad_pair by (assumption || lia).
    unfold ssub, sscale, s0. cbn [kb Nat.eqb]. rewrite (swap_put i j Hi Hj a b Ha Hb), (swap_put j i Hj Hi a b Ha Hb). unfold sopp.
    replace (sg j) with (kopp (sg i)); [change k0 with c0; ring|]. unfold sign. destruct (side i), (side j); try congruence; apply injective_projections; cbn; ring.
  Qed.
  Lemma CR_dec (x : CR) : {x = c0} + {x <> c0}.
  Proof using. clear. destruct x as (a, b). destruct (Req_EM_T a 0) as [->|A]; [|right; intros X; apply A; exact (f_equal fst X)].
    destruct (Req_EM_T b 0) as [->|B]; [left; reflexivity | right; intros X; apply B; exact (f_equal snd X)]. Qed.

  Lemma ad_H : seqv (ad ETA (HS2 f (teff f))) (sscale (real e) ETA).
  Proof using sym.
    intros a b Ha Hb. destruct sym as (M2 & ST & SB & SV & SE). unfold HS2.
    rewrite ad_add, ad_sub, ad_add, ad_add. rewrite !ad_ksum.
    assert (T1 : ksum ns (fun i => ad ETA (fun a b => ksum i (fun j => ksum m (fun k => kopp (teff f i j k *c hop f (q i k) (q j k) a b)))) a b) = c0).
    { apply ksum_zero. intros i Hi. rewrite ad_ksum. apply ksum_zero. intros j Hj. rewrite ad_ksum.
      rewrite ksum_first_two; [|exact M2|].
      - rewrite !ad_opp, !ad_scale. unfold teff. rewrite <- (ST i j) by lia.
        destruct (CR_dec (f_ts f i j 0)) as [Z|Z]; [rewrite Z; ring|].
        pose proof (ad_hop01 i j Hi ltac:(lia) (SB i j ltac:(lia) Z) a b Ha Hb) as Y. unfold sadd, s0 in Y.
        set (x := ad ETA (hop f (q i 0) (q j 0)) a b) in *. set (y := ad ETA (hop f (q i 1) (q j 1)) a b) in *.
        match goal with |- context [?w *c x] => transitivity (kopp w *c (x +c y)); [ring|] end. rewrite Y. change k0 with c0. ring.
      - intros k Hk. rewrite ad_opp, ad_scale, ad_hops by lia. unfold s0. change k0 with c0. ring. }
    assert (T2 : ksum ns (fun i => ad ETA (fun a b => f_us f i *c smul (Nn nl (q i 0)) (Nn nl (q i 1)) a b) a b) = ksum ns (fun i => f_us f i *c (sg i *c put i a b))).
    { apply ksum_ext. intros i Hi. rewrite ad_scale, ad_double by assumption. reflexivity. }
    assert (T3 : ksum ns (fun i => ad ETA (fun a b => ksum (S i) (fun j => ksum m (fun k => f_same f i j k *c smul (Nn nl (q i k)) (Nn nl (q j k)) a b))) a b) = c0).
    { apply ksum_zero. intros i Hi. rewrite ad_ksum. apply ksum_zero. intros j Hj. rewrite ad_ksum.
      rewrite ksum_first_two; [|exact M2|].
      - rewrite !ad_scale. destruct (SV i j ltac:(lia)) as [-> ->]. change k0 with c0. ring.
      - intros k Hk. rewrite ad_scale.
        assert (Z : seqv (ad ETA (smul (Nn nl (q i k)) (Nn nl (q j k)))) s0).
        { rewrite (ad_mul f), !ad_Nn by lia. rewrite (proj2 (Nat.ltb_ge k 2)) by lia. cbn [kb]. change k0 with c0.
          rewrite sscale_mul_l, sscale_mul_r. intros x y _ _. unfold sadd, sscale, s0. change k0 with c0. ring. }
        rewrite Z by assumption. unfold s0. change k0 with c0. ring. }
    assert (T4 : forall g : nat -> nat -> CR, ksum ns (fun i => ad ETA (fun a b => ksum m (fun k => g i k *c Nn nl (q i k) a b)) a b) = ksum ns (fun i => (g i 0 +c g i 1) *c (sg i *c put i a b))).
    { intros g. apply ksum_ext. intros i Hi. rewrite ad_ksum. rewrite ksum_first_two; [|exact M2|].
      - rewrite !ad_scale, !ad_Nn by (assumption || lia). unfold sscale. cbn [Nat.ltb Nat.leb kb]. ring.
      - intros k Hk. rewrite ad_scale, ad_Nn by (assumption || lia). rewrite (proj2 (Nat.ltb_ge k 2)) by lia. unfold sscale. cbn [kb]. change k0 with c0. ring. }
    rewrite T1, T2, T3, (T4 (fun _ k => f_mus f k)), (T4 (fun i k => f_pot f i k)). unfold sscale, ETA. rewrite <- ksum_mul_l.
    assert (Sb : forall x y : CR, ksub x y = kadd x (kopp y)) by (intros; ring).
    rewrite Sb, <- ksum_opp.
    transitivity (ksum ns (fun i => f_us f i *c (sg i *c put i a b)) +c ksum ns (fun i => kopp ((f_mus f 0 +c f_mus f 1) *c (sg i *c put i a b))) +c ksum ns (fun i => (f_pot f i 0 +c f_pot f i 1) *c (sg i *c put i a b))); [ring|].
    rewrite <- !ksum_add. apply ksum_ext. intros i Hi. change (real e) with (re e). rewrite <- (SE i Hi). ring.
  Qed.

  Variables (H V : mat CR) (E : list R).
  Hypothesis ham : createH f None = Ok H.
  Lemma H_eta : nrow H = N /\ ncol H = N /\ seqv (N:=N) (ent H) (HS2 f (teff f)).
  Proof using sym ham. apply (H_is f (or_introl two) H ham). Qed.
  Lemma ad_ham : seqv (N:=N) (ssub (smul (ent H) ETA) (smul ETA (ent H))) (sscale (real e) ETA).
  Proof using sym ham.
    destruct H_eta as (_ & _ & HH). change (seqv (ad ETA (ent H)) (sscale (real e) ETA)). rewrite (ad_ext ETA (ent H) _ HH). exact ad_H.
  Qed.
  Lemma put_ok i A : i < ns -> two_site_op (f_sys f) i 0 i 1 cdag_op cdag_op Fermion = Ok A -> square N A /\ seqv (N:=N) (ent A) (put i).
  Proof using sym.
    intros Hi EA. pose proof two as M2.
    destruct (two_ok (f_sys f) i 0 i 1 cdag_op cdag_op Fermion (f_two f) ltac:(discriminate) Hi ltac:(change (0 < m); lia) Hi ltac:(change (1 < m); lia) (sq2 _ _ _ _) (sq2 _ _ _ _)) as (A' & EA' & SA & VA).
    rewrite EA in EA'. injection EA' as <-. split; assumption.
  Qed.
  Lemma take_ok i A : i < ns -> two_site_op (f_sys f) i 1 i 0 c_op c_op Fermion = Ok A -> square N A /\ seqv (N:=N) (ent A) (take i).
  Proof using sym.
    intros Hi EA. pose proof two as M2.
    destruct (two_ok (f_sys f) i 1 i 0 c_op c_op Fermion (f_two f) ltac:(discriminate) Hi ltac:(change (1 < m); lia) Hi ltac:(change (0 < m); lia) (sq2 _ _ _ _) (sq2 _ _ _ _)) as (A' & EA' & SA & VA).
    rewrite EA in EA'. injection EA' as <-. split; assumption.
  Qed.

  (** Adding a pair to an energy state gives an energy state or nothing. *)
  Theorem pair_states (A : nat -> mat CR) : (forall i, i < ns -> two_site_op (f_sys f) i 0 i 1 cdag_op cdag_op Fermion = Ok (A i)) ->
    forall (w : nat -> CR) x, (forall a, a < N -> ksum N (fun b => ent H a b *c w b) = re x *c w a) ->
    let z := fun a => ksum ns (fun i => re (sign side i) *c ksum N (fun b => ent (A i) a b *c w b)) in
    forall a, a < N -> ksum N (fun b => ent H a b *c z b) = re (x + e) *c z a.
  Proof using sym ham.
    intros EA w x HW z a Ha.
    assert (ZE : forall c, c < N -> z c = ksum N (fun b => ETA c b *c w b)).
    { intros c Hc. unfold z, ETA. rewrite (ksum_ext N _ (fun b => ksum ns (fun i => sg i *c (put i c b *c w b)))).
      2:{ intros b Hb. rewrite <- ksum_mul_r. apply ksum_ext. intros i Hi. ring. }
      rewrite ksum_swap. apply ksum_ext. intros i Hi. rewrite <- ksum_mul_l. apply ksum_ext. intros b Hb.
      rewrite (proj2 (put_ok i (A i) Hi (EA i Hi)) c b Hc Hb). reflexivity. }
    rewrite (ksum_ext N _ (fun b => ent H a b *c ksum N (fun c => ETA b c *c w c))) by (intros b Hb; rewrite ZE by exact Hb; reflexivity).
    assert (L : ksum N (fun b => ent H a b *c ksum N (fun c => ETA b c *c w c)) = ksum N (fun c => smul (N:=N) (ent H) ETA a c *c w c)).
    { rewrite (ksum_ext N _ (fun b => ksum N (fun c => ent H a b *c (ETA b c *c w c)))) by (intros b Hb; rewrite <- ksum_mul_l; reflexivity).
      rewrite ksum_swap. apply ksum_ext. intros c Hc. unfold smul. rewrite <- ksum_mul_r. apply ksum_ext. intros b Hb. ring. }
    rewrite L.
    assert (M : ksum N (fun c => smul (N:=N) ETA (ent H) a c *c w c) = re x *c z a).
    { rewrite ZE by exact Ha. rewrite <- ksum_mul_l.
      rewrite (ksum_ext N _ (fun c => ksum N (fun b => ETA a b *c (ent H b c *c w c)))).
      2:{ intros c Hc. unfold smul. rewrite <- ksum_mul_r. apply ksum_ext. intros b Hb. ring. }
      rewrite ksum_swap. apply ksum_ext. intros b Hb. rewrite ksum_mul_l, HW by exact Hb. ring. }
    rewrite (ksum_ext N _ (fun c => smul (N:=N) ETA (ent H) a c *c w c +c re e *c (ETA a c *c w c))).
    - rewrite ksum_add, M, ksum_mul_l, <- ZE by exact Ha. replace (re (x + e)) with (re x +c re e) by (apply injective_projections; cbn; ring). ring.
    - intros c Hc. pose proof (ad_ham a c Ha Hc) as Y. unfold ssub, sscale in Y. change (real e) with (re e) in Y.
      transitivity (smul (N:=N) ETA (ent H) a c *c w c +c (smul (N:=N) (ent H) ETA a c -c smul (N:=N) ETA (ent H) a c) *c w c); [ring|]. rewrite Y. ring.
  Qed.

  Hypothesis basis : eigenbasis H V E.
  Notation nn i := (ssub s1 (sadd (Nn nl (q i 0)) (Nn nl (q i 1)))).
  Lemma ad_take j : j < ns -> seqv (ad ETA (take j)) (sscale (sg j) (nn j)).
  Proof using sym.
    intros Hj a b Ha Hb. pose proof two as M2. unfold take.
    rewrite (ad_mul f ETA _ _ a b Ha Hb).
    assert (Z : seqv (N:=N) (sadd (smul (ad ETA (Ca nl (q j 1))) (Ca nl (q j 0))) (smul (Ca nl (q j 1)) (ad ETA (Ca nl (q j 0)))))
      (sscale (sg j) (ssub (smul (Ca nl (q j 1)) (Cd nl (q j 1))) (smul (Cd nl (q j 0)) (Ca nl (q j 0)))))).
    { rewrite !ad_Ca by (assumption || lia). cbn [Nat.eqb kb]. rewrite sscale_mul_l, sscale_mul_r. intros c d Hc Hd. unfold sadd, ssub, sscale. cbv beta.
      rewrite smul_sub_r', smul_sub_l', !smul_scale_r', !smul_scale_l'. change k0 with c0. change k1 with c1. ring. }
    rewrite (Z a b Ha Hb). unfold sscale, ssub, sadd.
    rewrite (Cd_Ca nl (q j 0) (q0 j Hj) a b Ha Hb). pose proof (Ca_Cd_same (K:=CR) nl (q j 1) (q1 j Hj) a b Ha Hb) as Y. unfold sadd in Y. rewrite (Cd_Ca nl (q j 1) (q1 j Hj) a b Ha Hb) in Y.
    rewrite <- Y. ring.
  Qed.

  Section Finite.
    Variable T : R.
    Hypothesis T0 : T <> 0%R.
    Notation om := (omega N V E T).
    Lemma V_eta : nrow V = N. Proof using sym ham basis. destruct H_eta as (A & _). destruct basis as ((_ & B & _) & _). congruence. Qed.
    Lemma om_1 : om s1 = real (Zp E T). Proof using sym ham basis. apply (omega_one N H V E T V_eta basis). Qed.
    Lemma om_ETA X : om (smul ETA X) = ksum ns (fun i => sg i *c om (smul (put i) X)).
    Proof using.
      clear sym basis T0. assert (G : forall n, om (smul (fun a b => ksum n (fun i => sg i *c put i a b)) X) = ksum n (fun i => sg i *c om (smul (put i) X))).
      { induction n as [|n IH].
        - cbn [ksum]. transitivity (om (sscale c0 (s1 (K:=CR)))); [|rewrite omega_scale; change k0 with c0; ring]. apply omega_ext. intros a b _ _. unfold smul, sscale. cbn [ksum]. rewrite ksum_zero; [change k0 with c0; ring | intros; change k0 with c0; ring].
        - cbn [ksum]. rewrite <- IH, <- omega_scale, <- omega_add. apply omega_ext. intros a b _ _. unfold sadd, sscale. rewrite smul_add_l', smul_scale_l'. reflexivity. }
      apply G.
    Qed.
    Lemma om_rule j : j < ns -> sg j *c om (nn j) = real (exp (e / T) - 1) *c ksum ns (fun i => sg i *c om (smul (put i) (take j))).
    Proof using sym ham basis T0.
      intros Hj. rewrite <- om_ETA, <- omega_scale, <- (omega_ext N V E T _ _ (ad_take j Hj)).
      pose proof (FreeKms.exchange N H V E T V_eta basis T0 ETA (take j) e ad_ham) as Y.
      assert (L : om (ad ETA (take j)) = om (smul (take j) ETA) +c kopp c1 *c om (smul ETA (take j))).
      { rewrite <- omega_scale, <- omega_add. apply omega_ext. intros a b _ _. unfold ad, sadd, sscale. ring. }
      assert (Y' : real (exp (e / T)) *c om (smul ETA (take j)) = om (smul (take j) ETA)).
      { rewrite Y. set (z := om (smul (take j) ETA)). transitivity (real (exp (e / T) * exp (- e / T)) *c z).
        - replace (real (exp (e / T) * exp (- e / T))) with (real (exp (e / T)) *c real (exp (- e / T))) by (apply injective_projections; cbn; ring). ring.
        - rewrite <- exp_plus. replace (e / T + - e / T)%R with 0%R by (field; exact T0). rewrite exp_0. apply injective_projections; cbn; ring. }
      rewrite L, <- Y'. replace (real (exp (e / T) - 1)) with (real (exp (e / T)) +c kopp c1) by (apply injective_projections; cbn; ring). ring.
    Qed.
    Lemma om_iso i j : i < ns -> j < ns -> e = 0%R -> om (smul (nn i) (nn j)) = real (2 * sign side i * sign side j) *c om (smul (put i) (take j)).
    Proof using sym ham basis T0.
      intros Hi Hj e0.
      assert (Z : om (ad ETA (smul (nn i) (take j))) = c0).
      { pose proof (FreeKms.exchange N H V E T V_eta basis T0 ETA (smul (nn i) (take j)) e ad_ham) as Y. rewrite e0 in Y.
        replace (- 0 / T)%R with 0%R in Y by (field; exact T0). rewrite exp_0 in Y. change (real 1) with c1 in Y.
        assert (L : om (ad ETA (smul (nn i) (take j))) = om (smul (smul (nn i) (take j)) ETA) +c kopp c1 *c om (smul ETA (smul (nn i) (take j)))).
        { rewrite <- omega_scale, <- omega_add. apply omega_ext. intros a b _ _. unfold ad, sadd, sscale. ring. }
        rewrite L, Y. ring. }
      assert (A1 : seqv (ad ETA (nn i)) (sscale (kopp (real 2 *c sg i)) (put i))).
      { intros a b Ha Hb. pose proof two as M2. unfold ssub, sadd. rewrite ad_sub, ad_add, !ad_Nn by (assumption || lia). cbn [Nat.ltb Nat.leb kb]. unfold sscale.
        assert (O : ad ETA (s1 (K:=CR)) a b = c0). { unfold ad. rewrite (smul_1_l ETA a b Ha Hb), (smul_1_r ETA a b Ha Hb). ring. }
        rewrite O. change k1 with c1. replace (real 2) with (c1 +c c1) by (apply injective_projections; cbn; ring). ring. }
      assert (Y : seqv (ad ETA (smul (nn i) (take j))) (sadd (sscale (kopp (real 2 *c sg i)) (smul (put i) (take j))) (sscale (sg j) (smul (nn i) (nn j))))).
      { rewrite (ad_mul f), A1, (ad_take j Hj), sscale_mul_l, sscale_mul_r. reflexivity. }
      rewrite (omega_ext N V E T _ _ Y), omega_add, !omega_scale in Z.
      set (x := om (smul (nn i) (nn j))) in *. set (y := om (smul (put i) (take j))) in *.
      assert (SS : sg j *c sg j = c1) by (unfold sign; destruct (side j); apply injective_projections; cbn; ring).
      transitivity (sg j *c (kopp (real 2 *c sg i) *c y +c sg j *c x) +c real (2 * sign side i * sign side j) *c y).
      - replace (real (2 * sign side i * sign side j)) with (real 2 *c sg i *c sg j) by (apply injective_projections; cbn; ring).
        transitivity (sg j *c sg j *c x); [rewrite SS; ring | ring].
      - rewrite Z. ring.
    Qed.
    Lemma avg O : square N O -> exp_vals_thermal V O E T = Ok (fst (om (ent O)) / Zp E T)%R.
    Proof using sym ham basis T0.
      intros (S1 & S2). pose proof V_eta as VR.
      assert (NE : E <> []) by (apply (FreeWick.basis_not_empty V E H basis); rewrite VR; apply Nat.neq_0_lt_0, Nat.pow_nonzero; discriminate).
      rewrite thermal_finite; [|repeat split; [congruence | congruence | apply basis | exact NE] | exact T0]. f_equal. symmetry. apply (boltzmann_omega N V E T VR O S1 S2).
    Qed.
    Theorem pair_rule (A : nat -> mat CR) j B U D (P : nat -> R) x y :
      (forall i, i < ns -> two_site_op (f_sys f) i 0 i 1 cdag_op cdag_op Fermion = Ok (A i)) -> j < ns ->
      two_site_op (f_sys f) j 1 j 0 c_op c_op Fermion = Ok B -> single_site_op (f_sys f) j 0 n_op Boson = Ok U -> single_site_op (f_sys f) j 1 n_op Boson = Ok D ->
      (forall i, i < ns -> exp_vals_thermal V (mmul (A i) B) E T = Ok (P i)) -> exp_vals_thermal V U E T = Ok x -> exp_vals_thermal V D E T = Ok y ->
      (1 - x - y = (exp (e / T) - 1) * total (fun i => sign side i * sign side j * P i) (seq 0 ns))%R.
    Proof using sym ham basis T0.
      intros EA Hj EB EU ED EP EX EY. pose proof two as M2.
      destruct (take_ok j B Hj EB) as (SB & VB).
      destruct (single_ok (f_sys f) j 0 n_op Boson (f_two f) ltac:(discriminate) Hj ltac:(change (0 < m); lia) (sq2 _ _ _ _)) as (U' & EU' & SU & VU). rewrite EU in EU'. injection EU' as <-.
      destruct (single_ok (f_sys f) j 1 n_op Boson (f_two f) ltac:(discriminate) Hj ltac:(change (1 < m); lia) (sq2 _ _ _ _)) as (D' & ED' & SD & VD). rewrite ED in ED'. injection ED' as <-.
      change (seqv (N:=N) (ent U) (Nn nl (q j 0))) in VU. change (seqv (N:=N) (ent D) (Nn nl (q j 1))) in VD.
      rewrite avg in EX, EY by assumption. injection EX as EX. injection EY as EY. rewrite (omega_ext N V E T _ _ VU) in EX. rewrite (omega_ext N V E T _ _ VD) in EY.
      assert (PV : forall i, i < ns -> P i = (fst (om (smul (put i) (take j))) / Zp E T)%R).
      { intros i Hi. destruct (put_ok i (A i) Hi (EA i Hi)) as (SA & VA). specialize (EP i Hi). rewrite avg in EP by (apply square_mul; assumption). injection EP as EP. rewrite <- EP.
        assert (W : seqv (N:=N) (ent (mmul (A i) B)) (smul (put i) (take j))) by (rewrite (ent_mul N) by exact SA; rewrite VA, VB; reflexivity).
        refine (f_equal (fun z => (fst z / Zp E T)%R) (omega_ext N V E T _ _ W)). }
      pose proof (om_rule j Hj) as Y. set (z := Zp E T) in *.
      assert (NE : E <> []) by (apply (FreeWick.basis_not_empty V E H basis); rewrite V_eta; apply Nat.neq_0_lt_0, Nat.pow_nonzero; discriminate).
      assert (ZP : (0 < z)%R) by (apply Zp_pos; exact NE).
      assert (NV : om (nn j) = real z -c (om (Nn nl (q j 0)) +c om (Nn nl (q j 1)))).
      { unfold z. rewrite <- om_1. rewrite <- omega_add. transitivity (om s1 +c kopp c1 *c om (sadd (Nn nl (q j 0)) (Nn nl (q j 1)))); [|ring].
        rewrite <- omega_scale, <- omega_add. apply omega_ext. intros a b _ _. unfold ssub, sadd, sscale. ring. }
      rewrite NV in Y. apply (f_equal fst) in Y.
      assert (R1 : fst (sg j *c (real z -c (om (Nn nl (q j 0)) +c om (Nn nl (q j 1))))) = (sign side j * (z - z * x - z * y))%R).
      { rewrite <- EX, <- EY. cbn. field. lra. }
      assert (R2 : fst (real (exp (e / T) - 1) *c ksum ns (fun i => sg i *c om (smul (put i) (take j)))) = ((exp (e / T) - 1) * (z * total (fun i => sign side i * P i) (seq 0 ns)))%R).
      { transitivity ((exp (e / T) - 1) * fst (ksum ns (fun i => sg i *c om (smul (put i) (take j)))))%R; [cbn; ring|]. f_equal. rewrite fst_ksum, rsum_total, <- total_scale. apply total_ext. intros i Hi. apply in_seq in Hi.
        rewrite (PV i) by lia. cbn. field. lra. }
      rewrite R1, R2 in Y.
      assert (S2 : (sign side j * sign side j = 1)%R) by (unfold sign; destruct (side j); ring).
      assert (TT : total (fun i => sign side i * sign side j * P i)%R (seq 0 ns) = (sign side j * total (fun i => sign side i * P i) (seq 0 ns))%R).
      { rewrite <- total_scale. apply total_ext. intros i _. ring. }
      rewrite TT. set (w := total (fun i => sign side i * P i)%R (seq 0 ns)) in *. set (c := (exp (e / T) - 1)%R) in *.
      apply (Rmult_eq_reg_l z); [|lra]. transitivity (sign side j * (sign side j * (z - z * x - z * y)))%R; [|rewrite Y; ring].
      transitivity ((sign side j * sign side j) * (z - z * x - z * y))%R; [rewrite S2|]; ring.
    Qed.
  End Finite.

  Variable T : R.
  Hypothesis HT : T <> 0%R \/ (sorted_list E /\ apart gap13 E).
  (** Without a cost of pairs their correlations are those of the densities. *)
  Theorem pair_isotropic i j A B U1 D1 U2 D2 I : e = 0%R -> i < ns -> j < ns ->
    two_site_op (f_sys f) i 0 i 1 cdag_op cdag_op Fermion = Ok A -> two_site_op (f_sys f) j 1 j 0 c_op c_op Fermion = Ok B ->
    single_site_op (f_sys f) i 0 n_op Boson = Ok U1 -> single_site_op (f_sys f) i 1 n_op Boson = Ok D1 ->
    single_site_op (f_sys f) j 0 n_op Boson = Ok U2 -> single_site_op (f_sys f) j 1 n_op Boson = Ok D2 -> I = meye N ->
    forall x, exp_vals_thermal V (mmul A B) E T = Ok x ->
      exp_vals_thermal V (mmul (msub I (madd U1 D1)) (msub I (madd U2 D2))) E T = Ok (2 * sign side i * sign side j * x)%R.
  Proof using sym ham basis HT.
    intros e0 Hi Hj EA EB E1 E2 E3 E4 EI. pose proof two as M2.
    destruct (put_ok i A Hi EA) as (SA & VA). destruct (take_ok j B Hj EB) as (SB & VB).
    destruct (single_ok (f_sys f) i 0 n_op Boson (f_two f) ltac:(discriminate) Hi ltac:(change (0 < m); lia) (sq2 _ _ _ _)) as (U1' & E1' & SU1 & VU1).
    destruct (single_ok (f_sys f) i 1 n_op Boson (f_two f) ltac:(discriminate) Hi ltac:(change (1 < m); lia) (sq2 _ _ _ _)) as (D1' & E2' & SD1 & VD1).
    destruct (single_ok (f_sys f) j 0 n_op Boson (f_two f) ltac:(discriminate) Hj ltac:(change (0 < m); lia) (sq2 _ _ _ _)) as (U2' & E3' & SU2 & VU2).
    destruct (single_ok (f_sys f) j 1 n_op Boson (f_two f) ltac:(discriminate) Hj ltac:(change (1 < m); lia) (sq2 _ _ _ _)) as (D2' & E4' & SD2 & VD2).
    rewrite E1 in E1'. injection E1' as <-.
    rewrite E2 in E2'. injection E2' as <-. rewrite E3 in E3'. injection E3' as <-. rewrite E4 in E4'. injection E4' as <-.
    change (seqv (N:=N) (ent U1) (Nn nl (q i 0))) in VU1. change (seqv (N:=N) (ent D1) (Nn nl (q i 1))) in VD1.
    change (seqv (N:=N) (ent U2) (Nn nl (q j 0))) in VU2. change (seqv (N:=N) (ent D2) (Nn nl (q j 1))) in VD2.
    set (P := mmul A B). set (Q := mmul (msub I (madd U1 D1)) (msub I (madd U2 D2))).
    assert (SI : square N I) by (subst I; split; reflexivity).
    assert (SAD : forall X Y, square N X -> square N Y -> square N (msub I (madd X Y))) by (intros X Y (X1 & X2) _; destruct SI as (I1 & I2); split; assumption).
    assert (SP' : square N P) by (apply square_mul; assumption). assert (SQ : square N Q) by (apply square_mul; apply SAD; assumption).
    set (r := (2 * sign side i * sign side j)%R).
    pose (P2 := Mat N N (fun x y => real 0 *c kb (x =? y) +c real r *c ent P x y)). assert (SP2 : square N P2) by (split; reflexivity).
    assert (VP : seqv (N:=N) (ent P) (smul (put i) (take j))) by (unfold P; rewrite (ent_mul N) by exact SA; rewrite VA, VB; reflexivity).
    assert (VI : forall X Y k, seqv (N:=N) (ent X) (Nn nl (q k 0)) -> seqv (N:=N) (ent Y) (Nn nl (q k 1)) -> seqv (N:=N) (ent (msub I (madd X Y))) (nn k)).
    { intros X Y k VX VY a b Ha Hb. subst I. cbn [msub madd meye ent]. unfold ssub, sadd. rewrite VX, VY by assumption. reflexivity. }
    assert (VQ : seqv (N:=N) (ent Q) (smul (nn i) (nn j))).
    { unfold Q. rewrite (ent_mul N) by (apply SAD; assumption). rewrite (VI U1 D1 i VU1 VD1), (VI U2 D2 j VU2 VD2). reflexivity. }
    pose proof V_eta as VR.
    assert (NE : E <> []) by (apply (FreeWick.basis_not_empty V E H basis); rewrite VR; apply Nat.neq_0_lt_0, Nat.pow_nonzero; discriminate).
    assert (FIN : forall T', T' <> 0%R -> exp_vals_thermal V Q E T' = exp_vals_thermal V P2 E T').
    { intros T' T0'. rewrite !(avg T' T0') by assumption. do 3 f_equal. rewrite (omega_ext N V E T' _ _ VQ), (om_iso T' T0' i j Hi Hj e0), <- (omega_ext N V E T' _ _ VP), <- omega_scale.
      apply omega_ext. intros a b Ha Hb. unfold sscale. cbn [P2 ent]. change (real 0) with c0. fold r. ring. }
    assert (EQ : exp_vals_thermal V Q E T = exp_vals_thermal V P2 E T).
    { destruct (Req_EM_T T 0) as [Z|Z]; [|apply FIN; exact Z]. destruct HT as [HT'|(A1 & A2)]; [congruence|]. rewrite Z. destruct SQ as (S1 & S2).
      apply at_zero; try assumption; repeat split; try congruence; try apply basis; cbn [P2 nrow ncol]; congruence. }
    intros x Ex. rewrite EQ.
    rewrite (average_linear H V E T P P2 0 r basis) with (x := x); [f_equal; ring | | | | exact HT | | exact Ex].
    - rewrite VR. apply Nat.neq_0_lt_0, Nat.pow_nonzero. discriminate.
    - rewrite VR. exact SP'.
    - rewrite VR. exact SP2.
    - intros a b _ _. reflexivity.
  Qed.
End Eta.
