(** Rotations of the spin formed by two species: proofs. *)
From Coq Require Import List Arith Lia Reals Lra Bool QArith Qabs Setoid Morphisms Ring Ncring Ncring_tac.
From Verif Require Import Scalars Res Matrix Sums SqMat CarAlgebra ModelBase ModelFermions SpecFock SpecHubbard OpsProofs
  FockProofs FermiOps SwapProofs HamProofs HamSym
  ModelGeometry ModelPhase ModelSymmetry SymBase ModelThermal SpecThermal ThermalBase ThermalFacts ThermalBasis SymAverage FreeKms FreeFermi FreeThermal SpecFermiGas SpecHalf HalfModes HalfHam.
Import ListNotations.
Section AnyRing.
  Context {T : Type} `{Rr : Ring T}.
  Lemma leibniz (x y s : T) : x * y * s - s * (x * y) == (x * s - s * x) * y + x * (y * s - s * y).
  Proof. non_commutative_ring. Qed.
  Lemma comm_annih (p r x : T) : p * r * x - x * (p * r) == p * (r * x + x * r) - (p * x + x * p) * r.
  Proof. non_commutative_ring. Qed.
  Lemma absorb_l (d a e : T) : a * d + d * a == 1 -> a * a == 0 -> (e * a) * (d * a) == e * a.
  Proof. intros A B. transitivity (e * (a * d + d * a) * a - e * d * (a * a)); [non_commutative_ring|]. rewrite A, B. non_commutative_ring. Qed.
  Lemma absorb_r (d a e : T) : a * d + d * a == 1 -> d * d == 0 -> (d * a) * (d * e) == d * e.
  Proof. intros A B. transitivity (d * (a * d + d * a) * e - d * d * (a * e)); [non_commutative_ring|]. rewrite A, B. non_commutative_ring. Qed.
End AnyRing.
Local Open Scope nat_scope.
Arguments Nat.pow : simpl never.

Lemma ksum_first_two m (G : nat -> CR) : 2 <= m -> (forall k, 2 <= k < m -> G k = c0) -> ksum m G = G 0 +c G 1.
Proof.
  intros Hm Z. rewrite <- (ksum_two m G Hm). apply ksum_ext. intros k Hk. destruct (Nat.ltb_spec k 2); [reflexivity|]. apply Z. lia.
Qed.

(** An equality of averages at all positive temperatures holds at zero. *)
Lemma at_zero V O O' E : fits V O E -> fits V O' E -> sorted_list E -> apart gap13 E ->
  (forall T, T <> 0%R -> exp_vals_thermal V O E T = exp_vals_thermal V O' E T) -> exp_vals_thermal V O E 0 = exp_vals_thermal V O' E 0.
Proof.
  intros F F' S A Q. destruct (thermal_limit V O E F S A) as (r & -> & L). destruct (thermal_limit V O' E F' S A) as (r' & -> & L'). f_equal.
  destruct (Req_EM_T r r') as [Z|Z]; [exact Z|]. exfalso. set (e := (Rabs (r - r') / 2)%R).
  assert (Pe : (0 < e)%R) by (unfold e; pose proof (Rabs_pos_lt (r - r') ltac:(lra)); lra).
  destruct (L e Pe) as (d & Pd & D). destruct (L' e Pe) as (d' & Pd' & D').
  pose proof (Rmin_l d d'). pose proof (Rmin_r d d'). assert (Pm : (0 < Rmin d d')%R) by (apply Rmin_pos; assumption).
  set (t := (Rmin d d' / 2)%R). specialize (D t ltac:(unfold t; lra)). specialize (D' t ltac:(unfold t; lra)).
  rewrite Q in D by (unfold t; lra). destruct (exp_vals_thermal V O' E t) as [x|x]; cbn in D, D'; unfold e in *.
  - unfold Rabs in *. repeat destruct (Rcase_abs _); lra.
  - unfold Rabs in *. repeat destruct (Rcase_abs _); lra.
Qed.

Section Spin.
  Variable f : fermions CR.
  Notation ns := (fg_nsites (f_geom f)).
  Notation m := (f_nspecies f).
  Notation nl := (nlog (f_sys f)).
  Notation N := (2 ^ nlog (f_sys f)).
  Notation q i k := (lsite (f_sys f) i k).
  Hypothesis sym : spin_symmetric f.

  Definition raise (i : nat) : sq CR N := smul (Cd nl (q i 0)) (Ca nl (q i 1)).
  Definition lower (i : nat) : sq CR N := smul (Cd nl (q i 1)) (Ca nl (q i 0)).
  Definition SP : sq CR N := fun a b => ksum ns (fun i => raise i a b).

  Lemma m_two : 2 <= m. Proof using sym. apply sym. Qed.
  Lemma q_0 i : i < ns -> q i 0 < nl. Proof using sym. intros Hi. apply q_lt; [exact Hi|]. pose proof m_two. lia. Qed.
  Lemma q_1 i : i < ns -> q i 1 < nl. Proof using sym. intros Hi. apply q_lt; [exact Hi|]. pose proof m_two. lia. Qed.

  Lemma ad_SP X a b : ad SP X a b = ksum ns (fun i => ad (raise i) X a b).
  Proof using.
    clear sym. unfold ad, SP. rewrite smul_ksum_l, smul_ksum_r.
    assert (Sb : forall x y : CR, ksub x y = kadd x (kopp y)) by (intros; ring).
    rewrite Sb, <- ksum_opp, <- ksum_add. apply ksum_ext. intros i Hi. symmetry. apply Sb.
  Qed.
  Lemma ad_mul (C X Y : sq CR N) : seqv (ad C (smul X Y)) (sadd (smul (ad C X) Y) (smul X (ad C Y))).
  Proof using.
    clear sym. exact (leibniz (Rr:=sq_ring (K:=CR) (N:=N)) X Y C).
  Qed.
  Lemma ad_Cd i k : i < ns -> k < m -> seqv (ad SP (Cd nl (q i k))) (sscale (kopp (kb (k =? 1))) (Cd nl (q i 0))).
  Proof using sym.
    intros Hi Hk a b Ha Hb. pose proof m_two as M2. rewrite ad_SP.
    rewrite (ksum_ext ns _ (fun j => kb (j =? i) *c (kopp (kb (k =? 1)) *c Cd nl (q j 0) a b))).
    - rewrite (ksum_pick ns i (fun j => kopp (kb (k =? 1)) *c Cd nl (q j 0) a b)) by exact Hi. reflexivity.
    - intros j Hj. unfold ad, raise.
      pose proof (pair_comm nl (q j 0) (q j 1) (q i k) (q_0 j Hj) (q_1 j Hj) (q_lt f i k Hi Hk) a b Ha Hb) as P. unfold ssub, sscale in P.
      rewrite q_eqb in P by assumption. rewrite (Nat.eqb_sym k 1).
      transitivity (kopp (smul (N:=N) (smul (Cd nl (q j 0)) (Ca nl (q j 1))) (Cd nl (q i k)) a b -c smul (N:=N) (Cd nl (q i k)) (smul (Cd nl (q j 0)) (Ca nl (q j 1))) a b)); [ring|].
      rewrite P. ring.
  Qed.
  Lemma pair_comm_a p r x : p < nl -> r < nl -> x < nl ->
    seqv (N:=N) (ssub (smul (smul (Cd nl p) (Ca nl r)) (Ca nl x)) (smul (Ca nl x) (smul (Cd nl p) (Ca nl r))))
      (sscale (kopp (kb (x =? p))) (Ca nl r)).
  Proof using.
    clear sym. intros Hp Hr Hx.
    pose proof (comm_annih (Rr:=sq_ring (K:=CR) (N:=N)) (Cd nl p) (Ca nl r) (Ca nl x)) as X.
    change (seqv (N:=N) (ssub (smul (smul (Cd nl p) (Ca nl r)) (Ca nl x)) (smul (Ca nl x) (smul (Cd nl p) (Ca nl r))))
      (ssub (smul (Cd nl p) (sadd (smul (Ca nl r) (Ca nl x)) (smul (Ca nl x) (Ca nl r)))) (smul (sadd (smul (Cd nl p) (Ca nl x)) (smul (Ca nl x) (Cd nl p))) (Ca nl r)))) in X.
    assert (AA : seqv (N:=N) (sadd (smul (Ca nl r) (Ca nl x)) (smul (Ca nl x) (Ca nl r))) (s0 (K:=CR))).
    { destruct (Nat.eq_dec r x) as [->|Ne]; [|apply Ca_Ca_ne; assumption]. rewrite (Ca_sq nl x Hx). intros i j _ _. unfold sadd, s0. ring. }
    assert (AD : seqv (N:=N) (sadd (smul (Cd nl p) (Ca nl x)) (smul (Ca nl x) (Cd nl p))) (sscale (kb (x =? p)) (s1 (K:=CR)))).
    { rewrite <- car_mixed by assumption. intros i j _ _. unfold sadd. ring. }
    rewrite X, AA, AD. intros i j Hi Hj. unfold ssub. 
    assert (Z : smul (N:=N) (Cd nl p) (s0 (K:=CR)) i j = c0) by (unfold smul, s0; apply ksum_zero; intros; ring).
    rewrite Z, (sscale_mul_l (kb (x =? p)) s1 (Ca nl r) i j Hi Hj). unfold sscale. rewrite (smul_1_l (Ca nl r) i j Hi Hj). ring.
  Qed.
  Lemma ad_Ca i k : i < ns -> k < m -> seqv (ad SP (Ca nl (q i k))) (sscale (kb (k =? 0)) (Ca nl (q i 1))).
  Proof using sym.
    intros Hi Hk a b Ha Hb. pose proof m_two as M2. rewrite ad_SP.
    rewrite (ksum_ext ns _ (fun j => kb (j =? i) *c (kb (k =? 0) *c Ca nl (q j 1) a b))).
    - rewrite (ksum_pick ns i (fun j => kb (k =? 0) *c Ca nl (q j 1) a b)) by exact Hi. reflexivity.
    - intros j Hj. unfold ad, raise.
      pose proof (pair_comm_a (q j 0) (q j 1) (q i k) (q_0 j Hj) (q_1 j Hj) (q_lt f i k Hi Hk) a b Ha Hb) as P. unfold ssub, sscale in P.
      rewrite q_eqb in P by assumption. rewrite (Nat.eqb_sym j i).
      transitivity (kopp (smul (N:=N) (smul (Cd nl (q j 0)) (Ca nl (q j 1))) (Ca nl (q i k)) a b -c smul (N:=N) (Ca nl (q i k)) (smul (Cd nl (q j 0)) (Ca nl (q j 1))) a b)); [ring|].
      rewrite P. ring.
  Qed.
  Lemma ad_pair i j k l : i < ns -> j < ns -> k < m -> l < m ->
    seqv (ad SP (smul (Cd nl (q i k)) (Ca nl (q j l))))
      (sadd (sscale (kopp (kb (k =? 1))) (smul (Cd nl (q i 0)) (Ca nl (q j l)))) (sscale (kb (l =? 0)) (smul (Cd nl (q i k)) (Ca nl (q j 1))))).
  Proof using sym.
    intros Hi Hj Hk Hl. rewrite ad_mul, ad_Cd, ad_Ca by assumption. rewrite sscale_mul_l, sscale_mul_r. reflexivity.
  Qed.
  Lemma ad_Nn i k : i < ns -> k < m -> seqv (ad SP (Nn nl (q i k))) (sscale (kb (k =? 0) -c kb (k =? 1)) (raise i)).
  Proof using sym.
    intros Hi Hk. assert (Hq : q i k < nl) by (apply q_lt; assumption).
    transitivity (ad SP (smul (Cd nl (q i k)) (Ca nl (q i k)))); [apply ad_ext; symmetry; apply Cd_Ca; exact Hq|].
    rewrite ad_pair by assumption. intros a b Ha Hb. unfold sadd, sscale, raise.
    destruct (Nat.eqb_spec k 0) as [->|N0]; [cbn [Nat.eqb kb]; ring|]. destruct (Nat.eqb_spec k 1) as [->|N1]; cbn [kb]; ring.
  Qed.
  Lemma ad_double i : i < ns -> seqv (ad SP (smul (Nn nl (q i 0)) (Nn nl (q i 1)))) s0.
  Proof using sym.
    intros Hi. pose proof m_two. rewrite ad_mul, !ad_Nn by (assumption || lia). cbn [Nat.eqb kb].
    rewrite (scale_eq nl (c1 -c c0) c1) by ring. rewrite (scale_eq nl (c0 -c c1) (kopp c1)) by ring. rewrite scale_1, sscale_mul_r.
    assert (L : seqv (smul (raise i) (Nn nl (q i 1))) (raise i)).
    { rewrite <- (Cd_Ca nl (q i 1)) by (apply q_1; exact Hi).
      apply (absorb_l (Rr:=sq_ring (K:=CR) (N:=N)) (Cd nl (q i 1)) (Ca nl (q i 1)) (Cd nl (q i 0))); [apply Ca_Cd_same | apply Ca_sq]; apply q_1; exact Hi. }
    assert (Rr : seqv (smul (Nn nl (q i 0)) (raise i)) (raise i)).
    { rewrite <- (Cd_Ca nl (q i 0)) by (apply q_0; exact Hi).
      apply (absorb_r (Rr:=sq_ring (K:=CR) (N:=N)) (Cd nl (q i 0)) (Ca nl (q i 0)) (Ca nl (q i 1))); [apply Ca_Cd_same | apply Cd_sq]; apply q_0; exact Hi. }
    rewrite L, Rr. intros a b _ _. unfold sadd, sscale, s0. ring.
  Qed.
  Lemma ad_hops i j k : i < ns -> j < ns -> k < m -> 2 <= k -> seqv (ad SP (hop f (q i k) (q j k))) s0.
  Proof using sym.
    intros Hi Hj Hk K2 a b Ha Hb. unfold hop, sadd. rewrite ad_add, !ad_pair by assumption.
    rewrite (proj2 (Nat.eqb_neq k 1)), (proj2 (Nat.eqb_neq k 0)) by lia. unfold sadd, sscale, s0. cbn [kb]. ring.
  Qed.
  Lemma ad_hop01 i j : i < ns -> j < ns -> seqv (sadd (ad SP (hop f (q i 0) (q j 0))) (ad SP (hop f (q i 1) (q j 1)))) s0.
  Proof using sym.
    intros Hi Hj a b Ha Hb. pose proof m_two as M2. unfold hop, sadd. rewrite !ad_add, !ad_pair by (assumption || lia).
    unfold sadd, sscale, s0. cbn [kb Nat.eqb]. ring.
  Qed.

  Lemma ad_H : seqv (ad SP (HS2 f (teff f))) s0.
  Proof using sym.
    intros a b Ha Hb. destruct sym as (M2 & ST & SM & SPo & SV). unfold HS2.
    rewrite ad_add, ad_sub, ad_add, ad_add. rewrite !ad_ksum.
    assert (T1 : ksum ns (fun i => ad SP (fun a b => ksum i (fun j => ksum m (fun k => kopp (teff f i j k *c hop f (q i k) (q j k) a b)))) a b) = c0).
    { apply ksum_zero. intros i Hi. rewrite ad_ksum. apply ksum_zero. intros j Hj. rewrite ad_ksum.
      rewrite ksum_first_two; [|exact M2|].
      - rewrite !ad_opp, !ad_scale. unfold teff. rewrite (ST i j) by lia. pose proof (ad_hop01 i j Hi ltac:(lia) a b Ha Hb) as Z. unfold sadd, s0 in Z.
        set (x := ad SP (hop f (q i 0) (q j 0)) a b) in *. set (y := ad SP (hop f (q i 1) (q j 1)) a b) in *.
        match goal with |- context [?w *c x] => transitivity (kopp w *c (x +c y)); [ring|] end. rewrite Z. ring.
      - intros k Hk. rewrite ad_opp, ad_scale, ad_hops by lia. unfold s0. ring. }
    assert (T2 : ksum ns (fun i => ad SP (fun a b => f_us f i *c smul (Nn nl (q i 0)) (Nn nl (q i 1)) a b) a b) = c0).
    { apply ksum_zero. intros i Hi. rewrite ad_scale, ad_double by assumption. unfold s0. ring. }
    assert (T3 : ksum ns (fun i => ad SP (fun a b => ksum (S i) (fun j => ksum m (fun k => f_same f i j k *c smul (Nn nl (q i k)) (Nn nl (q j k)) a b))) a b) = c0).
    { apply ksum_zero. intros i Hi. rewrite ad_ksum. apply ksum_zero. intros j Hj. rewrite ad_ksum.
      rewrite ksum_first_two; [|exact M2|].
      - rewrite !ad_scale. destruct (SV i j ltac:(lia)) as [-> ->]. change k0 with c0. ring.
      - intros k Hk. rewrite ad_scale.
        assert (Z : seqv (ad SP (smul (Nn nl (q i k)) (Nn nl (q j k)))) s0).
        { rewrite ad_mul, !ad_Nn by lia. rewrite (proj2 (Nat.eqb_neq k 1)), (proj2 (Nat.eqb_neq k 0)) by lia. cbn [kb].
          rewrite (scale_eq nl (c0 -c c0) c0) by ring. rewrite sscale_mul_l, sscale_mul_r. intros x y _ _. unfold sadd, sscale, s0. ring. }
        rewrite Z by assumption. unfold s0. ring. }
    assert (T4 : forall g : nat -> nat -> CR, (forall i, i < ns -> g i 0 = g i 1) -> ksum ns (fun i => ad SP (fun a b => ksum m (fun k => g i k *c Nn nl (q i k) a b)) a b) = c0).
    { intros g G. apply ksum_zero. intros i Hi. rewrite ad_ksum. rewrite ksum_first_two; [|exact M2|].
      - rewrite !ad_scale, !ad_Nn by (assumption || lia). unfold sscale. cbn [Nat.eqb kb]. rewrite (G i Hi). ring.
      - intros k Hk. rewrite ad_scale, ad_Nn by (assumption || lia). rewrite (proj2 (Nat.eqb_neq k 1)), (proj2 (Nat.eqb_neq k 0)) by lia. unfold sscale. cbn [kb]. ring. }
    rewrite T1, T2, T3, (T4 (fun _ k => f_mus f k) (fun _ _ => SM)), (T4 (fun i k => f_pot f i k) SPo). unfold s0. change k0 with c0. ring.
  Qed.

  Variables (H V : mat CR) (E : list R).
  Hypothesis ham : createH f None = Ok H.

  Lemma us_any : 2 <= m \/ (forall i, i < ns -> f_us f i = k0).
  Proof using sym. left. exact m_two. Qed.
  Notation H_facts' := (H_is f us_any H ham).

  Theorem spin_commutes (A : nat -> mat CR) : (forall i, i < ns -> two_site_op (f_sys f) i 0 i 1 cdag_op c_op Fermion = Ok (A i)) ->
    forall a b, a < N -> b < N -> ksum ns (fun i => ent (mmul (A i) H) a b) = ksum ns (fun i => ent (mmul H (A i)) a b).
  Proof using sym ham.
    intros EA a b Ha Hb. destruct H_facts' as (R1 & R2 & HH). pose proof m_two as M2.
    assert (VA : forall i, i < ns -> square N (A i) /\ seqv (N:=N) (ent (A i)) (raise i)).
    { intros i Hi. destruct (two_ok (f_sys f) i 0 i 1 cdag_op c_op Fermion (f_two f) ltac:(discriminate) Hi ltac:(change (0 < m); lia) Hi ltac:(change (1 < m); lia) (sq2 _ _ _ _) (sq2 _ _ _ _)) as (A' & EA' & SA & VA).
      rewrite (EA i Hi) in EA'. injection EA' as <-. split; [exact SA | exact VA]. }
    assert (Z : seqv (ad SP (ent H)) s0) by (rewrite (ad_ext SP (ent H) _ HH); exact ad_H).
    specialize (Z a b Ha Hb). rewrite ad_SP in Z. unfold ad, s0 in Z.
    assert (Sb : forall x y : CR, ksub x y = kadd x (kopp y)) by (intros; ring).
    rewrite (ksum_ext ns _ (fun i => smul (N:=N) (ent H) (raise i) a b +c kopp (smul (N:=N) (raise i) (ent H) a b))) in Z by (intros; apply Sb).
    rewrite ksum_add, ksum_opp in Z.
    rewrite (ksum_ext ns (fun i => ent (mmul (A i) H) a b) (fun i => smul (N:=N) (raise i) (ent H) a b)).
    2:{ intros i Hi. destruct (VA i Hi) as ((S1 & S2) & VV). rewrite (ent_mul N) by (split; assumption). apply smul_proper; try assumption. reflexivity. }
    rewrite (ksum_ext ns (fun i => ent (mmul H (A i)) a b) (fun i => smul (N:=N) (ent H) (raise i) a b)).
    2:{ intros i Hi. destruct (VA i Hi) as ((S1 & S2) & VV). rewrite (ent_mul N) by (split; assumption). apply smul_proper; try assumption. reflexivity. }
    set (x := ksum ns (fun i => smul (N:=N) (ent H) (raise i) a b)) in *. set (y := ksum ns (fun i => smul (N:=N) (raise i) (ent H) a b)) in *.
    transitivity (y +c (x +c kopp y)); [rewrite Z; ring | ring].
  Qed.

  Hypothesis basis : eigenbasis H V E.

  Section Finite.
    Variable T : R.
    Hypothesis T0 : T <> 0%R.
    Notation om := (omega N V E T).
    Lemma VR : nrow V = N. Proof using sym ham basis. exact (V_is f us_any H V E ham basis). Qed.
    Lemma om_ad X : om (ad SP X) = c0.
    Proof using sym ham basis T0.
      destruct H_facts' as (_ & _ & HH).
      assert (C : seqv (N:=N) (ssub (smul (ent H) SP) (smul SP (ent H))) (sscale (real 0) SP)).
      { change (seqv (ad SP (ent H)) (sscale (real 0) SP)). rewrite (ad_ext SP (ent H) _ HH), ad_H. intros a b _ _. unfold s0, sscale. change (real 0) with c0. ring. }
      pose proof (FreeKms.exchange N H V E T VR basis T0 SP X 0 C) as Y.
      replace (- 0 / T)%R with 0%R in Y by (field; exact T0). rewrite exp_0 in Y. change (real 1) with c1 in Y.
      assert (L : om (ad SP X) = om (smul X SP) +c kopp c1 *c om (smul SP X)).
      { rewrite <- omega_scale, <- omega_add. apply omega_ext. intros a b _ _. unfold ad, sadd, sscale. ring. }
      rewrite L, Y. ring.
    Qed.
    Lemma om_bond i j : i < ns -> j < ns -> om (smul (Cd nl (q i 0)) (Ca nl (q j 0))) = om (smul (Cd nl (q i 1)) (Ca nl (q j 1))).
    Proof using sym ham basis T0.
      intros Hi Hj. pose proof m_two as M2. pose proof (om_ad (smul (Cd nl (q i 1)) (Ca nl (q j 0)))) as Z.
      rewrite (omega_ext N V E T _ _ (ad_pair i j 1 0 Hi Hj ltac:(lia) ltac:(lia))) in Z. rewrite omega_add, !omega_scale in Z. cbn [Nat.eqb kb] in Z.
      set (x := om _) in *. set (y := om (smul (Cd nl (q i 1)) (Ca nl (q j 1)))) in *.
      transitivity (y +c kopp (kopp c1 *c x +c c1 *c y) +c y -c y); [ring|]. rewrite Z. ring.
    Qed.
    Definition zz (i : nat) : sq CR N := ssub (Nn nl (q i 0)) (Nn nl (q i 1)).
    Lemma om_spin i j : i < ns -> j < ns -> om (smul (zz i) (zz j)) = real 2 *c om (smul (raise i) (lower j)).
    Proof using sym ham basis T0.
      intros Hi Hj. pose proof m_two as M2. pose proof (om_ad (smul (zz i) (lower j))) as Z.
      assert (Y : seqv (ad SP (smul (zz i) (lower j))) (sadd (sscale (real 2) (smul (raise i) (lower j))) (sscale (kopp c1) (smul (zz i) (zz j))))).
      { rewrite ad_mul.
        assert (A1 : seqv (ad SP (zz i)) (sscale (real 2) (raise i))).
        { intros a b Ha Hb. unfold zz, ssub. rewrite ad_sub, !ad_Nn by (assumption || lia). unfold sscale. cbn [Nat.eqb kb].
          replace (real 2) with (c1 +c c1) by (apply injective_projections; cbn; ring). ring. }
        assert (A2 : seqv (ad SP (lower j)) (sscale (kopp c1) (zz j))).
        { unfold lower. rewrite ad_pair by (assumption || lia). intros a b Ha Hb. unfold zz, ssub, sscale, sadd. cbn [Nat.eqb kb].
          rewrite (Cd_Ca nl (q j 0) (q_0 j Hj) a b Ha Hb), (Cd_Ca nl (q j 1) (q_1 j Hj) a b Ha Hb). ring. }
        rewrite A1, A2, sscale_mul_l, sscale_mul_r. reflexivity. }
      rewrite (omega_ext N V E T _ _ Y), omega_add, !omega_scale in Z.
      set (x := om (smul (zz i) (zz j))) in *. set (y := om (smul (raise i) (lower j))) in *.
      transitivity (x +c (real 2 *c y +c kopp c1 *c x)); [rewrite Z; ring | ring].
    Qed.
    Lemma read O X Y : square N O -> square N Y -> seqv (N:=N) (ent O) X -> om X = om (ent Y) -> exp_vals_thermal V O E T = exp_vals_thermal V Y E T.
    Proof using sym ham basis T0.
      intros (S1 & S2) (S3 & S4) OX OY. pose proof VR as R. pose proof (FreeWick.basis_not_empty V E H basis ltac:(rewrite R; apply N_pos)) as NE.
      rewrite !thermal_finite; [| repeat split; try congruence; apply basis | exact T0 | repeat split; try congruence; apply basis | exact T0].
      rewrite <- (boltzmann_omega N V E T R O S1 S2), <- (boltzmann_omega N V E T R Y S3 S4), (omega_ext N V E T _ X OX), OY. reflexivity.
    Qed.
  End Finite.

  Variable T : R.
  Hypothesis HT : T <> 0%R \/ (sorted_list E /\ apart gap13 E).
  Lemma any_T O Y : square N O -> square N Y -> (forall T, T <> 0%R -> exp_vals_thermal V O E T = exp_vals_thermal V Y E T) ->
    exp_vals_thermal V O E T = exp_vals_thermal V Y E T.
  Proof using sym ham basis HT.
    intros (S1 & S2) (S3 & S4) Q. destruct (Req_EM_T T 0) as [Z|Z]; [|apply Q; exact Z].
    destruct HT as [HT'|(A1 & A2)]; [congruence|]. rewrite Z. pose proof VR as R. pose proof (FreeWick.basis_not_empty V E H basis ltac:(rewrite R; apply N_pos)) as NE.
    apply at_zero; try assumption; repeat split; try congruence; apply basis.
  Qed.
  Theorem spin_bond i j A B : i < ns -> j < ns -> two_site_op (f_sys f) i 0 j 0 cdag_op c_op Fermion = Ok A ->
    two_site_op (f_sys f) i 1 j 1 cdag_op c_op Fermion = Ok B -> exp_vals_thermal V A E T = exp_vals_thermal V B E T.
  Proof using sym ham basis HT.
    intros Hi Hj EA EB. pose proof m_two as M2.
    destruct (two_ok (f_sys f) i 0 j 0 cdag_op c_op Fermion (f_two f) ltac:(discriminate) Hi ltac:(change (0 < m); lia) Hj ltac:(change (0 < m); lia) (sq2 _ _ _ _) (sq2 _ _ _ _)) as (A' & EA' & SA & VA).
    destruct (two_ok (f_sys f) i 1 j 1 cdag_op c_op Fermion (f_two f) ltac:(discriminate) Hi ltac:(change (1 < m); lia) Hj ltac:(change (1 < m); lia) (sq2 _ _ _ _) (sq2 _ _ _ _)) as (B' & EB' & SB & VB).
    rewrite EA in EA'. injection EA' as <-. rewrite EB in EB'. injection EB' as <-.
    apply any_T; try assumption. intros T' T0'. apply (read T' T0' A _ B SA SB VA). rewrite (omega_ext N V E T' _ _ VB). apply om_bond; assumption.
  Qed.
  Theorem spin_density i A B : i < ns -> single_site_op (f_sys f) i 0 n_op Boson = Ok A ->
    single_site_op (f_sys f) i 1 n_op Boson = Ok B -> exp_vals_thermal V A E T = exp_vals_thermal V B E T.
  Proof using sym ham basis HT.
    intros Hi EA EB. pose proof m_two as M2.
    destruct (single_ok (f_sys f) i 0 n_op Boson (f_two f) ltac:(discriminate) Hi ltac:(change (0 < m); lia) (sq2 _ _ _ _)) as (A' & EA' & SA & VA).
    destruct (single_ok (f_sys f) i 1 n_op Boson (f_two f) ltac:(discriminate) Hi ltac:(change (1 < m); lia) (sq2 _ _ _ _)) as (B' & EB' & SB & VB).
    rewrite EA in EA'. injection EA' as <-. rewrite EB in EB'. injection EB' as <-.
    change (seqv (N:=N) (ent A) (Nn nl (q i 0))) in VA. change (seqv (N:=N) (ent B) (Nn nl (q i 1))) in VB.
    apply any_T; try assumption. intros T' T0'. apply (read T' T0' A _ B SA SB VA). rewrite (omega_ext N V E T' _ _ VB).
    rewrite <- (omega_ext N V E T' _ _ (Cd_Ca nl (q i 0) (q_0 i Hi))), <- (omega_ext N V E T' _ _ (Cd_Ca nl (q i 1) (q_1 i Hi))). apply om_bond; assumption.
  Qed.
  (** Correlations of the spin are the same in all directions. *)
  Theorem spin_isotropic i j A B U1 D1 U2 D2 : i < ns -> j < ns ->
    two_site_op (f_sys f) i 0 i 1 cdag_op c_op Fermion = Ok A -> two_site_op (f_sys f) j 1 j 0 cdag_op c_op Fermion = Ok B ->
    single_site_op (f_sys f) i 0 n_op Boson = Ok U1 -> single_site_op (f_sys f) i 1 n_op Boson = Ok D1 ->
    single_site_op (f_sys f) j 0 n_op Boson = Ok U2 -> single_site_op (f_sys f) j 1 n_op Boson = Ok D2 ->
    forall x, exp_vals_thermal V (mmul A B) E T = Ok x -> exp_vals_thermal V (mmul (msub U1 D1) (msub U2 D2)) E T = Ok (2 * x)%R.
  Proof using sym ham basis HT.
    intros Hi Hj EA EB E1 E2 E3 E4. pose proof m_two as M2.
    destruct (two_ok (f_sys f) i 0 i 1 cdag_op c_op Fermion (f_two f) ltac:(discriminate) Hi ltac:(change (0 < m); lia) Hi ltac:(change (1 < m); lia) (sq2 _ _ _ _) (sq2 _ _ _ _)) as (A' & EA' & SA & VA).
    destruct (two_ok (f_sys f) j 1 j 0 cdag_op c_op Fermion (f_two f) ltac:(discriminate) Hj ltac:(change (1 < m); lia) Hj ltac:(change (0 < m); lia) (sq2 _ _ _ _) (sq2 _ _ _ _)) as (B' & EB' & SB & VB).
    destruct (single_ok (f_sys f) i 0 n_op Boson (f_two f) ltac:(discriminate) Hi ltac:(change (0 < m); lia) (sq2 _ _ _ _)) as (U1' & E1' & SU1 & VU1).
    destruct (single_ok (f_sys f) i 1 n_op Boson (f_two f) ltac:(discriminate) Hi ltac:(change (1 < m); lia) (sq2 _ _ _ _)) as (D1' & E2' & SD1 & VD1).
    destruct (single_ok (f_sys f) j 0 n_op Boson (f_two f) ltac:(discriminate) Hj ltac:(change (0 < m); lia) (sq2 _ _ _ _)) as (U2' & E3' & SU2 & VU2).
    destruct (single_ok (f_sys f) j 1 n_op Boson (f_two f) ltac:(discriminate) Hj ltac:(change (1 < m); lia) (sq2 _ _ _ _)) as (D2' & E4' & SD2 & VD2).
    rewrite EA in EA'. injection EA' as <-. rewrite EB in EB'. injection EB' as <-. rewrite E1 in E1'. injection E1' as <-.
    rewrite E2 in E2'. injection E2' as <-. rewrite E3 in E3'. injection E3' as <-. rewrite E4 in E4'. injection E4' as <-.
    change (seqv (N:=N) (ent U1) (Nn nl (q i 0))) in VU1. change (seqv (N:=N) (ent D1) (Nn nl (q i 1))) in VD1.
    change (seqv (N:=N) (ent U2) (Nn nl (q j 0))) in VU2. change (seqv (N:=N) (ent D2) (Nn nl (q j 1))) in VD2.
    change (seqv (N:=N) (ent A) (raise i)) in VA. change (seqv (N:=N) (ent B) (lower j)) in VB.
    set (P := mmul A B). set (Q := mmul (msub U1 D1) (msub U2 D2)).
    assert (SP' : square N P) by (apply square_mul; assumption). assert (SQ : square N Q) by (apply square_mul; apply square_sub; assumption).
    pose (P2 := Mat N N (fun x y => real 0 *c kb (x =? y) +c real 2 *c ent P x y)). assert (SP2 : square N P2) by (split; reflexivity).
    assert (VP : seqv (N:=N) (ent P) (smul (raise i) (lower j))) by (unfold P; rewrite (ent_mul N) by exact SA; rewrite VA, VB; reflexivity).
    assert (VQ : seqv (N:=N) (ent Q) (smul (zz i) (zz j))).
    { unfold Q. rewrite (ent_mul N) by (apply square_sub; exact SU1).
      assert (Z1 : seqv (N:=N) (ent (msub U1 D1)) (zz i)) by (intros a b Ha Hb; cbn [msub ent]; unfold zz, ssub; rewrite VU1, VD1 by assumption; reflexivity).
      assert (Z2 : seqv (N:=N) (ent (msub U2 D2)) (zz j)) by (intros a b Ha Hb; cbn [msub ent]; unfold zz, ssub; rewrite VU2, VD2 by assumption; reflexivity).
      rewrite Z1, Z2. reflexivity. }
    assert (EQ : exp_vals_thermal V Q E T = exp_vals_thermal V P2 E T).
    { apply any_T; try assumption. intros T' T0'. apply (read T' T0' Q _ P2 SQ SP2 VQ).
      rewrite (om_spin T' T0' i j Hi Hj), <- (omega_ext N V E T' _ _ VP), <- omega_scale. apply omega_ext. intros a b Ha Hb.
      unfold sscale. cbn [P2 ent]. change (real 0) with c0. ring. }
    intros x Ex. rewrite EQ. pose proof VR as R.
    rewrite (average_linear H V E T P P2 0 2 basis) with (x := x); [f_equal; ring | | | | exact HT | | exact Ex].
    - rewrite R. apply N_pos.
    - rewrite R. exact SP'.
    - rewrite R. exact SP2.
    - intros a b _ _. reflexivity.
  Qed.
End Spin.
