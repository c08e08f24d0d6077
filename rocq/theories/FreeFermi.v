(** Thermal averages of fermions without interactions: proofs. *)
From Coq Require Import List Arith Lia Reals Lra Bool QArith Qabs Setoid Morphisms Ring Ncring Ncring_tac.
From Verif Require Import Scalars Res Matrix Sums SqMat CarAlgebra ModelBase ModelFermions SpecFock SpecHubbard OpsProofs
  FockProofs FermiOps SwapProofs HamProofs HamSym
  ModelGeometry ModelPhase ModelSymmetry SymBase ModelThermal SpecThermal ThermalBase ThermalBasis FreeKms SpecFermiGas SpecFree.
Import ListNotations.
Section AnyRing.
  Context {T : Type} `{Rr : Ring T}.
  Lemma comm_pair (a b k : T) : comm (a * b) k == a * acomm b k - acomm a k * b.
  Proof. unfold comm, acomm. non_commutative_ring. Qed.
End AnyRing.

Local Open Scope nat_scope.
Arguments Nat.pow : simpl never.

Section Modes.
  Variable nl : nat.
  Notation N := (2 ^ nl).
  Notation K := CR.

  Lemma car_mixed r x : r < nl -> x < nl ->
    seqv (N:=N) (sadd (smul (Ca nl r) (Cd nl x)) (smul (Cd nl x) (Ca nl r))) (sscale (kb (r =? x)) (s1 (K:=K))).
  Proof.
    intros Hr Hx. destruct (Nat.eqb_spec r x) as [->|Ne].
    - rewrite (Ca_Cd_same nl x Hx). intros i j Hi Hj. unfold sscale. cbn [kb]. ring.
    - rewrite (Ca_Cd_ne nl r x Ne Hr Hx). intros i j Hi Hj. unfold sscale, s0. cbn [kb]. ring.
  Qed.
  Lemma car_create p x : p < nl -> x < nl ->
    seqv (N:=N) (sadd (smul (Cd nl p) (Cd nl x)) (smul (Cd nl x) (Cd nl p))) (s0 (K:=K)).
  Proof.
    intros Hp Hx. destruct (Nat.eq_dec p x) as [->|Ne].
    - rewrite (Cd_sq nl x Hx). intros i j Hi Hj. unfold sadd, s0. ring.
    - apply Cd_Cd_ne; assumption.
  Qed.
  Lemma pair_comm p r x : p < nl -> r < nl -> x < nl ->
    seqv (N:=N) (ssub (smul (smul (Cd nl p) (Ca nl r)) (Cd nl x)) (smul (Cd nl x) (smul (Cd nl p) (Ca nl r))))
      (sscale (kb (r =? x)) (Cd (K:=K) nl p)).
  Proof.
    intros Hp Hr Hx.
    pose proof (comm_pair (Rr:=sq_ring (K:=K) (N:=N)) (Cd nl p) (Ca nl r) (Cd nl x)) as X. unfold comm, acomm in X.
    etransitivity; [exact X|].
    change (seqv (N:=N) (ssub (smul (Cd nl p) (sadd (smul (Ca nl r) (Cd nl x)) (smul (Cd nl x) (Ca nl r))))
      (smul (sadd (smul (Cd nl p) (Cd nl x)) (smul (Cd nl x) (Cd nl p))) (Ca nl r))) (sscale (kb (r =? x)) (Cd (K:=K) nl p))).
    rewrite car_mixed, car_create by assumption.
    intros i j Hi Hj. unfold ssub, sscale. rewrite smul_scale_r'.
    assert (S1 : smul (N:=N) (Cd nl p) (s1 (K:=K)) i j = Cd nl p i j).
    { apply smul_1_r; assumption. }
    assert (S0 : smul (N:=N) (s0 (K:=K)) (Ca nl r) i j = c0).
    { unfold smul, s0. apply ksum_zero. intros. ring. }
    rewrite S1, S0. ring.
  Qed.
End Modes.

Section Adjoint.
  Context {N : nat}.
  Variable C : sq CR N.
  Definition ad (X : sq CR N) : sq CR N := fun a b => ksub (smul X C a b) (smul C X a b).
  Lemma ad_ext X Y : seqv X Y -> seqv (ad X) (ad Y).
  Proof. intros E a b Ha Hb. unfold ad. rewrite (smul_proper X Y E C C), (smul_proper C C ltac:(reflexivity) X Y E) by (assumption || reflexivity). reflexivity. Qed.
  Lemma ad_ksum n (F : nat -> sq CR N) a b : ad (fun a b => ksum n (fun i => F i a b)) a b = ksum n (fun i => ad (F i) a b).
  Proof.
    unfold ad. rewrite smul_ksum_l, smul_ksum_r.
    assert (Sb : forall x y : CR, ksub x y = kadd x (kopp y)) by (intros; ring).
    rewrite Sb, <- ksum_opp, <- ksum_add. apply ksum_ext. intros i Hi. symmetry. apply Sb.
  Qed.
  Lemma ad_add X Y a b : ad (fun a b => kadd (X a b) (Y a b)) a b = kadd (ad X a b) (ad Y a b).
  Proof. unfold ad. rewrite smul_add_r', smul_add_l'. ring. Qed.
  Lemma ad_sub X Y a b : ad (fun a b => ksub (X a b) (Y a b)) a b = ksub (ad X a b) (ad Y a b).
  Proof. unfold ad. rewrite smul_sub_r', smul_sub_l'. ring. Qed.
  Lemma ad_opp X a b : ad (fun a b => kopp (X a b)) a b = kopp (ad X a b).
  Proof. unfold ad. rewrite smul_opp_r', smul_opp_l'. ring. Qed.
  Lemma ad_scale c X a b : ad (fun a b => kmul c (X a b)) a b = kmul c (ad X a b).
  Proof. unfold ad. rewrite smul_scale_r', smul_scale_l'. ring. Qed.
End Adjoint.

Section Free.
  Variable f : fermions CR.
  Notation ns := (fg_nsites (f_geom f)).
  Notation m := (f_nspecies f).
  Notation nl := (nlog (f_sys f)).
  Notation N := (2 ^ nlog (f_sys f)).
  Notation q i k := (lsite (f_sys f) i k).
  Hypothesis free : non_interacting f.

  Lemma q_eqb i k j k' : i < ns -> j < ns -> kb (q i k =? q j k') = kb (i =? j) *c kb (k =? k').
  Proof using.
    clear free. intros Hi Hj. destruct (Nat.eqb_spec (q i k) (q j k')) as [E|Ne].
    - apply lsite_inj in E; auto. destruct E; subst. rewrite !Nat.eqb_refl. cbn [kb]. ring.
    - destruct (Nat.eqb_spec i j), (Nat.eqb_spec k k'); subst; cbn [kb]; try ring. congruence.
  Qed.
  Lemma ad_N x p : x < nl -> p < nl -> seqv (N:=N) (ad (Cd nl x) (Nn nl p)) (sscale (kb (p =? x)) (Cd nl x)).
  Proof using.
    clear free. intros Hx Hp a b Ha Hb. unfold ad. rewrite (Nn_Cd f p x Hp Hx a b Ha Hb). unfold sadd, sscale. ring.
  Qed.
  Lemma ad_hop x p r : x < nl -> p < nl -> r < nl ->
    seqv (N:=N) (ad (Cd nl x) (hop f p r)) (sadd (sscale (kb (r =? x)) (Cd nl p)) (sscale (kb (p =? x)) (Cd nl r))).
  Proof using.
    clear free. intros Hx Hp Hr a b Ha Hb. unfold hop, sadd. rewrite ad_add.
    pose proof (pair_comm nl p r x Hp Hr Hx a b Ha Hb) as E1. pose proof (pair_comm nl r p x Hr Hp Hx a b Ha Hb) as E2.
    unfold ssub in E1, E2. unfold ad. rewrite E1, E2. reflexivity.
  Qed.

  Lemma ksum_pick n i (F : nat -> CR) : i < n -> ksum n (fun j => kb (j =? i) *c F j) = F i.
  Proof using.
    clear free. intros Hi. rewrite (ksum_single n i) by (try exact Hi; intros j Hj Ne; rewrite (proj2 (Nat.eqb_neq j i)) by exact Ne; cbn [kb]; ring).
    rewrite Nat.eqb_refl. cbn [kb]. ring.
  Qed.

  (** A creation operator in the Heisenberg picture. *)
  Lemma H_create i k : i < ns -> k < m ->
    seqv (N:=N) (ad (Cd nl (q i k)) (HS2 f (teff f)))
      (fun a b => ksum ns (fun j => ent (particle_matrix f k) j i *c Cd nl (q j k) a b)).
  Proof using free.
    intros Hi Hk a b Ha Hb. destruct free as [F1 F2]. unfold HS2.
    rewrite ad_add, ad_sub, ad_add, ad_add.
    rewrite !ad_ksum.
    assert (T1 : ksum ns (fun i' => ad (Cd nl (q i k)) (fun a b => ksum i' (fun j => ksum m (fun k0 => kopp (teff f i' j k0 *c hop f (q i' k0) (q j k0) a b)))) a b) =
      ksum ns (fun j => (if j =? i then c0 else kopp (if i <? j then teff f j i k else teff f i j k)) *c Cd nl (q j k) a b)).
    { transitivity (ksum ns (fun i' => ksum ns (fun j => if j <? i' then kopp (teff f i' j k) *c (kb (j =? i) *c Cd nl (q i' k) a b +c kb (i' =? i) *c Cd nl (q j k) a b) else c0))).
      { apply ksum_ext. intros i' Hi'. rewrite ad_ksum. rewrite (ksum_le ns i') by lia. apply ksum_ext. intros j Hj. rewrite ad_ksum.
        rewrite (ksum_single m k).
        - rewrite ad_opp, ad_scale, ad_hop by (try apply q_lt; lia). unfold sadd, sscale. rewrite !q_eqb by lia.
          rewrite Nat.eqb_refl. cbn [kb]. ring.
        - exact Hk.
        - intros k' Hk' Ne. rewrite ad_opp, ad_scale, ad_hop by (try apply q_lt; lia). unfold sadd, sscale. rewrite !q_eqb by lia.
          rewrite (proj2 (Nat.eqb_neq k' k)) by exact Ne. cbn [kb]. ring. }
      transitivity (ksum ns (fun i' => ksum ns (fun j => kb (j =? i) *c (if j <? i' then kopp (teff f i' j k) *c Cd nl (q i' k) a b else c0)))
        +c ksum ns (fun i' => kb (i' =? i) *c ksum ns (fun j => if j <? i' then kopp (teff f i' j k) *c Cd nl (q j k) a b else c0))).
      { rewrite <- ksum_add. apply ksum_ext. intros i' Hi'. rewrite <- ksum_mul_l, <- ksum_add. apply ksum_ext. intros j Hj.
        destruct (j <? i'); ring. }
      rewrite (ksum_ext ns _ (fun i' => if i <? i' then kopp (teff f i' i k) *c Cd nl (q i' k) a b else c0))
        by (intros i' Hi'; rewrite (ksum_pick ns i (fun j => if j <? i' then kopp (teff f i' j k) *c Cd nl (q i' k) a b else c0)) by exact Hi; reflexivity).
      rewrite (ksum_pick ns i (fun i' => ksum ns (fun j => if j <? i' then kopp (teff f i' j k) *c Cd nl (q j k) a b else c0))) by exact Hi.
      rewrite <- ksum_add. apply ksum_ext. intros j Hj.
      destruct (Nat.eqb_spec j i) as [->|Ne]; [rewrite Nat.ltb_irrefl; ring|].
      destruct (Nat.ltb_spec i j), (Nat.ltb_spec j i); try lia; ring. }
    assert (T2 : ksum ns (fun i' => ad (Cd nl (q i k)) (fun a b => f_us f i' *c smul (Nn nl (q i' 0)) (Nn nl (q i' 1)) a b) a b) = c0).
    { apply ksum_zero. intros i' Hi'. rewrite ad_scale, F1 by assumption. ring. }
    assert (T3 : ksum ns (fun i' => ad (Cd nl (q i k)) (fun a b => ksum (S i') (fun j => ksum m (fun k0 => f_same f i' j k0 *c smul (Nn nl (q i' k0)) (Nn nl (q j k0)) a b))) a b) = c0).
    { apply ksum_zero. intros i' Hi'. rewrite ad_ksum. apply ksum_zero. intros j Hj. rewrite ad_ksum. apply ksum_zero. intros k' Hk'.
      rewrite ad_scale, F2 by lia. ring. }
    assert (T4 : forall g : nat -> nat -> CR, ksum ns (fun i' => ad (Cd nl (q i k)) (fun a b => ksum m (fun k0 => g i' k0 *c Nn nl (q i' k0) a b)) a b) =
      g i k *c Cd nl (q i k) a b).
    { intros g. rewrite (ksum_single ns i).
      - rewrite ad_ksum, (ksum_single m k).
        + rewrite ad_scale, ad_N by (try apply q_lt; assumption). unfold sscale. rewrite Nat.eqb_refl. cbn [kb]. ring.
        + exact Hk.
        + intros k' Hk' Ne. rewrite ad_scale, ad_N by (try apply q_lt; assumption). unfold sscale. rewrite q_eqb by assumption.
          rewrite (proj2 (Nat.eqb_neq k' k)) by exact Ne. cbn [kb]. ring.
      - exact Hi.
      - intros i' Hi' Ne. rewrite ad_ksum. apply ksum_zero. intros k' Hk'. rewrite ad_scale, ad_N by (try apply q_lt; assumption).
        unfold sscale. rewrite q_eqb by assumption. rewrite (proj2 (Nat.eqb_neq i' i)) by exact Ne. cbn [kb]. ring. }
    rewrite T1, T2, T3, (T4 (fun _ k => f_mus f k)), (T4 (fun i k => f_pot f i k)).
    transitivity (ksum ns (fun j => (if j =? i then c0 else kopp (if i <? j then teff f j i k else teff f i j k)) *c Cd nl (q j k) a b)
      +c ksum ns (fun j => kb (j =? i) *c (ksub (f_pot f i k) (f_mus f k) *c Cd nl (q j k) a b))).
    { rewrite (ksum_pick ns i (fun j => ksub (f_pot f i k) (f_mus f k) *c Cd nl (q j k) a b)) by exact Hi. ring. }
    rewrite <- ksum_add. apply ksum_ext. intros j Hj. unfold particle_matrix, one_particle. cbn [ent].
    destruct (Nat.eqb_spec j i) as [->|Ne]; cbn [kb]; [ring|]. unfold teff. destruct (i <? j); ring.
  Qed.
End Free.
