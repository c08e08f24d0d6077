(** Densities and correlations of fermions without interactions: proofs. *)
From Coq Require Import List Arith Lia Reals Lra Bool QArith Qabs Setoid Morphisms Ring Ncring Ncring_tac.
From Verif Require Import Scalars Res Matrix Sums SqMat CarAlgebra ModelBase ModelFermions SpecFock SpecHubbard OpsProofs
  FockProofs FermiOps SwapProofs HamProofs HamSym
  ModelGeometry ModelPhase ModelSymmetry SymBase ModelThermal SpecThermal ThermalBase ThermalBasis ThermalSectors FreeKms SpecFermiGas SpecFree FreeFermi.
Import ListNotations.

Section AnyRing.
  Context {T : Type} `{Rr : Ring T}.
  Lemma three_anti (y1 y2 y3 a : T) : y1 * (y2 * y3) * a + a * (y1 * (y2 * y3)) ==
    y1 * y2 * (y3 * a + a * y3) - y1 * (y2 * a + a * y2) * y3 + (y1 * a + a * y1) * (y2 * y3).
  Proof. non_commutative_ring. Qed.
End AnyRing.

Local Open Scope nat_scope.
Local Notation nth := List.nth.
Arguments Nat.pow : simpl never.

Lemma ksum_kb n i (F : nat -> CR) : i < n -> ksum n (fun j => kb (j =? i) *c F j) = F i.
Proof.
  intros Hi. rewrite (ksum_single n i) by (try exact Hi; intros j Hj Ne; rewrite (proj2 (Nat.eqb_neq j i)) by exact Ne; cbn [kb]; ring).
  rewrite Nat.eqb_refl. cbn [kb]. ring.
Qed.

Lemma basis_not_empty V E H : eigenbasis H V E -> (0 < nrow V) -> E <> [].
Proof.
  intros ((L & _) & _ & CB) Hn ->. cbn in L.
  pose proof (CB (fun _ => c1) 0 Hn) as X. rewrite L in X. cbn [ksum] in X. apply c1_neq_0. exact X.
Qed.

Section Averages.
  Variable f : fermions CR.
  Notation ns := (fg_nsites (f_geom f)).
  Notation m := (f_nspecies f).
  Notation nl := (nlog (f_sys f)).
  Notation N := (2 ^ nlog (f_sys f)).
  Notation q i k := (lsite (f_sys f) i k).
  Hypothesis free : non_interacting f.
  Variables (H V : mat CR) (E : list R) (T : R).
  Hypothesis ham : createH f None = Ok H.
  Hypothesis basis : eigenbasis H V E.
  Hypothesis T0 : T <> 0%R.
  Notation om := (omega N V E T).
  Notation Z := (Zp E T).

  Lemma H_facts : nrow H = N /\ ncol H = N /\ seqv (N:=N) (ent H) (HS2 f (teff f)).
  Proof using free ham.
    destruct free as [F1 F2].
    destruct (createH_ok f None (nstates2 _ (f_two f)) (or_intror F1)) as (H' & E' & SQ & VV).
    rewrite ham in E'. injection E' as <-. cbn [the_proj nrow meye] in *. rewrite (nstates2 _ (f_two f)) in *.
    split; [apply SQ | split; [apply SQ|]]. intros i j Hi Hj. rewrite VV, sand_eye by assumption. apply HS_HS2.
  Qed.
  Lemma V_rows : nrow V = N.
  Proof using free ham basis. destruct H_facts as (A & _ & _). destruct basis as ((_ & B & _) & _). congruence. Qed.
  Lemma E_ne : E <> [].
  Proof using free ham basis. apply (basis_not_empty V E H basis). rewrite V_rows. apply Nat.neq_0_lt_0, Nat.pow_nonzero. discriminate. Qed.
  Lemma Z_pos : (0 < Z)%R.
  Proof using free ham basis. apply Zp_pos. exact E_ne. Qed.

  (** The modes of one species. *)
  Variables (k : nat) (U : mat CR) (e : list R).
  Hypothesis Hk : k < m.
  Hypothesis modes_k : eigenbasis (particle_matrix f k) U e.

  Lemma U_rows : nrow U = ns.
  Proof using modes_k. destruct modes_k as ((_ & B & _) & _). symmetry. exact B. Qed.
  Lemma U_cols : ncol U = length e.
  Proof using modes_k. apply modes_k. Qed.

  Definition Ad (a : nat) : sq CR N := fun x y => ksum ns (fun j => ent U j a *c Cd nl (q j k) x y).

  Lemma Ad_energy a : a < length e -> seqv (N:=N) (ssub (smul (ent H) (Ad a)) (smul (Ad a) (ent H))) (sscale (real (nth a e 0%R)) (Ad a)).
  Proof using free ham Hk modes_k.
    intros Ha. destruct H_facts as (_ & _ & HH). rewrite HH. intros x y Hx Hy. unfold ssub, Ad.
    rewrite smul_ksum_r, smul_ksum_l.
    assert (Sb : forall x y : CR, ksub x y = kadd x (kopp y)) by (intros; ring).
    rewrite Sb, <- ksum_opp, <- ksum_add.
    transitivity (ksum ns (fun j => ent U j a *c ksum ns (fun i => ent (particle_matrix f k) i j *c Cd nl (q i k) x y))).
    { apply ksum_ext. intros j Hj. rewrite <- (H_create f free j k Hj Hk x y Hx Hy). unfold ad. rewrite smul_scale_r', smul_scale_l'. ring. }
    rewrite (ksum_ext ns _ (fun j => ksum ns (fun i => ent (particle_matrix f k) i j *c ent U j a *c Cd nl (q i k) x y)))
      by (intros j Hj; rewrite <- ksum_mul_l; apply ksum_ext; intros; ring).
    rewrite ksum_swap. unfold sscale. rewrite <- ksum_mul_l. apply ksum_ext. intros i Hi.
    rewrite (ksum_mul_r ns). destruct modes_k as ((_ & _ & _ & EV) & _). unfold apply in EV. rewrite U_rows, U_cols in EV.
    specialize (EV i a Hi Ha). unfold col in EV. rewrite EV. change (nth a e 0%R, 0%R) with (real (nth a e 0%R)). ring.
  Qed.

  Lemma U_complete i j : i < ns -> j < ns -> ksum (length e) (fun a => ent U j a *c conj (ent U i a)) = kb (j =? i).
  Proof using modes_k.
    intros Hi Hj. destruct modes_k as (_ & _ & CB). pose proof (CB (fun j => kb (j =? i)) j) as X. rewrite U_rows, U_cols in X.
    rewrite X by exact Hj. apply ksum_ext. intros a Ha. f_equal. unfold inner, col.
    symmetry. rewrite (ksum_ext ns _ (fun l => kb (l =? i) *c conj (ent U l a))) by (intros; ring).
    apply (ksum_kb ns i (fun l => conj (ent U l a))). exact Hi.
  Qed.
  Lemma Cd_modes i : i < ns -> seqv (N:=N) (Cd nl (q i k)) (fun x y => ksum (length e) (fun a => conj (ent U i a) *c Ad a x y)).
  Proof using modes_k.
    intros Hi x y Hx Hy. unfold Ad.
    rewrite (ksum_ext (length e) _ (fun a => ksum ns (fun j => ent U j a *c conj (ent U i a) *c Cd nl (q j k) x y)))
      by (intros a Ha; rewrite <- ksum_mul_l; apply ksum_ext; intros; ring).
    rewrite ksum_swap. rewrite (ksum_ext ns _ (fun j => kb (j =? i) *c Cd nl (q j k) x y))
      by (intros j Hj; rewrite (ksum_mul_r (length e)), (U_complete i j Hi Hj); reflexivity).
    symmetry. apply (ksum_kb ns i (fun j => Cd nl (q j k) x y)). exact Hi.
  Qed.

  (** A mode exchanges with everything else. *)
  Lemma mode_rule a Y D : a < length e -> seqv (N:=N) (sadd (smul Y (Ad a)) (smul (Ad a) Y)) D ->
    om (smul (Ad a) Y) = real (fermi_weight T (nth a e 0%R)) *c om D.
  Proof using free ham basis T0 Hk modes_k.
    intros Ha YD.
    pose proof (exchange N H V E T V_rows basis T0 (Ad a) Y (nth a e 0%R) (Ad_energy a Ha)) as X.
    pose proof (omega_ext N V E T _ _ YD) as O. rewrite omega_add in O.
    set (w := om (smul (Ad a) Y)) in *. set (v := om (smul Y (Ad a))) in *. set (d := om D) in *.
    set (x := exp (- nth a e 0%R / T)) in *.
    assert (FW : fermi_weight T (nth a e 0%R) = (x / (1 + x))%R).
    { unfold fermi_weight, occupation, x. replace (- (1 / T) * (nth a e 0%R - 0))%R with (- nth a e 0%R / T)%R by (field; exact T0). reflexivity. }
    assert (x0 : (0 < x)%R) by apply exp_pos.
    rewrite FW.
    apply (mul_cancel (real (1 + x))).
    { intros Q. apply (f_equal fst) in Q. cbn in Q. lra. }
    transitivity (real x *c d).
    - rewrite <- O, real_add. change (real 1) with c1. transitivity (w +c real x *c w); [ring|]. rewrite X at 1. ring.
    - transitivity (real (1 + x) *c real (x / (1 + x)) *c d); [|ring]. rewrite <- real_mul.
      replace ((1 + x) * (x / (1 + x)))%R with x by (field; lra). reflexivity.
  Qed.

  (** Anticommutators of a mode with site operators. *)
  Definition amp (a j k' : nat) : CR := kb (k' =? k) *c ent U j a.
  Lemma Ca_Ad a j k' : j < ns -> k' < m ->
    seqv (N:=N) (sadd (smul (Ca nl (q j k')) (Ad a)) (smul (Ad a) (Ca nl (q j k')))) (sscale (amp a j k') s1).
  Proof using Hk.
    intros Hj Hk' x y Hx Hy. unfold sadd, Ad. rewrite smul_ksum_r, smul_ksum_l, <- ksum_add.
    transitivity (ksum ns (fun i => kb (i =? j) *c (kb (k' =? k) *c ent U i a *c s1 (N:=N) x y))).
    - apply ksum_ext. intros i Hi. rewrite smul_scale_r', smul_scale_l'.
      pose proof (car_mixed nl (q j k') (q i k) (q_lt f j k' Hj Hk') (q_lt f i k Hi Hk) x y Hx Hy) as X. unfold sadd in X.
      transitivity (ent U i a *c (smul (Ca nl (q j k')) (Cd nl (q i k)) x y +c smul (Cd nl (q i k)) (Ca nl (q j k')) x y)); [ring|].
      rewrite X. unfold sscale. rewrite (q_eqb f j k' i k Hj Hi). rewrite (Nat.eqb_sym j i). ring.
    - rewrite (ksum_kb ns j (fun i => kb (k' =? k) *c ent U i a *c s1 (N:=N) x y)) by exact Hj. reflexivity.
  Qed.
  Lemma Cd_Ad a r : r < nl -> seqv (N:=N) (sadd (smul (Cd nl r) (Ad a)) (smul (Ad a) (Cd nl r))) s0.
  Proof using Hk.
    intros Hr x y Hx Hy. unfold sadd, Ad. rewrite smul_ksum_r, smul_ksum_l, <- ksum_add. apply ksum_zero. intros i Hi.
    rewrite smul_scale_r', smul_scale_l'.
    pose proof (car_create nl r (q i k) Hr (q_lt f i k Hi Hk) x y Hx Hy) as X. unfold sadd in X.
    transitivity (ent U i a *c (smul (Cd nl r) (Cd nl (q i k)) x y +c smul (Cd nl (q i k)) (Cd nl r) x y)); [ring|].
    rewrite X. unfold s0. ring.
  Qed.

  (** Averages of products that begin with a creation operator. *)
  Lemma om_Cd i Y (D : nat -> sq CR N) : i < ns ->
    (forall a, a < length e -> seqv (N:=N) (sadd (smul Y (Ad a)) (smul (Ad a) Y)) (D a)) ->
    om (smul (Cd nl (q i k)) Y) = ksum (length e) (fun a => real (fermi_weight T (nth a e 0%R)) *c (conj (ent U i a) *c om (D a))).
  Proof using free ham basis T0 Hk modes_k.
    intros Hi YD.
    rewrite (omega_ext N V E T _ (fun x y => ksum (length e) (fun a => sscale (conj (ent U i a)) (smul (Ad a) Y) x y))).
    - rewrite omega_sum. apply ksum_ext. intros a Ha. rewrite omega_scale, (mode_rule a Y (D a) Ha (YD a Ha)). ring.
    - rewrite (Cd_modes i Hi). intros x y Hx Hy. rewrite smul_ksum_l. apply ksum_ext. intros a Ha. unfold sscale. apply smul_scale_l'.
  Qed.

  Notation G := (filled T U e).
  Lemma om_green i j k' : i < ns -> j < ns -> k' < m ->
    om (smul (Cd nl (q i k)) (Ca nl (q j k'))) = real Z *c (kb (k' =? k) *c G i j).
  Proof using free ham basis T0 Hk modes_k.
    intros Hi Hj Hk'. rewrite (om_Cd i _ (fun a => sscale (amp a j k') s1) Hi) by (intros; apply Ca_Ad; assumption).
    unfold filled. rewrite <- !ksum_mul_l. apply ksum_ext. intros a Ha.
    rewrite omega_scale, (omega_one N H V E T V_rows basis). unfold amp. change re with real. ring.
  Qed.
  Lemma om_number i : i < ns -> om (Nn nl (q i k)) = real Z *c G i i.
  Proof using free ham basis T0 Hk modes_k.
    intros Hi. rewrite <- (omega_ext N V E T _ _ (Cd_Ca nl (q i k) (q_lt f i k Hi Hk))), om_green by assumption.
    rewrite Nat.eqb_refl. cbn [kb]. ring.
  Qed.
  Lemma om_pair i j k' : i < ns -> j < ns -> k' < m ->
    om (smul (Nn nl (q i k)) (Nn nl (q j k'))) =
    kb (k' =? k) *c (real Z *c (G i j *c (kb (i =? j) +c kopp (G j i)))) +c G i i *c om (Nn nl (q j k')).
  Proof using free ham basis T0 Hk modes_k.
    intros Hi Hj Hk'. set (p := q i k). set (r := q j k').
    assert (Hp : p < nl) by (apply q_lt; assumption). assert (Hr : r < nl) by (apply q_lt; assumption).
    rewrite (omega_ext N V E T _ (smul (Cd nl p) (smul (Ca nl p) (smul (Cd nl r) (Ca nl r))))).
    2:{ rewrite <- (Cd_Ca nl p Hp), <- (Cd_Ca nl r Hr). rewrite smul_assoc. reflexivity. }
    rewrite (om_Cd i _ (fun a => sadd (sscale (amp a j k') (smul (Ca nl p) (Cd nl r))) (sscale (amp a i k) (smul (Cd nl r) (Ca nl r)))) Hi).
    2:{ intros a Ha.
        pose proof (three_anti (Rr:=sq_ring (K:=CR) (N:=N)) (Ca nl p) (Cd nl r) (Ca nl r) (Ad a)) as X.
        etransitivity; [exact X|].
        change (seqv (N:=N) (sadd (ssub (smul (smul (Ca nl p) (Cd nl r)) (sadd (smul (Ca nl r) (Ad a)) (smul (Ad a) (Ca nl r))))
            (smul (smul (Ca nl p) (sadd (smul (Cd nl r) (Ad a)) (smul (Ad a) (Cd nl r)))) (Ca nl r)))
            (smul (sadd (smul (Ca nl p) (Ad a)) (smul (Ad a) (Ca nl p))) (smul (Cd nl r) (Ca nl r))))
          (sadd (sscale (amp a j k') (smul (Ca nl p) (Cd nl r))) (sscale (amp a i k) (smul (Cd nl r) (Ca nl r))))).
        rewrite (Cd_Ad a r Hr). unfold r at 2 3. rewrite (Ca_Ad a j k' Hj Hk'). unfold p at 3 4. rewrite (Ca_Ad a i k Hi Hk).
        rewrite sscale_mul_r, sscale_mul_l, smul_1_l, smul_1_r.
        intros x y Hx Hy. unfold sadd, ssub.
        assert (S0 : smul (N:=N) (smul (Ca nl p) s0) (Ca nl r) x y = c0).
        { unfold smul at 1. apply ksum_zero. intros l Hl. unfold smul, s0. rewrite ksum_zero by (intros; ring). ring. }
        rewrite S0. ring. }
    rewrite (ksum_ext (length e) _ (fun a =>
       (kb (k' =? k) *c (real (fermi_weight T (nth a e 0%R)) *c (conj (ent U i a) *c ent U j a))) *c om (smul (Ca nl p) (Cd nl r))
       +c real (fermi_weight T (nth a e 0%R)) *c (conj (ent U i a) *c ent U i a) *c om (Nn nl r))).
    2:{ intros a Ha. rewrite omega_add, !omega_scale, (omega_ext N V E T _ _ (Cd_Ca nl r Hr)). unfold amp.
        rewrite Nat.eqb_refl. cbn [kb]. ring. }
    rewrite ksum_add, !(ksum_mul_r (length e)). rewrite (ksum_mul_l (length e)).
    change (ksum (length e) (fun a => real (fermi_weight T (nth a e 0%R)) *c (conj (ent U i a) *c ent U j a))) with (G i j).
    change (ksum (length e) (fun a => real (fermi_weight T (nth a e 0%R)) *c (conj (ent U i a) *c ent U i a))) with (G i i).
    f_equal. destruct (Nat.eqb_spec k' k) as [->|Ne]; cbn [kb]; [|ring].
    assert (CC : om (smul (Ca nl p) (Cd nl r)) = real Z *c (kb (i =? j) +c kopp (G j i))).
    { pose proof (omega_ext N V E T _ _ (car_mixed nl p r Hp Hr)) as X. rewrite omega_add, omega_scale, (omega_one N H V E T V_rows basis) in X.
      pose proof (om_green j i k Hj Hi Hk) as Y. rewrite Nat.eqb_refl in Y. fold p in Y. fold r in Y. rewrite Y in X.
      pose proof (q_eqb f i k j k Hi Hj) as Q. fold p in Q. fold r in Q. rewrite Nat.eqb_refl in Q. rewrite Q in X. cbn [kb] in X.
      transitivity (om (smul (Ca nl p) (Cd nl r)) +c real Z *c (c1 *c G j i) +c kopp (real Z *c G j i)); [ring|].
      rewrite X. ring. }
    rewrite CC. ring.
  Qed.
End Averages.
