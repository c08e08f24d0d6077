(** Half filling: the Hamiltonian is invariant under the exchange of particles and
    holes, and the averages that follow.  Proofs. *)
From Coq Require Import List Arith Lia Reals Lra Bool QArith Qabs Setoid Morphisms Ring Ncring Ncring_tac.
From Verif Require Import Scalars Res Matrix Sums SqMat CarAlgebra ModelBase ModelFermions SpecFock SpecHubbard OpsProofs
  FockProofs FermiOps SwapProofs HamProofs HamSym
  ModelGeometry ModelPhase ModelSymmetry SymBase ModelThermal SpecThermal ThermalBase ThermalBasis SymAverage FreeKms FreeFermi FreeThermal SpecFermiGas SpecHalf HalfModes.
Import ListNotations.
Section AnyRing.
  Context {T : Type} `{Rr : Ring T}.
  Lemma idem (d a : T) : a * d + d * a == 1 -> d * d == 0 -> (d * a) * (d * a) == d * a.
  Proof.
    intros A B. transitivity (d * (a * d + d * a) * a - d * d * (a * a)); [non_commutative_ring|]. rewrite A, B. non_commutative_ring.
  Qed.
End AnyRing.
Local Open Scope nat_scope.
Arguments Nat.pow : simpl never.
Notation half := (re (1 / 2)).


Lemma half_half : half +c half = c1.
Proof. apply injective_projections; cbn; lra. Qed.
Lemma ksum_two n (F : nat -> CR) : 2 <= n -> ksum n (fun k => if k <? 2 then F k else c0) = F 0 +c F 1.
Proof.
  intros Hn. destruct n as [|[|n]]; [lia|lia|]. clear Hn. induction n as [|n IH].
  - cbn [ksum Nat.ltb Nat.leb]. ring.
  - change (ksum (S (S (S n))) (fun k => if k <? 2 then F k else c0)) with (ksum (S (S n)) (fun k => if k <? 2 then F k else c0) +c (if S (S n) <? 2 then F (S (S n)) else c0)).
    rewrite IH. replace (S (S n) <? 2) with false by (symmetry; apply Nat.ltb_ge; lia). ring.
Qed.
Lemma ksum_pairs n (F : nat -> nat -> CR) :
  ksum n (fun i => ksum i (fun j => F i j +c F j i)) = ksum n (fun i => ksum n (fun j => if j =? i then c0 else F i j)).
Proof.
  rewrite (ksum_ext n (fun i => ksum n (fun j => if j =? i then c0 else F i j))
    (fun i => ksum n (fun j => if j <? i then F i j else c0) +c ksum n (fun j => if i <? j then F i j else c0))).
  - rewrite ksum_add. rewrite (ksum_swap n n (fun i j => if i <? j then F i j else c0)), <- ksum_add.
    apply ksum_ext. intros i Hi. rewrite !(ksum_le n i) by lia. rewrite <- ksum_add. reflexivity.
  - intros i Hi. rewrite <- ksum_add. apply ksum_ext. intros j Hj.
    destruct (Nat.eqb_spec j i) as [->|Ne]; [rewrite Nat.ltb_irrefl; ring|].
    destruct (Nat.ltb_spec j i), (Nat.ltb_spec i j); try lia; ring.
Qed.
Lemma Nn_idem nl p : p < nl -> seqv (N:=2 ^ nl) (smul (Nn nl p) (Nn nl p)) (Nn (K:=CR) nl p).
Proof.
  intros Hp. rewrite <- (Cd_Ca nl p Hp). apply (idem (Rr:=sq_ring (K:=CR) (N:=2 ^ nl))); [apply Ca_Cd_same; exact Hp | apply Cd_sq; exact Hp].
Qed.
Lemma ksum_S i (F : nat -> CR) : ksum (S i) F = ksum i F +c F i.
Proof. reflexivity. Qed.

Section Half.
  Variable f : fermions CR.
  Notation ns := (fg_nsites (f_geom f)).
  Notation m := (f_nspecies f).
  Notation nl := (nlog (f_sys f)).
  Notation N := (2 ^ nlog (f_sys f)).
  Notation q i k := (lsite (f_sys f) i k).
  Variable side : nat -> bool.
  Hypothesis bip : two_coloured f side.
  Hypothesis bal : balanced f.
  Hypothesis Hm : 2 <= m \/ (forall i, i < ns -> f_us f i = k0).

  Definition sg (b : bool) : CR := if b then c1 else kopp c1.
  (** The sign of mode [ns * k + i] is that of the site. *)
  Definition esg (p : nat) : CR := sg (side (p mod ns)).
  Lemma esg_isg p : isg (esg p).
  Proof using. clear. unfold esg, sg. destruct (side (p mod ns)); [left|right]; reflexivity. Qed.
  Lemma esg_q i k : i < ns -> k < m -> esg (q i k) = sg (side i).
  Proof using.
    clear bal bip Hm. intros Hi Hk. unfold esg. f_equal. f_equal. unfold lsite. change (s_nsites (f_sys f)) with ns.
    rewrite Nat.add_comm, Nat.mul_comm, Nat.mod_add by lia. apply Nat.mod_small. exact Hi.
  Qed.

  (** Deviation from half filling. *)
  Definition dev (p : nat) : sq CR N := ssub (Nn nl p) (sscale half s1).
  Definition HX (a b : nat) : CR :=
    ksum ns (fun i => ksum i (fun j => ksum m (fun k => kopp (teff f i j k *c hop f (q i k) (q j k) a b))))
     +c ksum ns (fun i => f_us f i *c smul (dev (q i 0)) (dev (q i 1)) a b)
     +c ksum ns (fun i => ksum i (fun j => ksum m (fun k => f_same f i j k *c smul (dev (q i k)) (dev (q j k)) a b))).
  Definition shift0 : CR :=
    ksum ns (fun i => half *c half *c f_us f i)
     +c ksum ns (fun i => ksum i (fun j => ksum m (fun k => half *c half *c f_same f i j k))).

  Lemma dev_dev p r a b : a < N -> b < N -> smul (dev p) (dev r) a b =
    smul (Nn nl p) (Nn nl r) a b -c half *c (Nn nl p a b +c Nn nl r a b) +c half *c half *c s1 (N:=N) a b.
  Proof using.
    clear. intros Ha Hb. unfold dev, ssub.
    rewrite smul_sub_r', !smul_sub_l'. unfold sscale. rewrite !smul_scale_r', !smul_scale_l'.
    assert (A : smul (N:=N) (Nn nl p) (s1 (K:=CR)) a b = Nn nl p a b) by (apply smul_1_r; assumption).
    assert (B : smul (N:=N) (s1 (K:=CR)) (Nn nl r) a b = Nn nl r a b) by (apply smul_1_l; assumption).
    assert (C : smul (N:=N) (s1 (K:=CR)) s1 a b = s1 (N:=N) a b) by (apply smul_1_l; assumption).
    rewrite A, B, C. ring.
  Qed.
  Lemma HS2_shift a b : a < N -> b < N -> HS2 f (teff f) a b = HX a b -c shift0 *c s1 (N:=N) a b.
  Proof using bal Hm.
    intros Ha Hb. set (d := s1 (N:=N) a b). set (nn := fun i k => Nn (K:=CR) nl (q i k) a b).
    set (ww := fun i j k => smul (N:=N) (Nn nl (q i k)) (Nn nl (q j k)) a b).
    (* the balance, summed against the densities *)
    assert (BAL : ksum ns (fun i => ksum m (fun k => mean_field f i k *c nn i k)) = c0).
    { apply ksum_zero. intros i Hi. apply ksum_zero. intros k Hk. rewrite bal by assumption. ring. }
    assert (SPL : ksum ns (fun i => ksum m (fun k => mean_field f i k *c nn i k)) =
      ksum ns (fun i => ksum m (fun k => f_pot f i k *c nn i k)) -c ksum ns (fun i => ksum m (fun k => f_mus f k *c nn i k))
      +c ksum ns (fun i => ksum m (fun k => f_same f i i k *c nn i k))
      +c ksum ns (fun i => ksum i (fun j => ksum m (fun k => half *c f_same f i j k *c (nn i k +c nn j k))))
      +c ksum ns (fun i => half *c f_us f i *c (nn i 0 +c nn i 1))).
    { assert (P1 : ksum ns (fun i => ksum i (fun j => ksum m (fun k => half *c f_same f i j k *c (nn i k +c nn j k)))) =
        ksum ns (fun i => ksum m (fun k => half *c ksum ns (fun j => if j =? i then c0 else same_pair f i j k) *c nn i k))).
      { transitivity (ksum ns (fun i => ksum i (fun j => ksum m (fun k => half *c same_pair f i j k *c nn i k) +c ksum m (fun k => half *c same_pair f j i k *c nn j k)))).
        - apply ksum_ext. intros i Hi. apply ksum_ext. intros j Hj. rewrite <- ksum_add. apply ksum_ext. intros k Hk.
          unfold same_pair. rewrite (proj2 (Nat.ltb_lt j i) Hj). replace (i <? j) with false by (symmetry; apply Nat.ltb_ge; lia). ring.
        - rewrite (ksum_pairs ns (fun i j => ksum m (fun k => half *c same_pair f i j k *c nn i k))).
          apply ksum_ext. intros i Hi.
          transitivity (ksum ns (fun j => ksum m (fun k => half *c (if j =? i then c0 else same_pair f i j k) *c nn i k))).
          + apply ksum_ext. intros j Hj. destruct (j =? i); [symmetry; apply ksum_zero; intros; ring | reflexivity].
          + rewrite ksum_swap. apply ksum_ext. intros k Hk. rewrite <- ksum_mul_l, <- ksum_mul_r. reflexivity. }
      assert (P2 : ksum ns (fun i => half *c f_us f i *c (nn i 0 +c nn i 1)) =
        ksum ns (fun i => ksum m (fun k => (if k <? 2 then half *c f_us f i else c0) *c nn i k))).
      { apply ksum_ext. intros i Hi. destruct Hm as [Hm'|Hm'].
        - rewrite (ksum_ext m _ (fun k => if k <? 2 then half *c f_us f i *c nn i k else c0)) by (intros k Hk; destruct (k <? 2); ring).
          rewrite ksum_two by exact Hm'. ring.
        - rewrite Hm' by exact Hi. rewrite ksum_zero; [ring|]. intros k Hk. destruct (k <? 2); ring. }
      rewrite P1, P2.
      assert (Sb : forall x y : CR, x -c y = x +c kopp y) by (intros; ring). rewrite Sb.
      rewrite <- ksum_opp. rewrite <- !ksum_add. apply ksum_ext. intros i Hi. rewrite <- ksum_opp. rewrite <- !ksum_add. apply ksum_ext. intros k Hk.
      unfold mean_field. change k0 with c0. ring. }
    assert (U1 : ksum ns (fun i => f_us f i *c smul (dev (q i 0)) (dev (q i 1)) a b) =
      ksum ns (fun i => f_us f i *c smul (Nn nl (q i 0)) (Nn nl (q i 1)) a b) -c ksum ns (fun i => half *c f_us f i *c (nn i 0 +c nn i 1))
      +c ksum ns (fun i => half *c half *c f_us f i) *c d).
    { assert (Sb : forall x y : CR, x -c y = x +c kopp y) by (intros; ring). rewrite Sb. rewrite <- ksum_opp, <- ksum_mul_r, <- !ksum_add.
      apply ksum_ext. intros i Hi. rewrite dev_dev by assumption. unfold nn, d. ring. }
    assert (V1 : ksum ns (fun i => ksum i (fun j => ksum m (fun k => f_same f i j k *c smul (dev (q i k)) (dev (q j k)) a b))) =
      ksum ns (fun i => ksum i (fun j => ksum m (fun k => f_same f i j k *c ww i j k)))
      -c ksum ns (fun i => ksum i (fun j => ksum m (fun k => half *c f_same f i j k *c (nn i k +c nn j k))))
      +c ksum ns (fun i => ksum i (fun j => ksum m (fun k => half *c half *c f_same f i j k))) *c d).
    { assert (Sb : forall x y : CR, x -c y = x +c kopp y) by (intros; ring). rewrite Sb.
      rewrite <- ksum_opp, <- ksum_mul_r, <- !ksum_add. apply ksum_ext. intros i Hi.
      rewrite <- ksum_opp, <- ksum_mul_r, <- !ksum_add. apply ksum_ext. intros j Hj.
      rewrite <- ksum_opp, <- ksum_mul_r, <- !ksum_add. apply ksum_ext. intros k Hk.
      rewrite dev_dev by assumption. unfold nn, ww, d. ring. }
    assert (V2 : ksum ns (fun i => ksum (S i) (fun j => ksum m (fun k => f_same f i j k *c ww i j k))) =
      ksum ns (fun i => ksum i (fun j => ksum m (fun k => f_same f i j k *c ww i j k))) +c ksum ns (fun i => ksum m (fun k => f_same f i i k *c nn i k))).
    { rewrite <- ksum_add. apply ksum_ext. intros i Hi. rewrite ksum_S. f_equal. apply ksum_ext. intros k Hk. f_equal. unfold ww, nn.
      apply Nn_idem; try assumption. apply q_lt; assumption. }
    unfold HS2, HX, shift0.
    change (ksum ns (fun i => ksum (S i) (fun j => ksum m (fun k => kmul (f_same f i j k) (smul (Nn nl (q i k)) (Nn nl (q j k)) a b)))))
      with (ksum ns (fun i => ksum (S i) (fun j => ksum m (fun k => f_same f i j k *c ww i j k)))).
    rewrite U1, V1, V2. rewrite SPL in BAL. clear SPL. unfold nn, d, ww in *.
    match type of BAL with ?p -c ?q +c ?r +c ?s +c ?t = _ =>
      set (bp := p) in *; set (bq := q) in *; set (br := r) in *; set (bs := s) in *; set (bt := t) in * end.
    change k0 with c0.
    match goal with |- ?l = ?r => transitivity (r +c (bp -c bq +c br +c bs +c bt)); [|rewrite BAL; ring] end.
    unfold bp, bq. ring.
  Qed.

  Section Exchange.
    Variable W : sq CR N.
    Hypothesis HW : swaps nl esg W.

    Lemma W_dev p : p < nl -> seqv (smul W (dev p)) (smul (sscale (kopp c1) (dev p)) W).
    Proof using HW.
      clear bal bip Hm. intros Hp a b Ha Hb. destruct HW as (_ & B & _). specialize (B p Hp a b Ha Hb).
      unfold sscale. rewrite smul_scale_l'. unfold dev, ssub in *. rewrite smul_sub_r', smul_sub_l'. rewrite smul_sub_l' in B.
      unfold sscale. rewrite smul_scale_r', smul_scale_l'.
      assert (A1 : smul (N:=N) W (s1 (K:=CR)) a b = W a b) by (apply smul_1_r; assumption).
      assert (B1 : smul (N:=N) (s1 (K:=CR)) W a b = W a b) by (apply smul_1_l; assumption).
      rewrite B1 in B. rewrite A1, B1, B. transitivity ((half +c half) *c W a b -c smul (N:=N) (Nn nl p) W a b -c half *c W a b); [rewrite half_half; ring | ring].
    Qed.
    Lemma W_devs p r : p < nl -> r < nl -> seqv (smul W (smul (dev p) (dev r))) (smul (smul (dev p) (dev r)) W).
    Proof using HW.
      clear bal bip Hm. intros Hp Hr. rewrite (T_prod f W (dev p) (dev r) _ _ (W_dev p Hp) (W_dev r Hr)).
      rewrite sscale_mul_l, sscale_mul_r, scale_scale. rewrite (scale_eq nl _ c1) by ring. rewrite scale_1. reflexivity.
    Qed.
    Lemma W_hop i j k : i < ns -> j < ns -> k < m -> side i <> side j ->
      seqv (smul W (hop f (q i k) (q j k))) (smul (hop f (q i k) (q j k)) W).
    Proof using HW.
      clear bal bip Hm. intros Hi Hj Hk Ne. destruct HW as (_ & _ & B).
      assert (Dq : q i k <> q j k) by (unfold lsite; intros X; apply Ne; f_equal; lia).
      assert (Qi : q i k < nl) by (apply q_lt; assumption). assert (Qj : q j k < nl) by (apply q_lt; assumption).
      assert (S1 : kopp (esg (q i k) *c esg (q j k)) = c1).
      { rewrite !esg_q by assumption. unfold sg. destruct (side i), (side j); try congruence; ring. }
      assert (S2 : kopp (esg (q j k) *c esg (q i k)) = c1) by (rewrite <- S1; ring).
      unfold hop. rewrite smul_add_r, !B by (assumption || congruence). rewrite S1, S2, !scale_1, smul_add_l.
      intros a b _ _. unfold sadd. ring.
    Qed.

    Lemma W_H : seqv (smul W (HS2 f (teff f))) (smul (HS2 f (teff f)) W).
    Proof using HW bip bal Hm.
      intros a b Ha Hb.
      transitivity (smul W (fun a b => HX a b -c shift0 *c s1 (N:=N) a b) a b).
      { apply smul_proper; try assumption; [reflexivity|]. intros x y Hx Hy. apply HS2_shift; assumption. }
      transitivity (smul (fun a b => HX a b -c shift0 *c s1 (N:=N) a b) W a b).
      2:{ apply smul_proper; try assumption; [|reflexivity]. intros x y Hx Hy. symmetry. apply HS2_shift; assumption. }
      rewrite smul_sub_r', smul_sub_l', smul_scale_r', smul_scale_l'.
      assert (A1 : smul (N:=N) W (s1 (K:=CR)) a b = W a b) by (apply smul_1_r; assumption).
      assert (B1 : smul (N:=N) (s1 (K:=CR)) W a b = W a b) by (apply smul_1_l; assumption).
      rewrite A1, B1. f_equal. unfold HX. rewrite !smul_add_r', !smul_add_l'. f_equal; [f_equal|].
      - rewrite smul_ksum_r, smul_ksum_l. apply ksum_ext. intros i Hi. rewrite smul_ksum_r, smul_ksum_l. apply ksum_ext. intros j Hj.
        rewrite smul_ksum_r, smul_ksum_l. apply ksum_ext. intros k Hk. rewrite smul_opp_r', smul_opp_l', smul_scale_r', smul_scale_l'.
        destruct (bool_dec (side i) (side j)) as [Eq|Ne].
        + assert (Z : teff f i j k = c0).
          { unfold teff. destruct (keq_dec (f_ts f i j k) k0) as [Z|Z]; [rewrite Z; change k0 with c0; ring|]. exfalso. apply (bip i j k ltac:(lia) Hk Z). exact Eq. }
          rewrite Z. ring.
        + do 2 f_equal. apply W_hop; try assumption. lia.
      - rewrite smul_ksum_r, smul_ksum_l. apply ksum_ext. intros i Hi. rewrite smul_scale_r', smul_scale_l'.
        destruct Hm as [Hm'|Hm']; [|rewrite Hm' by assumption; change k0 with c0; ring].
        f_equal. apply W_devs; try assumption; apply q_lt; lia.
      - rewrite smul_ksum_r, smul_ksum_l. apply ksum_ext. intros i Hi. rewrite smul_ksum_r, smul_ksum_l. apply ksum_ext. intros j Hj.
        rewrite smul_ksum_r, smul_ksum_l. apply ksum_ext. intros k Hk. rewrite smul_scale_r', smul_scale_l'.
        f_equal. apply W_devs; try assumption; apply q_lt; lia.
    Qed.
  End Exchange.

  Variables (H V : mat CR) (E : list R) (T : R).
  Hypothesis ham : createH f None = Ok H.
  Hypothesis basis : eigenbasis H V E.
  Hypothesis HT : T <> 0%R \/ (sorted_list E /\ apart gap13 E).

  Lemma H_is : nrow H = N /\ ncol H = N /\ seqv (N:=N) (ent H) (HS2 f (teff f)).
  Proof using Hm ham.
    destruct (createH_ok f None (nstates2 _ (f_two f)) Hm) as (H' & E' & SQ & VV).
    rewrite ham in E'. injection E' as <-. cbn [the_proj nrow meye] in *. rewrite (nstates2 _ (f_two f)) in *.
    split; [apply SQ | split; [apply SQ|]]. intros i j Hi Hj. rewrite VV, sand_eye by assumption. apply HS_HS2.
  Qed.
  Lemma V_is : nrow V = N.
  Proof using Hm ham basis. destruct H_is as (A & _ & _). destruct basis as ((_ & B & _) & _). congruence. Qed.
  Lemma N_pos : 0 < N.
  Proof using. clear. apply Nat.neq_0_lt_0, Nat.pow_nonzero. discriminate. Qed.

  Lemma ph_average (O O' : mat CR) : square N O -> square N O' ->
    (forall W, swaps nl esg W -> seqv (smul (ent O) W) (smul W (ent O'))) -> exp_vals_thermal V O E T = exp_vals_thermal V O' E T.
  Proof using bip bal Hm ham basis HT.
    intros S S' C. destruct (particle_hole nl esg esg_isg) as (W & HW). destruct H_is as (_ & _ & HH).
    apply (symmetric_average N H V E W basis V_is (proj1 HW)); [rewrite HH; apply W_H; exact HW | exact S | exact S' | apply C, HW | apply N_pos | exact HT].
  Qed.

  Theorem half_density i k A : i < ns -> k < m -> single_site_op (f_sys f) i k n_op Boson = Ok A -> exp_vals_thermal V A E T = Ok (1 / 2)%R.
  Proof using bip bal Hm ham basis HT.
    intros Hi Hk EA. destruct (single_ok (f_sys f) i k n_op Boson (f_two f) ltac:(discriminate) Hi Hk (sq2 _ _ _ _)) as (A' & EA' & SA & VA).
    rewrite EA in EA'. injection EA' as <-. change (seqv (N:=N) (ent A) (Nn nl (q i k))) in VA.
    pose (O' := Mat N N (fun x y => real 1 *c kb (x =? y) +c real (-1) *c ent A x y)).
    assert (SO : square N O') by (split; reflexivity).
    assert (X : exp_vals_thermal V A E T = exp_vals_thermal V O' E T).
    { apply ph_average; [exact SA | exact SO|]. intros W (_ & B & _). assert (Hq : q i k < nl) by (apply q_lt; assumption).
      assert (Z : seqv (N:=N) (ent O') (ssub s1 (Nn nl (q i k)))).
      { intros x y Hx Hy. unfold ssub, s1. cbn [O' ent]. rewrite VA by assumption. change (real 1) with c1.
        replace (real (-1)) with (kopp c1) by (apply injective_projections; cbn; ring). ring. }
      rewrite VA, Z. intros x y Hx Hy. specialize (B (q i k) Hq x y Hx Hy). unfold ssub in *. rewrite smul_sub_r'. rewrite smul_sub_l' in B.
      assert (A1 : smul (N:=N) W (s1 (K:=CR)) x y = W x y) by (apply smul_1_r; assumption).
      assert (B1 : smul (N:=N) (s1 (K:=CR)) W x y = W x y) by (apply smul_1_l; assumption).
      rewrite A1, B. rewrite B1. ring. }
    assert (Np : 0 < nrow V) by (rewrite V_is; apply N_pos).
    assert (SA' : square (nrow V) A) by (rewrite V_is; exact SA). assert (SO' : square (nrow V) O') by (rewrite V_is; exact SO).
    destruct (average_exists H V E T A basis Np SA' HT) as (x & Ex).
    pose proof (average_linear H V E T A O' 1 (-1) basis Np SA' SO' HT (fun i j _ _ => eq_refl) x Ex) as Y.
    rewrite <- X, Ex in Y. injection Y as Y. rewrite Ex. f_equal. lra.
  Qed.

  Theorem half_bond i j k A : i < ns -> j < ns -> k < m -> i <> j -> side i = side j ->
    two_site_op (f_sys f) i k j k cdag_op c_op Fermion = Ok A -> exp_vals_thermal V A E T = Ok 0%R.
  Proof using bip bal Hm ham basis HT.
    intros Hi Hj Hk Ne Sd EA.
    destruct (two_ok (f_sys f) i k j k cdag_op c_op Fermion (f_two f) ltac:(discriminate) Hi Hk Hj Hk (sq2 _ _ _ _) (sq2 _ _ _ _)) as (A' & EA' & SA & VA).
    rewrite EA in EA'. injection EA' as <-. change (seqv (N:=N) (ent A) (smul (Cd nl (q i k)) (Ca nl (q j k)))) in VA.
    assert (Dq : q i k <> q j k) by (unfold lsite; intros Z; apply Ne; lia).
    assert (Qi : q i k < nl) by (apply q_lt; assumption). assert (Qj : q j k < nl) by (apply q_lt; assumption).
    pose (B := madj A). pose (O' := Mat N N (fun x y => real 0 *c kb (x =? y) +c real (-1) *c ent B x y)).
    assert (SB : square N B) by (destruct SA; split; cbn; assumption). assert (SO : square N O') by (split; reflexivity).
    assert (VB : seqv (N:=N) (ent B) (smul (Cd nl (q j k)) (Ca nl (q i k)))).
    { transitivity (sadj (N:=N) (smul (Cd nl (q i k)) (Ca nl (q j k)))).
      - intros x y Hx Hy. cbn [B madj ent]. unfold sadj. rewrite VA by assumption. reflexivity.
      - rewrite sadj_mul, sadj_Ca, sadj_Cd by assumption. reflexivity. }
    assert (X : exp_vals_thermal V A E T = exp_vals_thermal V O' E T).
    { apply ph_average; [exact SA | exact SO|]. intros W (_ & _ & C).
      assert (Z : seqv (N:=N) (ent O') (sscale (kopp c1) (smul (Cd nl (q j k)) (Ca nl (q i k))))).
      { intros x y Hx Hy. unfold sscale. cbn [O' ent]. rewrite VB by assumption. change (real 0) with c0.
        replace (real (-1)) with (kopp c1) by (apply injective_projections; cbn; ring). ring. }
      rewrite VA, Z, sscale_mul_r, C by (assumption || congruence). rewrite <- sscale_mul_l, scale_scale.
      rewrite !esg_q by assumption. rewrite Sd. rewrite (scale_eq nl _ c1); [rewrite scale_1; reflexivity|]. unfold sg. destruct (side j); ring. }
    assert (Np : 0 < nrow V) by (rewrite V_is; apply N_pos).
    assert (SA' : square (nrow V) A) by (rewrite V_is; exact SA). assert (SB' : square (nrow V) B) by (rewrite V_is; exact SB). assert (SO' : square (nrow V) O') by (rewrite V_is; exact SO).
    destruct (average_exists H V E T B basis Np SB' HT) as (x & Ex).
    pose proof (average_linear H V E T B O' 0 (-1) basis Np SB' SO' HT (fun i j _ _ => eq_refl) x Ex) as Y.
    assert (AB : exp_vals_thermal V A E T = exp_vals_thermal V B E T) by (apply (average_adjoint H); assumption).
    rewrite <- X, AB, Ex in Y. injection Y as Y. rewrite AB, Ex. f_equal. lra.
  Qed.
End Half.
