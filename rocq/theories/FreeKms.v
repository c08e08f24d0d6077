(** Thermal averages of operators with a definite energy: if [H A - A H = e A]
    then <A X> = exp(-e/T) <X A>. *)
From Coq Require Import List Arith Lia Reals Lra Bool.
From Verif Require Import Scalars Res Matrix Sums SqMat ModelGeometry ModelPhase ModelSymmetry SymBase ModelBase ModelThermal SpecThermal ThermalBase ThermalBasis.
Import ListNotations.
Local Open Scope R_scope.

Section Kms.
  Variables (N : nat) (H V : mat CR) (E : list R) (T : R).
  Hypothesis rows : nrow V = N.
  Hypothesis basis : eigenbasis H V E.
  Hypothesis T0 : T <> 0.
  Notation sqm := (sq CR N).

  (** Matrix elements between eigenvectors. *)
  Definition el (X : sqm) (a b : nat) : CR := inner N (col V a) (fun i => ksum N (fun j => X i j *c ent V j b)).
  Definition wgt (a : nat) : R := exp (- nth a E 0 / T).
  Definition Zp : R := total (fun a => wgt a) (seq 0 (length E)).
  Definition omega (X : sqm) : CR := ksum (length E) (fun a => real (wgt a) *c el X a a).

  Lemma cols : ncol V = length E. Proof. apply basis. Qed.

  Lemma el_ext X Y a b : seqv X Y -> el X a b = el Y a b.
  Proof.
    intros XY. unfold el. apply inner_ext; [reflexivity|]. intros i Hi. apply ksum_ext. intros j Hj. rewrite XY by assumption. reflexivity.
  Qed.
  Lemma el_add X Y a b : el (sadd X Y) a b = el X a b +c el Y a b.
  Proof.
    unfold el, inner. rewrite <- ksum_add. apply ksum_ext. intros i Hi.
    rewrite <- (ksum_mul_l N _ (conj (col V a i))), <- (ksum_mul_l N _ (conj (col V a i))), <- (ksum_mul_l N _ (conj (col V a i))), <- ksum_add.
    apply ksum_ext. intros j Hj. unfold sadd. ring.
  Qed.
  Lemma el_scale c X a b : el (sscale c X) a b = c *c el X a b.
  Proof.
    unfold el. rewrite <- inner_scale. apply inner_ext; [reflexivity|]. intros i Hi. rewrite <- ksum_mul_l.
    apply ksum_ext. intros j Hj. unfold sscale. ring.
  Qed.
  Lemma el_one a b : (a < length E)%nat -> (b < length E)%nat -> el s1 a b = kb (a =? b)%nat.
  Proof.
    intros Ha Hb. destruct basis as (_ & ON & _). rewrite <- cols in Ha, Hb. rewrite <- (ON a b Ha Hb), rows.
    unfold el. apply inner_ext; [reflexivity|]. intros i Hi. unfold s1, col.
    rewrite (ksum_single N i); [rewrite Nat.eqb_refl; cbn [kb]; ring | exact Hi |].
    intros j Hj Ne. rewrite (proj2 (Nat.eqb_neq i j)) by congruence. cbn [kb]. ring.
  Qed.
  Lemma el_mul X Y a b : el (smul X Y) a b = ksum (length E) (fun c => el X a c *c el Y c b).
  Proof.
    destruct basis as (_ & _ & CB). unfold el at 1.
    transitivity (inner N (col V a) (fun i => ksum (length E) (fun c => (fun i => ksum N (fun k => X i k *c ent V k c)) i *c el Y c b))).
    - apply inner_ext; [reflexivity|]. intros i Hi. unfold smul.
      transitivity (ksum N (fun k => X i k *c ksum N (fun j => Y k j *c ent V j b))).
      + rewrite (ksum_ext N _ (fun j => ksum N (fun k => X i k *c (Y k j *c ent V j b)))).
        * rewrite ksum_swap. apply ksum_ext. intros k Hk. apply ksum_mul_l.
        * intros j Hj. rewrite <- ksum_mul_r. apply ksum_ext. intros k Hk. ring.
      + rewrite (ksum_ext N _ (fun k => ksum (length E) (fun c => X i k *c ent V k c *c el Y c b))).
        * rewrite ksum_swap. apply ksum_ext. intros c Hc. apply (ksum_mul_r N).
        * intros k Hk. rewrite (CB (fun k => ksum N (fun j => Y k j *c ent V j b)) k) by (rewrite rows; exact Hk).
          rewrite cols, rows, <- ksum_mul_l. apply ksum_ext. intros c Hc. unfold el. ring.
    - rewrite (inner_sum N (length E) (col V a) (fun c i => ksum N (fun k => X i k *c ent V k c)) (fun c => el Y c b)).
      apply ksum_ext. intros c Hc. reflexivity.
  Qed.
  Lemma el_H a b : (a < length E)%nat -> (b < length E)%nat -> el (ent H) a b = real (nth a E 0) *c kb (a =? b)%nat.
  Proof.
    intros Ha Hb. destruct basis as ((_ & _ & _ & EV) & ON & _). unfold orthonormal in ON. rewrite rows in EV, ON. rewrite <- cols in Ha, Hb.
    unfold el. rewrite (inner_ext N (col V a) (col V a) _ (fun i => real (nth b E 0) *c col V b i)).
    - rewrite inner_scale, ON by assumption. destruct (Nat.eqb_spec a b) as [->|]; [reflexivity|]. cbn [kb]. ring.
    - reflexivity.
    - intros i Hi. apply EV; assumption.
  Qed.
  Lemma el_HX X a b : (a < length E)%nat -> el (smul (ent H) X) a b = real (nth a E 0) *c el X a b.
  Proof.
    intros Ha. rewrite el_mul, (ksum_single (length E) a) by (try exact Ha; intros c Hc Ne;
      rewrite el_H by assumption; rewrite (proj2 (Nat.eqb_neq a c)) by congruence; cbn [kb]; ring).
    rewrite el_H by assumption. rewrite Nat.eqb_refl. cbn [kb]. ring.
  Qed.
  Lemma el_XH X a b : (a < length E)%nat -> (b < length E)%nat -> el (smul X (ent H)) a b = real (nth b E 0) *c el X a b.
  Proof.
    intros Ha Hb. rewrite el_mul, (ksum_single (length E) b) by (try exact Hb; intros c Hc Ne;
      rewrite el_H by assumption; rewrite (proj2 (Nat.eqb_neq c b)) by congruence; cbn [kb]; ring).
    rewrite el_H by assumption. rewrite Nat.eqb_refl. cbn [kb]. ring.
  Qed.

  Lemma omega_ext X Y : seqv X Y -> omega X = omega Y.
  Proof. intros XY. apply ksum_ext. intros a Ha. rewrite (el_ext X Y) by exact XY. reflexivity. Qed.
  Lemma omega_add X Y : omega (sadd X Y) = omega X +c omega Y.
  Proof. unfold omega. rewrite <- ksum_add. apply ksum_ext. intros a Ha. rewrite el_add. ring. Qed.
  Lemma omega_scale c X : omega (sscale c X) = c *c omega X.
  Proof. unfold omega. rewrite <- ksum_mul_l. apply ksum_ext. intros a Ha. rewrite el_scale. ring. Qed.
  Lemma omega_zero : omega s0 = c0.
  Proof.
    rewrite (omega_ext s0 (sscale c0 s0)); [rewrite omega_scale; ring|]. intros i j Hi Hj. unfold sscale, s0. ring.
  Qed.
  Lemma omega_sum n (F : nat -> sqm) : omega (fun i j => ksum n (fun k => F k i j)) = ksum n (fun k => omega (F k)).
  Proof.
    induction n as [|n IH]; cbn [ksum]; [apply omega_zero|]. rewrite <- IH, <- omega_add. apply omega_ext. intros i j Hi Hj. reflexivity.
  Qed.
  Lemma real_total n g : ksum n (fun a => real (g a)) = real (total g (seq 0 n)).
  Proof.
    induction n as [|n IH]; [reflexivity|]. rewrite seq_S, total_app. cbn [ksum Nat.add]. rewrite IH, total_cons, total_nil.
    apply injective_projections; cbn; ring.
  Qed.
  Lemma omega_one : omega s1 = real Zp.
  Proof.
    unfold omega, Zp. change (fun a => wgt a) with wgt. rewrite <- (real_total (length E) wgt). apply ksum_ext. intros a Ha. rewrite el_one by assumption.
    rewrite Nat.eqb_refl. cbn [kb]. ring.
  Qed.
  Lemma Zp_pos : E <> [] -> 0 < Zp.
  Proof using.
    clear basis rows T0.
    intros Ne. unfold Zp. assert (P : forall l, l <> [] -> 0 < total (fun a => wgt a) l).
    { induction l as [|x l IH]; [congruence|]. intros _. rewrite total_cons. destruct l as [|y l].
      - rewrite total_nil. unfold wgt. pose proof (exp_pos (- nth x E 0 / T)). lra.
      - pose proof (exp_pos (- nth x E 0 / T)). unfold wgt at 1. assert (0 < total (fun a => wgt a) (y :: l)) by (apply IH; discriminate). lra. }
    apply P. destruct E; [congruence | discriminate].
  Qed.

  (** The exchange rule. *)
  Lemma exchange (A X : sqm) (e : R) : seqv (ssub (smul (ent H) A) (smul A (ent H))) (sscale (real e) A) ->
    omega (smul A X) = real (exp (- e / T)) *c omega (smul X A).
  Proof.
    intros HA. unfold omega.
    rewrite (ksum_ext (length E) _ (fun a => ksum (length E) (fun c => real (exp (- e / T)) *c (real (wgt c) *c (el A a c *c el X c a))))).
    - rewrite ksum_swap, <- ksum_mul_l. apply ksum_ext. intros c Hc. rewrite el_mul, <- !ksum_mul_l.
      apply ksum_ext. intros a Ha. ring.
    - intros a Ha. rewrite el_mul, <- ksum_mul_l. apply ksum_ext. intros c Hc.
      assert (Q : el (ssub (smul (ent H) A) (smul A (ent H))) a c = el (sscale (real e) A) a c) by (apply el_ext; exact HA).
      rewrite el_scale in Q.
      rewrite (el_ext _ (sadd (smul (ent H) A) (sscale (kopp c1) (smul A (ent H))))) in Q
        by (intros i j Hi Hj; unfold ssub, sadd, sscale; ring).
      rewrite el_add, el_scale, el_HX, el_XH in Q by assumption.
      destruct (cr_eq_dec (el A a c) (0, 0)) as [Z|Z].
      + rewrite Z. change ((0, 0) : CR) with c0. ring.
      + assert (EE : nth a E 0 = nth c E 0 + e).
        { apply real_inj. apply (mul_cancel (el A a c)); [exact Z|].
          rewrite real_add.
          transitivity (real (nth a E 0) *c el A a c +c kopp c1 *c (real (nth c E 0) *c el A a c) +c real (nth c E 0) *c el A a c); [ring|].
          rewrite Q. ring. }
        assert (W : wgt a = exp (- e / T) * wgt c).
        { unfold wgt. rewrite EE, <- exp_plus. f_equal. field. exact T0. }
        rewrite W, real_mul. ring.
  Qed.

  (** The average that the code reports. *)
  Lemma boltzmann_omega O : nrow O = N -> ncol O = N -> fst (omega (ent O)) / Zp = boltzmann T (levels E V O).
  Proof.
    intros R1 R2. unfold boltzmann, levels. f_equal.
    - unfold omega. rewrite fst_ksum, rsum_total.
      assert (G : forall l, total (fun i => fst (real (wgt i) *c el (ent O) i i)) l =
        total (fun p => exp (- energy p / T) * value p) (map (fun k => (nth k E 0, expect (nrow V) O (col V k))) l)).
      { induction l as [|a l IH]; [reflexivity|]. cbn [map]. rewrite !total_cons, IH. f_equal.
        unfold energy, value. cbn [fst snd]. unfold expect, apply. rewrite rows. unfold el, wgt, col. cbn [real fst snd].
        match goal with |- fst (real ?a *c ?b) = _ => cbn [kmul CR_StarRing cr_mul real fst snd] end. unfold cr_mul, real. cbn [fst snd]. ring. }
      apply G.
    - unfold Zp. assert (G : forall l, total (fun a => wgt a) l =
        total (fun p => exp (- energy p / T)) (map (fun k => (nth k E 0, expect (nrow V) O (col V k))) l)).
      { induction l as [|a l IH]; [reflexivity|]. cbn [map]. rewrite !total_cons, IH. reflexivity. }
      apply G.
  Qed.
End Kms.
