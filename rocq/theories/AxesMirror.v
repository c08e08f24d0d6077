(** Mirror images of the axes, and the statements in terms of the functions of the package. *)
From Coq Require Import List Arith Lia Reals Lra Bool Permutation.
From Verif Require Convex SymAverage ChainSpectrum.
From Verif Require Import Scalars Res Matrix Sums SqMat SpecMat ModelBase ModelSpins SpecSpins Digits SpinOps SpinHam SpinApi SpinSym ModelGeometry ModelPhase ModelSymmetry SymBase ModelThermal SpecThermal ThermalBase ThermalBasis
  SpecSigns Signs SignsSpins Sectors Ladder SpecAxes Axes AxesTurn AxesRun.
Import ListNotations.
Local Open Scope R_scope.

Definition gm (a : axis) : R := match a with AY => -1 | _ => 1 end.
Lemma gm_sq a : gm a * gm a = 1. Proof. destruct a; cbn; lra. Qed.
Definition mir (s : spins CR) : spins CR := Spins (sp_geom s) (sp_two s) (sp_jx s) (sp_jy s) (sp_jz s) (sp_hx s) (fun i => real (-1) *c sp_hy s i) (sp_hz s).
Lemma mir_coupling s a : coupling_along (mir s) a = coupling_along s a. Proof. destruct a; reflexivity. Qed.
Lemma mir_field s a i : field_along (mir s) a i = real (gm a) *c field_along s a i. Proof. destruct a; cbn [field_along mir sp_hx sp_hy sp_hz gm]; [|reflexivity|]; change (real 1) with c1; ring. Qed.
Lemma conj_real (z : CR) : snd z = 0 -> conj z = z. Proof. intros H. apply injective_projections; cbn; [reflexivity | rewrite H; ring]. Qed.
Lemma conj_mul (x y : CR) : conj (x *c y) = conj x *c conj y. Proof. apply injective_projections; cbn; ring. Qed.
Lemma conj_add (x y : CR) : conj (x +c y) = conj x +c conj y. Proof. apply injective_projections; cbn; ring. Qed.
Lemma conj_sub (x y : CR) : conj (x -c y) = conj x -c conj y. Proof. apply injective_projections; cbn; ring. Qed.
Lemma conj_conj (x : CR) : conj (conj x) = x. Proof. apply injective_projections; cbn; ring. Qed.

Section Mirror.
  Variables (rt : nat -> CR) (n : nat).
  Hypothesis root : rt 1%nat = k1.
  Notation D := (2 ^ n)%nat.
  Notation Sm a := (ent (spin_along rt a)).
  Notation bar psi := (fun x : nat => conj (psi x)).
  Lemma conj_spin a r c : (r < 2)%nat -> (c < 2)%nat -> conj (Sm a r c) = real (gm a) *c Sm a r c.
  Proof using root.
    intros Hr Hc. rewrite (entry_ok rt root a r c Hr Hc). destruct a, r as [|[|r]], c as [|[|c]]; try lia; apply injective_projections; cbn; lra.
  Qed.
  Lemma conj_st i a psi x : conj (st n i (Sm a) psi x) = real (gm a) *c st n i (Sm a) (bar psi) x.
  Proof using root. pose proof (bit2 n i x). unfold st. rewrite conj_add, !conj_mul, !conj_spin by lia. ring. Qed.
  Lemma conj_pair i j a b psi x : (x < D)%nat -> conj (st n i (Sm a) (st n j (Sm b) psi) x) = real (gm a * gm b) *c st n i (Sm a) (st n j (Sm b) (bar psi)) x.
  Proof using root.
    intros Hx. rewrite conj_st, (st_ext n i (Sm a) _ (fun y => real (gm b) *c st n j (Sm b) (bar psi) y) x Hx) by (intros y _; apply conj_st). rewrite st_scale.
    replace (real (gm a * gm b)) with (real (gm a) *c real (gm b)) by (apply injective_projections; cbn; ring). ring.
  Qed.
  Lemma conj_carry s F F1 psi x : sp_two s = 1%nat -> sg_nsites (sp_geom s) = n -> real_spins s -> sp_createH rt s None = Ok F -> sp_createH rt (mir s) None = Ok F1 -> (x < D)%nat ->
    apply D F1 (bar psi) x = conj (apply D F psi x).
  Proof using root.
    intros half size (RJ & RH) made made1 Hx. rewrite size in RJ, RH. rewrite (ham_acts rt n s F psi x half size made Hx), (ham_acts rt n (mir s) F1 (bar psi) x half size made1 Hx).
    rewrite conj_sub, !ksum_conj. f_equal.
    - apply ksum_ext. intros i Hi. change (kconj ?z) with (conj z). rewrite ksum_conj. apply ksum_ext. intros j Hj. change (kconj ?z) with (conj z). rewrite conj_mul. f_equal; [apply injective_projections; cbn; ring|].
      unfold tri. rewrite !conj_add, !conj_mul, !conj_pair, !mir_coupling, !(conj_real (coupling_along s _ i j)) by (exact Hx || (apply RJ; lia)). rewrite !gm_sq. change (real 1) with c1. ring.
    - apply ksum_ext. intros i Hi. change (kconj ?z) with (conj z). unfold tri. rewrite !conj_add, !conj_mul, !conj_st, !mir_field, !(conj_real (field_along s _ i)) by (apply RH; exact Hi). ring.
  Qed.
  Definition Vbar (V : mat CR) : mat CR := Mat (nrow V) (ncol V) (fun x k => conj (ent V x k)).
  Lemma inner_bar m phi psi : inner m (bar phi) (bar psi) = conj (inner m phi psi).
  Proof using. unfold inner. rewrite ksum_conj. apply ksum_ext. intros x _. apply injective_projections; cbn; ring. Qed.
  Lemma inner_bar' m phi psi : inner m (bar phi) psi = conj (inner m phi (bar psi)).
  Proof using. rewrite <- inner_bar. apply inner_ext; [reflexivity|]. intros x _. symmetry. apply conj_conj. Qed.
  Lemma bar_basis s F F1 V E : sp_two s = 1%nat -> sg_nsites (sp_geom s) = n -> real_spins s -> sp_createH rt s None = Ok F -> sp_createH rt (mir s) None = Ok F1 -> eigenbasis F V E -> eigenbasis F1 (Vbar V) E.
  Proof using root.
    intros half size rs made made1 ((B1 & B2 & B3 & B4) & B5 & B6). destruct (full_size rt n s F half size made) as (A1 & A2). destruct (full_size rt n (mir s) F1 half size made1) as (A3 & A4).
    assert (RV : nrow V = D) by congruence. split; [|split].
    - unfold eigen. cbn [Vbar nrow ncol]. repeat split; try congruence. intros x k Hx Hk. change (col (Vbar V) k) with (bar (col V k)). rewrite RV in Hx |- *.
      rewrite (conj_carry s F F1 (col V k) x half size rs made made1 Hx). rewrite RV in B4. rewrite (B4 x k Hx Hk). cbn [Vbar ent]. generalize (ent V x k). intros z. apply injective_projections; cbn; ring.
    - intros k l Hk Hl. cbn [Vbar nrow ncol] in *. change (inner (nrow V) (bar (col V k)) (bar (col V l)) = kb (k =? l)%nat). rewrite inner_bar, (B5 k l Hk Hl). destruct (k =? l)%nat; apply injective_projections; cbn; ring.
    - intros psi x Hx. cbn [Vbar nrow ncol] in *. rewrite <- (conj_conj (psi x)). rewrite (B6 (bar psi) x Hx), ksum_conj. apply ksum_ext. intros k Hk. change (kconj ?z) with (conj z). rewrite conj_mul. change (col (Vbar V) k) with (bar (col V k)). rewrite inner_bar'. reflexivity.
  Qed.
  Lemma bar_carries V : nrow V = D -> carries rt n (fun a => a) (fun _ => gm) V (Vbar V).
  Proof using root.
    intros RV k Hk. change (col (Vbar V) k) with (bar (col V k)). split.
    - intros i a Hi. rewrite inner_bar', (inner_ext D (col V k) (col V k) _ (fun x => real (gm a) *c st n i (Sm a) (col V k) x)).
      + rewrite inner_scale. cbn. ring.
      + reflexivity.
      + intros x Hx. change (conj (st n i (Sm a) (bar (col V k)) x) = real (gm a) *c st n i (Sm a) (col V k) x). rewrite conj_st. f_equal. apply st_ext; [exact Hx|]. intros y _. apply conj_conj.
    - intros i j a b Hi Hj N. rewrite inner_bar', (inner_ext D (col V k) (col V k) _ (fun x => real (gm a * gm b) *c st n i (Sm a) (st n j (Sm b) (col V k)) x)).
      + rewrite inner_scale. cbn. ring.
      + reflexivity.
      + intros x Hx. change (conj (st n i (Sm a) (st n j (Sm b) (bar (col V k))) x) = real (gm a * gm b) *c st n i (Sm a) (st n j (Sm b) (col V k)) x). rewrite conj_pair by exact Hx. f_equal. apply st_ext; [exact Hx|]. intros y Hy. apply st_ext; [exact Hy|]. intros z _. apply conj_conj.
  Qed.
  Lemma carries_after p g g' V V1 W : ncol V1 = ncol V -> carries rt n (fun a => a) (fun _ => gm) V V1 -> carries rt n p g' V1 W -> (forall i a, g i a = gm a * g' i a) -> carries rt n p g V W.
  Proof using.
    clear root. intros NC C1 C2 X k Hk. destruct (C1 k Hk) as (P1 & P2). destruct (C2 k ltac:(congruence)) as (Q1 & Q2). split.
    - intros i a Hi. rewrite (Q1 i a Hi), (P1 i a Hi), X. ring.
    - intros i j a b Hi Hj N. rewrite (Q2 i j a b Hi Hj N), (P2 i j a b Hi Hj N), !X. ring.
  Qed.
  Theorem mirrored_all s s' p g F F' V E : sp_two s = 1%nat -> sg_nsites (sp_geom s) = n -> redescribed p g s s' -> real_spins s -> (forall i, (i < n)%nat -> mirrored p (g i)) ->
    sp_createH rt s None = Ok F -> sp_createH rt s' None = Ok F' -> eigenbasis F V E -> exists W, eigenbasis F' W E /\ ncol W = ncol V /\ carries rt n p g V W.
  Proof using root.
    intros half size rd rs mi made made' basis. destruct (full_exists rt (mir s) half) as (F1 & made1).
    pose proof (bar_basis s F F1 V E half size rs made made1 basis) as basis1.
    destruct (turned_all rt n (mir s) s' p (fun i a => g i a * gm a) F1 F' (Vbar V) E root half size) as (W & W1 & W2 & W3).
    - destruct rd as (R1 & R2 & R3 & R4). split; [exact R1|]. split; [exact R2|]. split.
      + intros i j a Hij. rewrite mir_coupling, (R3 i j a Hij). f_equal. f_equal. transitivity (g i a * g j a * (gm a * gm a)); [rewrite gm_sq; ring | ring].
      + intros i a Hi. rewrite mir_field, (R4 i a Hi). generalize (field_along s a i), (g i a). intros z y. destruct a; apply injective_projections; cbn; ring.
    - intros i Hi. destruct (mi i Hi) as (S1 & S2). split.
      + intros a. destruct (S1 a) as [->| ->], a; cbn; lra.
      + destruct S2 as [(O & P)|(O & P)]; [left | right]; (split; [exact O|]); cbn [gm]; lra.
    - exact made1.
    - exact made'.
    - exact basis1.
    - exists W. split; [exact W1|]. split; [rewrite W2; reflexivity|]. apply (carries_after p g (fun i a => g i a * gm a) V (Vbar V) W eq_refl).
      + apply bar_carries. destruct (full_size rt n s F half size made) as (A & _). destruct basis as ((_ & B & _) & _). congruence.
      + exact W3.
      + intros i a. transitivity (g i a * (gm a * gm a)); [rewrite gm_sq; ring | ring].
  Qed.
End Mirror.
