(** Spins 1/2 without a field along y have no moment along y in equilibrium. *)
From Coq Require Import List Arith Lia Reals Lra ZArith QArith Bool.
From Verif Require Import Scalars Res Matrix Sums SqMat SpecMat ModelBase ModelSpins SpecSpins Digits SpinAlg SpinOps SpinHam SpinSym SpinApi ModelGeometry ModelPhase ModelSymmetry SymBase
  ModelThermal SpecThermal ThermalBase ThermalBasis SpecReversal Reversal.
Import ListNotations.
Local Open Scope R_scope.

Lemma r_add (x y : CR) : snd x = 0 -> snd y = 0 -> snd (x +c y) = 0. Proof. destruct x, y. cbn. lra. Qed.
Lemma r_sub (x y : CR) : snd x = 0 -> snd y = 0 -> snd (x -c y) = 0. Proof. destruct x, y. cbn. lra. Qed.
Lemma r_mul (x y : CR) : snd x = 0 -> snd y = 0 -> snd (x *c y) = 0. Proof. destruct x, y. cbn. intros -> ->. ring. Qed.
Lemma i_mul (x y : CR) : fst x = 0 -> fst y = 0 -> snd (x *c y) = 0. Proof. destruct x, y. cbn. intros -> ->. ring. Qed.
Lemma r_sum n (g : nat -> CR) : (forall k, (k < n)%nat -> snd (g k) = 0) -> snd (ksum n g) = 0.
Proof. induction n as [|n IH]; intros X; [reflexivity|]. cbn [ksum]. apply r_add; [apply IH; intros k Hk; apply X; lia | apply X; lia]. Qed.

Section Spins.
  Variables (rt : nat -> CR) (s : spins CR) (H V : mat CR) (E : list R).
  Notation n := (sg_nsites (sp_geom s)).
  Hypothesis root : rt 1%nat = k1.
  Hypothesis half : sp_two s = 1%nat.
  Hypothesis ny : no_y_field s.
  Hypothesis EH : sp_createH rt s None = Ok H.
  Lemma x_real p q : (p < 2)%nat -> (q < 2)%nat -> snd (ent (sx_op rt 1) p q) = 0.
  Proof using root. intros Hp Hq. rewrite (half_x rt root p q Hp Hq). unfold sigma_x. destruct (p =? q)%nat; cbn; ring. Qed.
  Lemma z_real p q : (p < 2)%nat -> (q < 2)%nat -> snd (ent (sz_op (K:=CR) 1) p q) = 0.
  Proof using. intros Hp Hq. rewrite (half_z p q Hp Hq). unfold sigma_z. destruct (p =? q)%nat, (p =? 0)%nat; cbn; ring. Qed.
  Lemma y_imag p q : (p < 2)%nat -> (q < 2)%nat -> fst (ent (sy_op rt 1) p q) = 0.
  Proof using root. intros Hp Hq. rewrite (half_y rt root p q Hp Hq). unfold sigma_y. destruct (p =? q)%nat, (p =? 0)%nat; cbn; ring. Qed.
  Lemma dig p a : (digit 2 n p a < 2)%nat. Proof using. clear. apply digit_lt. lia. Qed.
  Lemma spins_real : nrow H = (2 ^ n)%nat /\ ncol H = (2 ^ n)%nat /\ real_op (2 ^ n) H.
  Proof using root half ny EH.
    destruct (createH_full rt s (half_fields s half)) as (H' & E' & (S1 & S2) & W). rewrite EH in E'. injection E' as <-. rewrite half in S1, S2, W. cbn [Nat.add] in S1, S2, W. split; [exact S1|]. split; [exact S2|].
    intros a b Ha Hb. rewrite (W a b Ha Hb). unfold H_elem, spin_elem. rewrite half. cbn [Nat.add]. destruct ny as (J & F).
    assert (PR : forall i j A, (forall p q, (p < 2)%nat -> (q < 2)%nat -> snd (A p q) = 0) \/ (forall p q, (p < 2)%nat -> (q < 2)%nat -> fst (A p q) = 0) -> snd (pair_elem (K:=CR) 2 n i j A A a b) = 0).
    { intros i j A C. unfold pair_elem. destruct (agree_off 2 n [i; j] a b); [|reflexivity]. destruct C as [C|C]; [apply r_mul | apply i_mul]; apply C; apply dig. }
    assert (SI : forall i A, (forall p q, (p < 2)%nat -> (q < 2)%nat -> snd (A p q) = 0) -> snd (site_elem (K:=CR) 2 n i A a b) = 0).
    { intros i A C. unfold site_elem. destruct (agree_off 2 n [i] a b); [|reflexivity]. apply C; apply dig. }
    assert (K2 : snd (kofnat (K:=CR) 2) = 0) by (rewrite !kofnat_S, kofnat_0; cbn; ring).
    apply r_sub.
    - apply r_sum. intros i Hi. apply r_sum. intros j Hj. destruct (J i j ltac:(lia)) as (J1 & J2 & J3). apply r_mul; [exact K2|].
      apply r_add; [apply r_add|]; (apply r_mul; [assumption|]); apply PR; [left; apply x_real | right; apply y_imag | left; apply z_real].
    - apply r_sum. intros i Hi. destruct (F i Hi) as (F1 & F2 & F3). apply r_mul; [reflexivity|]. apply r_add; [apply r_add|]; [apply r_mul; [assumption | apply SI, x_real] | rewrite F2; cbn; ring | apply r_mul; [assumption | apply SI, z_real]].
  Qed.
  Lemma y_site i Y : (i < n)%nat -> single_site_op (sp_sys s) i 0 (sy_op rt 1) Boson = Ok Y -> nrow Y = (2 ^ n)%nat /\ ncol Y = (2 ^ n)%nat /\ imaginary_op (2 ^ n) Y.
  Proof using root half.
    intros Hi EY. destruct (single_elem 2 ltac:(lia) n i (sy_op rt 1) ltac:(split; reflexivity) Hi (or_introl eq_refl)) as (T & ET & (S1 & S2) & W).
    rewrite sp_sys_dsys, half in EY. cbn [Nat.add] in EY. rewrite EY in ET. injection ET as <-. split; [exact S1|]. split; [exact S2|]. intros a b Ha Hb. rewrite (W a b Ha Hb). unfold site_elem. destruct (agree_off 2 n [i] a b); [|reflexivity]. apply y_imag; apply dig.
  Qed.
  Hypothesis basis : eigenbasis H V E.
  Theorem no_moment i Y T x : (i < n)%nat -> single_site_op (sp_sys s) i 0 (sy_op rt 1) Boson = Ok Y -> T <> 0 \/ (sorted_list E /\ apart gap13 E) -> exp_vals_thermal V Y E T = Ok x -> x = 0.
  Proof using root half ny EH basis.
    intros Hi EY AL EX. destruct spins_real as (H1 & H2 & RH). destruct (y_site i Y Hi EY) as (Y1 & Y2 & IY). assert (VN : nrow V = (2 ^ n)%nat) by (assert (HN : nrow H = nrow V) by apply basis; congruence).
    apply (thermal_imaginary H V E Y T x basis); rewrite ?VN; try assumption. intros Z. pose proof (basis_empty H V E basis Z) as Q. rewrite VN in Q. apply Nat.pow_nonzero in Q; [exact Q | lia].
  Qed.
End Spins.
