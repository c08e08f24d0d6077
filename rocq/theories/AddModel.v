(** The Hamiltonian of spins whose couplings depend on the later site only. *)
From Coq Require Import List Arith Lia Reals Lra QArith Bool Ring Permutation.
From Verif Require Import Scalars Res Sums Matrix SpecMat ModelBase ModelSpins SpecSpins Digits SpinOps SpinAlg SpinHam SpinApi ModelGeometry ModelPhase ModelSymmetry SymBase SpecThermal ThermalBase ThermalBasis ThermoMu
  ModelFourSpins SpecAddition Addition AddTop AddStep AddFamily.
Import ListNotations.
Local Open Scope R_scope.
Arguments Nat.div : simpl never.
Arguments Nat.modulo : simpl never.
Arguments Nat.pow : simpl never.

Lemma forallb_ext_in {A} (f g : A -> bool) l : (forall x, In x l -> f x = g x) -> forallb f l = forallb g l.
Proof. intros H. induction l as [|a l IH]; [reflexivity|]. cbn. rewrite H by (left; reflexivity). rewrite IH; [reflexivity|]. intros x Hx. apply H. right. exact Hx. Qed.

(** ** Digits, the last one split off *)
Section Last.
  Local Open Scope nat_scope.
  Variable d : nat.
  Hypothesis d0 : d <> 0.
  Lemma digit_front n p k : p < n -> digit d (S n) p k = digit d n p (k / d).
  Proof using d0.
    intros Hp. unfold digit. replace (S n - 1 - p) with (S (n - 1 - p)) by lia. rewrite Nat.pow_succ_r', Nat.div_div; [reflexivity|exact d0|].
    apply Nat.pow_nonzero, d0.
  Qed.
  Lemma digit_last n k : digit d (S n) n k = k mod d.
  Proof using. clear d0. unfold digit. replace (S n - 1 - n) with 0 by lia. rewrite Nat.pow_0_r, Nat.div_1_r. reflexivity. Qed.
  Lemma agree_front n L a b : (forall p, In p L -> p < n) -> agree_off d (S n) L a b = agree_off d n L (a / d) (b / d) && (a mod d =? b mod d).
  Proof using d0.
    intros HL. unfold agree_off. rewrite seq_S, forallb_app. cbn [forallb Nat.add]. rewrite andb_true_r, !digit_last. f_equal.
    - apply forallb_ext_in. intros p Hp. apply in_seq in Hp. rewrite !digit_front by lia. reflexivity.
    - destruct (existsb (Nat.eqb n) L) eqn:E; [|reflexivity]. apply mem_true in E. apply HL in E. lia.
  Qed.
  Lemma agree_last n L a b : (forall p, In p L -> p < n) -> agree_off d (S n) (n :: L) a b = agree_off d n L (a / d) (b / d).
  Proof using d0.
    intros HL. unfold agree_off. rewrite seq_S, forallb_app. cbn [forallb Nat.add existsb]. rewrite Nat.eqb_refl. cbn [orb andb]. rewrite andb_true_r.
    apply forallb_ext_in. intros p Hp. apply in_seq in Hp. rewrite !digit_front by lia. rewrite (proj2 (Nat.eqb_neq p n)) by lia. reflexivity.
  Qed.
  Lemma half_bound n a : a < d ^ S n -> a / d < d ^ n.
  Proof using d0. intros H. apply Nat.div_lt_upper_bound; [exact d0|]. rewrite <- Nat.pow_succ_r'. exact H. Qed.
End Last.

Section Elems.
  Variable d : nat.
  Hypothesis d0 : d <> 0%nat.
  Lemma site_front n i (A : kern) a b : (i < n)%nat -> site_elem d (S n) i A a b = cross d (site_elem d n i A) one_k a b.
  Proof using d0.
    intros Hi. unfold site_elem, cross, one_k. rewrite agree_front by (exact d0 || (intros p [<-|[]]; exact Hi)). rewrite !digit_front by assumption.
    destruct (agree_off d n [i] _ _), (_ =? _)%nat; cbn [andb kb]; ring.
  Qed.
  Lemma site_last n (A : kern) a b : (a < d ^ S n)%nat -> (b < d ^ S n)%nat -> site_elem d (S n) n A a b = cross d one_k A a b.
  Proof using d0.
    intros Ha Hb. unfold site_elem, cross, one_k. rewrite agree_last by (exact d0 || (intros p [])). rewrite !digit_last, agree_off_nil by (try exact d0; apply half_bound; assumption).
    destruct (_ =? _)%nat; cbn [kb]; ring.
  Qed.
  Lemma pair_front n i j (A B : kern) a b : (i < n)%nat -> (j < n)%nat -> pair_elem d (S n) i j A B a b = cross d (pair_elem d n i j A B) one_k a b.
  Proof using d0.
    intros Hi Hj. unfold pair_elem, cross, one_k. rewrite agree_front by (exact d0 || (intros p [<-|[<-|[]]]; assumption)). rewrite !digit_front by assumption.
    destruct (agree_off d n [i; j] _ _), (_ =? _)%nat; cbn [andb kb]; ring.
  Qed.
  Lemma pair_last n j (A B : kern) a b : (j < n)%nat -> pair_elem d (S n) n j A B a b = cross d (site_elem d n j B) A a b.
  Proof using d0.
    intros Hj. unfold pair_elem, site_elem, cross. rewrite agree_last by (exact d0 || (intros p [<-|[]]; assumption)). rewrite !digit_last, !digit_front by assumption.
    destruct (agree_off d n [j] _ _); ring.
  Qed.
End Elems.

Section Ham.
  Variable s : nat.
  Notation P := (ent (splus_op np_sqrt s)).
  Notation M := (ent (sminus_op np_sqrt s)).
  Notation SX := (ent (sx_op np_sqrt s)).
  Notation SY := (ent (sy_op np_sqrt s)).
  Notation SZ := (ent (sz_op (K:=CR) s)).
  Lemma P_sL i j : P i j = sL s i j.
  Proof using.
    rewrite P_ent. unfold sL. rewrite Nat.add_1_r. destruct (Nat.eqb_spec i (S j)) as [->|]; cbn [kb]; [|ring].
    unfold np_sqrt, gf. cbn [Nat.sub]. rewrite ?Nat.add_1_r. ring.
  Qed.
  Lemma M_sU i j : M i j = sU s i j.
  Proof using.
    rewrite M_ent. unfold sU. rewrite Nat.add_1_r. destruct (Nat.eqb_spec j (S i)) as [->|]; cbn [kb]; [|ring].
    unfold np_sqrt, gf. cbn [Nat.sub]. rewrite ?Nat.add_1_r. ring.
  Qed.
  Lemma half_real : kQ (1 # 2) = real (1 / 2).
  Proof using. apply injective_projections; cbn; unfold Q2R; cbn; field. Qed.
  Lemma SZ_sZ i j : SZ i j = sZ s i j.
  Proof using.
    rewrite Z_ent. unfold sZ, zval. destruct (i =? j)%nat; cbn [kb]; [|ring]. rewrite !kofnat_real, half_real.
    replace (INR s / 2 - INR i) with (1 / 2 * INR s + - INR i) by field. rewrite real_add, real_mul, real_neg. ring.
  Qed.
  Notation d := (S s).
  Lemma tot_sum (B : kern) n : forall a b, (a < d ^ n)%nat -> (b < d ^ n)%nat -> ksum n (fun i => site_elem d n i B a b) = tot s B n a b.
  Proof using.
    induction n as [|n IH]; intros a b Ha Hb; [reflexivity|]. rewrite ksum_S, site_last by (exact Ha || exact Hb || discriminate). cbn [tot]. unfold both, add_k. f_equal.
    rewrite (ksum_ext n _ (fun i => site_elem d n i B (a / d) (b / d) *c one_k (a mod d)%nat (b mod d)%nat)).
    2:{ intros i Hi. rewrite site_front by (exact Hi || discriminate). reflexivity. }
    rewrite ksum_mul_r, IH by (apply half_bound; [discriminate|assumption]). reflexivity.
  Qed.
  Lemma site_ext n i (A B : kern) a b : (forall x y, A x y = B x y) -> site_elem d n i A a b = site_elem d n i B a b.
  Proof using. intros E. unfold site_elem. destruct (agree_off _ _ _ _ _); [apply E|reflexivity]. Qed.
  Variable c : nat -> R.
  Definition nested_elem (n : nat) (a b : nat) : CR := ksum n (fun i => ksum i (fun j =>
     kofnat 2 *c (real (c i) *c pair_elem d n i j SX SX a b +c real (c i) *c pair_elem d n i j SY SY a b +c real (c i) *c pair_elem d n i j SZ SZ a b))).
  Lemma three n j a b : (j < n)%nat ->
    kofnat 2 *c (real (c n) *c pair_elem d (S n) n j SX SX a b +c real (c n) *c pair_elem d (S n) n j SY SY a b +c real (c n) *c pair_elem d (S n) n j SZ SZ a b)
    = real (c n) *c (real 2 *c cross d (site_elem d n j (sZ s)) (sZ s) a b +c (cross d (site_elem d n j (sU s)) (sL s) a b +c cross d (site_elem d n j (sL s)) (sU s) a b)).
  Proof using.
    intros Hj. rewrite !pair_last by (exact Hj || discriminate). unfold cross.
    assert (X : site_elem d n j SX (a / d) (b / d) = real (1 / 2) *c (site_elem d n j (sL s) (a / d) (b / d) +c site_elem d n j (sU s) (a / d) (b / d))).
    { unfold site_elem. destruct (agree_off _ _ _ _ _); [|ring]. rewrite sx_ent, P_sL, M_sU, half_real. reflexivity. }
    assert (Y : site_elem d n j SY (a / d) (b / d) = kopp ki *c (real (1 / 2) *c (site_elem d n j (sL s) (a / d) (b / d) +c kopp (site_elem d n j (sU s) (a / d) (b / d))))).
    { unfold site_elem. destruct (agree_off _ _ _ _ _); [|ring]. rewrite sy_ent, P_sL, M_sU, half_real. change ksub with (fun x y : CR => x +c kopp y). reflexivity. }
    rewrite X, Y, (site_ext n j SZ (sZ s)) by apply SZ_sZ. rewrite sx_ent, sy_ent, !P_sL, !M_sU, SZ_sZ, half_real.
    set (p := site_elem d n j (sL s) _ _). set (q := site_elem d n j (sU s) _ _). set (z := site_elem d n j (sZ s) _ _).
    set (p' := sL s _ _). set (q' := sU s _ _). set (z' := sZ s _ _).
    rewrite kofnat_real. replace (INR 2) with 2 by (cbn; ring).
    assert (I2 : kmul (K:=CR) (kopp ki) (kopp ki) = kopp c1) by (apply injective_projections; cbn; ring).
    change (ksub (K:=CR) p' q') with (p' +c kopp q').
    transitivity (real (c n) *c (real 2 *c z *c z' +c real 2 *c real (1 / 2) *c real (1 / 2) *c ((p +c q) *c (p' +c q') +c (kopp ki *c kopp ki) *c ((p +c kopp q) *c (p' +c kopp q'))))); [ring|].
    rewrite I2. assert (H2 : real 2 *c real (1 / 2) *c real (1 / 2) = real (1 / 2)) by (rewrite <- !real_mul; f_equal; field).
    rewrite H2. assert (H1 : real (1 / 2) +c real (1 / 2) = c1) by (rewrite <- real_add, <- real_1; f_equal; field).
    transitivity (real (c n) *c (real 2 *c z *c z' +c (real (1 / 2) +c real (1 / 2)) *c (p *c q' +c q *c p'))); [ring|]. rewrite H1. ring.
  Qed.
  Theorem nested_ham n : forall a b, (a < d ^ n)%nat -> (b < d ^ n)%nat -> nested_elem n a b = ham s c n a b.
  Proof using.
    induction n as [|n IH]; intros a b Ha Hb; [reflexivity|]. unfold nested_elem. rewrite ksum_S. cbn [ham]. unfold add_k at 1. f_equal.
    - rewrite (ksum_ext n _ (fun i => ksum i (fun j => kofnat 2 *c (real (c i) *c pair_elem d n i j SX SX (a / d) (b / d) +c real (c i) *c pair_elem d n i j SY SY (a / d) (b / d) +c real (c i) *c pair_elem d n i j SZ SZ (a / d) (b / d))) *c one_k (a mod d)%nat (b mod d)%nat)).
      2:{ intros i Hi. rewrite <- ksum_mul_r. apply ksum_ext. intros j Hj. rewrite !pair_front by (lia || discriminate). unfold cross. ring. }
      rewrite ksum_mul_r. fold (nested_elem n (a / d) (b / d)). rewrite IH by (apply half_bound; [discriminate|assumption]). reflexivity.
    - rewrite (ksum_ext n _ _ (fun j Hj => three n j a b Hj)). rewrite ksum_mul_l. unfold sc_k at 1. f_equal. unfold dot2, add_k, sc_k, cross.
      pose proof (half_bound d ltac:(discriminate) n a Ha) as A1. pose proof (half_bound d ltac:(discriminate) n b Hb) as B1.
      rewrite <- !tot_sum by assumption. rewrite !ksum_add, <- !ksum_mul_r, <- ksum_mul_l. reflexivity.
  Qed.
End Ham.

Section Api.
  Variables (sp : spins CR) (c : nat -> R).
  Notation n := (sg_nsites (sp_geom sp)).
  Lemma roots_np two : roots_ok np_sqrt two.
  Proof using.
    intros i Hi. unfold np_sqrt. split; [|apply real_conj]. rewrite kofnat_real. change (real (sqrt (INR ((i + 1) * (two - i)))) *c real (sqrt (INR ((i + 1) * (two - i)))) = real (INR ((i + 1) * (two - i)))).
    rewrite <- real_mul, sqrt_sqrt by apply pos_INR. reflexivity.
  Qed.
  Hypothesis NC : nested_couplings sp c.
  Theorem nested_spectrum : exists H, sp_createH np_sqrt sp None = Ok H /\ square ((sp_two sp + 1) ^ n) H /\ hermitian ((sp_two sp + 1) ^ n) H /\
    eigenbasis H (basis_of (dm (sp_two sp) n) (fam (sp_two sp) c n)) (level_energies (spin_levels c (sp_two sp) n)).
  Proof using NC.
    destruct NC as (JC & FC).
    assert (FO : fields_ok sp) by (intros i Hi; destruct (FC i Hi) as (-> & -> & ->); repeat split; left; reflexivity).
    destruct (createH_full np_sqrt sp FO) as (H & EH & (S1 & S2) & V).
    destruct (spin_hermitian np_sqrt sp None eq_refl (roots_np _)) as (H' & EH' & _ & HM).
    - intros i j Hi Hj. destruct (JC i j ltac:(lia)) as (-> & -> & ->). rewrite real_conj. auto.
    - intros i Hi. destruct (FC i Hi) as (-> & -> & ->). rewrite kconj_0. auto.
    - right. intros i Hi. apply FC. lia.
    - rewrite EH in EH'. injection EH' as <-.
      assert (HE : hermitian ((sp_two sp + 1) ^ n) H).
      { destruct HM as (_ & _ & HM). cbn [nrow ncol madj ent] in HM. rewrite S2, S1 in HM. intros i j Hi Hj. symmetry. apply HM; assumption. }
      assert (EW : eigenbasis H (basis_of (dm (sp_two sp) n) (fam (sp_two sp) c n)) (map fst (states (fam (sp_two sp) c n)))).
      2:{ exists H. rewrite states_energies, fam_levels in EW. repeat split; assumption || apply EW. }
      apply (family_eigenbasis (dm (sp_two sp) n) _ _ _ _ _ H (fam_ok (sp_two sp) c n)).
      + rewrite dm_pow, <- Nat.add_1_r. exact S1.
      + rewrite dm_pow, <- Nat.add_1_r. exact S2.
      + intros i j Hi Hj. rewrite dm_pow in Hi, Hj. rewrite <- nested_ham by assumption. rewrite <- Nat.add_1_r in Hi, Hj. rewrite V by assumption.
        unfold H_elem, spin_elem, nested_elem. rewrite Nat.add_1_r.
        rewrite (ksum_zero n (fun i0 => kmul k1 _)).
        2:{ intros k Hk. destruct (FC k Hk) as (-> & -> & ->). ring. }
        transitivity (ksum n (fun i0 => ksum i0 (fun j0 => kofnat 2 *c
          (real (c i0) *c pair_elem (S (sp_two sp)) n i0 j0 (ent (sx_op np_sqrt (sp_two sp))) (ent (sx_op np_sqrt (sp_two sp))) i j
           +c real (c i0) *c pair_elem (S (sp_two sp)) n i0 j0 (ent (sy_op np_sqrt (sp_two sp))) (ent (sy_op np_sqrt (sp_two sp))) i j
           +c real (c i0) *c pair_elem (S (sp_two sp)) n i0 j0 (ent (sz_op (sp_two sp))) (ent (sz_op (sp_two sp))) i j)))); [|reflexivity].
        match goal with |- ksub ?x k0 = ?y => assert (XY : x = y) end.
        { apply ksum_ext. intros i0 Hi0. apply ksum_ext. intros j0 Hj0. destruct (JC i0 j0 ltac:(lia)) as (-> & -> & ->). reflexivity. }
        rewrite XY. ring.
  Qed.
End Api.
