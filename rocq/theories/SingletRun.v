(** Energy levels and total spin of the ground states of antiferromagnets on two kinds of sites. *)
From Coq Require Import List Arith Lia Reals Lra ZArith QArith Bool Permutation.
From Verif Require Import Scalars Res Matrix Sums SqMat SpecMat ModelBase ModelSpins SpecSpins Digits SpinOps SpinAlg SpinHam SpinApi SpinSwap HamProofs SpecPerm
  ModelGeometry ModelPhase ModelSymmetry SymBase ModelThermal SpecThermal ThermalBase ThermalFacts ThermalBasis Spectral Thermo SpecHeat SpecConvex Convex SpecSigns Signs SignsHeat SignsSpins SpecSectors Perron Sectors SectorsRun Ladder SpecSinglet Dimers Heis Singlet.
From Verif Require SwapProofs.
Import ListNotations.
Local Open Scope R_scope.

(** ** The total spin *)
Section Total.
  Variables (rt : nat -> CR) (s : spins CR) (X Y Z : mat CR).
  Hypothesis root : rt 1%nat = k1.
  Hypothesis half : sp_two s = 1%nat.
  Hypothesis tot : total_spin rt s X Y Z.
  Notation n := (sg_nsites (sp_geom s)).
  Notation D := (2 ^ n)%nat.
  Notation dg p a := (digit 2 n p a).
  Lemma sites_exist : n <> 0%nat.
  Proof using tot. destruct tot as (EX & _). intros Q. unfold sum_op, sp_sys in EX. cbn [s_nsites] in EX. rewrite Q in EX. discriminate EX. Qed.
  Lemma moves_of A T (f : nat -> CR) psi a : square 2 A -> (forall u v, (u < 2)%nat -> (v < 2)%nat -> ent A u v = if (u =? v)%nat then c0 else f u) -> sum_op (sp_sys s) A 0 Boson = Ok T -> (a < D)%nat ->
    apply D T psi a = ksum n (fun p => f (dg p a) *c psi (fl n p a)).
  Proof using half tot.
    intros SA VA ET Ha. destruct (sum_op_half (K:=CR) n A SA sites_exist) as (T' & ET' & ST & VT).
    assert (T = T') as -> by (unfold sp_sys in ET; rewrite half in ET; change (Sys n 1 (1 + 1)) with (dsys 2 n) in ET; congruence).
    unfold apply. rewrite (ksum_ext D _ (fun b => ksum n (fun p => if (b =? fl n p a)%nat then f (dg p a) *c psi b else c0))).
    - rewrite (ksum_swap D n). apply ksum_ext. intros p Hp. rewrite (ksum_single D (fl n p a)); [rewrite Nat.eqb_refl; reflexivity | apply fl_lt |]. intros b Hb N. rewrite (proj2 (Nat.eqb_neq _ _) N). reflexivity.
    - intros b Hb. rewrite (VT a b Ha Hb), <- ksum_mul_r. apply ksum_ext. intros p Hp. unfold site_elem. pose proof (bit n p a) as B1. pose proof (bit n p b) as B2.
      destruct (Nat.eqb_spec b (fl n p a)) as [Q|Q].
      + assert (AG : agree_off 2 n [p] a b = true) by (apply agree_off_spec; intros q Hq NI; rewrite Q; symmetry; apply dg_other; [exact Hq | intros ->; apply NI; left; reflexivity]). rewrite AG, VA by assumption. rewrite (proj2 (Nat.eqb_neq (dg p a) (dg p b))); [reflexivity|]. rewrite Q, dg_same by exact Hp. lia.
      + destruct (agree_off 2 n [p] a b) eqn:AG; [|apply injective_projections; cbn; ring]. rewrite agree_off_spec in AG. rewrite VA by assumption. destruct (Nat.eqb_spec (dg p a) (dg p b)) as [W|W]; [apply injective_projections; cbn; ring|]. exfalso. apply Q, (ext n); [exact Hb | apply fl_lt |].
        intros q Hq. rewrite dg_fl by exact Hq. destruct (Nat.eqb_spec q p) as [->|N]; [lia|]. symmetry. apply AG; [exact Hq | intros [E|[]]; congruence].
  Qed.
  Lemma x_moves psi a : (a < D)%nat -> apply D X psi a = real (1 / 2) *c (mv n 0 psi a +c mv n 1 psi a).
  Proof using All.
    intros Ha. destruct tot as (EX & _). rewrite (moves_of (sx_op rt 1) X (fun _ => real (1 / 2)) psi a); [|split; reflexivity | intros u v Hu Hv; rewrite (sx_val rt root u v Hu Hv); destruct (u =? v)%nat; reflexivity | exact EX | exact Ha].
    unfold mv. rewrite <- ksum_add, <- ksum_mul_l. apply ksum_ext. intros p Hp. pose proof (bit n p a) as B. destruct (dg p a) as [|[|]]; [| |lia]; cbn [Nat.eqb]; apply injective_projections; cbn; ring.
  Qed.
  Lemma y_moves psi a : (a < D)%nat -> apply D Y psi a = ((0, 1 / 2) : CR) *c (mv n 0 psi a -c mv n 1 psi a).
  Proof using All.
    intros Ha. destruct tot as (_ & EY & _). rewrite (moves_of (sy_op rt 1) Y (fun u => (0, if (u =? 0)%nat then 1 / 2 else -1 / 2)) psi a); [|split; reflexivity | intros u v Hu Hv; rewrite (sy_val rt root u v Hu Hv); destruct (u =? v)%nat; reflexivity | exact EY | exact Ha].
    unfold mv. rewrite <- ksum_minus, <- ksum_mul_l. apply ksum_ext. intros p Hp. pose proof (bit n p a) as B. destruct (dg p a) as [|[|]]; [| |lia]; cbn [Nat.eqb]; apply injective_projections; cbn; field.
  Qed.
  Lemma z_value psi a : (a < D)%nat -> apply D Z psi a = real (INR n / 2 - INR (digit_sum 2 n a)) *c psi a.
  Proof using half tot.
    intros Ha. destruct tot as (_ & _ & EZ). destruct (moment_diagonal s Z half sites_exist EZ) as ((_ & DZ) & VZ). unfold apply. rewrite (ksum_single D a); [rewrite (VZ a Ha); reflexivity | exact Ha |]. intros b Hb N. rewrite (DZ a b Ha Hb) by congruence. apply injective_projections; cbn; ring.
  Qed.
  Lemma square_of psi a : (a < D)%nat -> apply D X (apply D X psi) a +c apply D Y (apply D Y psi) a +c apply D Z (apply D Z psi) a =
    mv n 1 (mv n 0 psi) a +c real ((INR n / 2 - INR (digit_sum 2 n a)) * (INR n / 2 - INR (digit_sum 2 n a) + 1)) *c psi a.
  Proof using All.
    intros Ha. rewrite (x_moves _ a Ha), (y_moves _ a Ha), (z_value _ a Ha), (z_value _ a Ha).
    assert (XM : forall v, mv n v (apply D X psi) a = real (1 / 2) *c (mv n v (mv n 0 psi) a +c mv n v (mv n 1 psi) a)).
    { intros v. rewrite (mv_ext n v _ (fun b => real (1 / 2) *c (mv n 0 psi b -c (real (-1) *c mv n 1 psi b)))) by (intros b Hb; rewrite (x_moves psi b Hb); apply injective_projections; cbn; ring). rewrite mv_scale, mv_minus, mv_scale. apply injective_projections; cbn; ring. }
    assert (YM : forall v, mv n v (apply D Y psi) a = ((0, 1 / 2) : CR) *c (mv n v (mv n 0 psi) a -c mv n v (mv n 1 psi) a)).
    { intros v. rewrite (mv_ext n v _ (fun b => ((0, 1 / 2) : CR) *c (mv n 0 psi b -c mv n 1 psi b))) by (intros b Hb; apply (y_moves psi b Hb)). rewrite mv_scale, mv_minus. reflexivity. }
    rewrite !XM, !YM, (mv_comm n psi a Ha). apply injective_projections; cbn; field.
  Qed.
  Lemma spin_of S psi : (forall a, (a < D)%nat -> mv n 1 (mv n 0 psi) a = real (S * (S + 1) - (INR n / 2 - INR (digit_sum 2 n a)) * (INR n / 2 - INR (digit_sum 2 n a) + 1)) *c psi a) -> has_spin D X Y Z S psi.
  Proof using All. intros V a Ha. etransitivity; [exact (square_of psi a Ha)|]. rewrite (V a Ha). apply injective_projections; cbn; ring. Qed.
  (** States that cannot be raised. *)
  Lemma top_spin m psi : lives n m psi -> vanishes n (mv n 0 psi) -> has_spin D X Y Z (INR n / 2 - INR m) psi.
  Proof using All.
    intros L V. apply spin_of. intros a Ha. rewrite (mv_ext n 1 _ (fun _ => c0 *c c0)) by (intros b Hb; rewrite (V b Hb); apply injective_projections; cbn; ring). rewrite mv_scale.
    destruct (Nat.eq_dec (digit_sum 2 n a) m) as [Q|Q]; [rewrite Q; apply injective_projections; cbn; ring | rewrite (L a Ha Q); apply injective_projections; cbn; ring].
  Qed.
End Total.

Section Kinds.
  Variables (rt : nat -> CR) (s : spins CR) (J : nat -> nat -> R) (part : nat -> bool).
  Hypothesis root : rt 1%nat = k1.
  Hypothesis half : sp_two s = 1%nat.
  Notation n := (sg_nsites (sp_geom s)).
  Notation D := (2 ^ n)%nat.
  Notation dg p a := (digit 2 n p a).
  Notation eps := (state_sign part n).
  Notation eig := (eig s J).
  Notation lowest := (lowest s J).
  Notation present := (present s).
  Hypothesis iso : isotropic s J.
  (** ** Rotations *)
  Lemma full_rows F V E : sp_createH rt s None = Ok F -> eigenbasis F V E -> nrow V = D.
  Proof using half. clear root iso. intros EF B. destruct (spin_ent rt s F half EF) as (S1 & _). destruct B as ((_ & S & _) & _). congruence. Qed.
  Lemma full_eig F e psi : sp_createH rt s None = Ok F -> (state_of D F e psi <-> eig e psi).
  Proof using root half iso. intros EF. split; intros X a Ha; [rewrite <- (full_act rt s J root half iso F psi a EF Ha); exact (X a Ha) | rewrite (full_act rt s J root half iso F psi a EF Ha); exact (X a Ha)]. Qed.
  Lemma act_scale (z : CR) psi a : act s J (fun b => z *c psi b) a = z *c act s J psi a.
  Proof using. clear. unfold act. rewrite <- ksum_mul_l. apply ksum_ext. intros i _. rewrite <- ksum_mul_l. apply ksum_ext. intros j _. ring. Qed.
  Lemma act_minus psi phi a : act s J (fun b => psi b -c phi b) a = act s J psi a -c act s J phi a.
  Proof using. clear. unfold act. rewrite <- ksum_minus. apply ksum_ext. intros i _. rewrite <- ksum_minus. apply ksum_ext. intros j _. ring. Qed.
  Theorem rotations F X Y Z psi a : sp_createH rt s None = Ok F -> total_spin rt s X Y Z -> (a < D)%nat ->
    apply D X (apply D F psi) a = apply D F (apply D X psi) a /\ apply D Y (apply D F psi) a = apply D F (apply D Y psi) a /\ apply D Z (apply D F psi) a = apply D F (apply D Z psi) a.
  Proof using root half iso.
    intros EF T Ha. rewrite !(full_act rt s J root half iso F _ a EF Ha). rewrite (x_moves rt s X Y Z root half T _ a Ha), (y_moves rt s X Y Z root half T _ a Ha), (z_value rt s X Y Z half T _ a Ha).
    assert (ME : forall v, mv n v (apply D F psi) a = act s J (mv n v psi) a) by (intros v; rewrite (act_mv s J v psi a Ha); apply mv_ext; intros b Hb; apply (full_act rt s J root half iso F psi b EF Hb)).
    split; [|split].
    - rewrite (act_ext s J (apply D X psi) (fun b => real (1 / 2) *c (mv n 0 psi b -c (real (-1) *c mv n 1 psi b))) a Ha) by (intros b Hb; rewrite (x_moves rt s X Y Z root half T psi b Hb); apply injective_projections; cbn; ring).
      rewrite act_scale, act_minus, act_scale, !ME. apply injective_projections; cbn; ring.
    - rewrite (act_ext s J (apply D Y psi) (fun b => ((0, 1 / 2) : CR) *c (mv n 0 psi b -c mv n 1 psi b)) a Ha) by (intros b Hb; exact (y_moves rt s X Y Z root half T psi b Hb)). rewrite act_scale, act_minus, !ME. reflexivity.
    - rewrite (full_act rt s J root half iso F psi a EF Ha), <- act_scale. apply ksum_ext. intros i Hi. apply ksum_ext. intros j Hj. f_equal. f_equal; [|f_equal; symmetry; apply (z_value rt s X Y Z half T psi a Ha)].
      rewrite (z_value rt s X Y Z half T psi) by (apply pull_lt; discriminate). rewrite swp_sum by (exact Ha || lia). reflexivity.
  Qed.

  Hypothesis kinds : two_kinds part n J.
  Hypothesis conn : connected_spins s.
  Notation highest := (highest rt s J part root half iso kinds conn).
  Notation strict := (strict rt s J part root half iso kinds conn).
  Notation ground_multiple := (ground_multiple rt s J part root half iso kinds conn).
  Notation ground_meets := (ground_meets rt s J part root half iso kinds conn).
  (** ** All other sites of one kind *)
  Section One.
    Variables (l : list (nat * nat)) (r : list nat).
    Hypothesis pr : pairing part n l r.
    Hypothesis one : forall p q, In p r -> In q r -> part p = part q.
    Notation k := (length l).
    Lemma pair_count : (2 * k + length r = n)%nat.
    Proof using pr.
      clear root half iso kinds conn one. destruct pr as (_ & PM). apply Permutation_length in PM. rewrite app_length, seq_length in PM. assert (F : length (flat_pairs l) = (2 * length l)%nat) by (clear; unfold flat_pairs; induction l as [|p q IH]; [reflexivity | cbn [flat_map app length] in *; lia]). lia.
    Qed.
    Lemma rest_NoDup : NoDup r.
    Proof using pr. clear root half iso kinds conn one. destruct pr as (_ & PM). assert (ND : NoDup (flat_pairs l ++ r)) by (apply (Permutation_NoDup (Permutation_sym PM)), seq_NoDup). apply SwapProofs.NoDup_app_r in ND. exact ND. Qed.
    Lemma rest_lt p : In p r -> (p < n)%nat.
    Proof using pr. clear root half iso kinds conn one. destruct pr as (_ & PM). intros Hp. assert (I : In p (seq 0 n)) by (apply (Permutation_in _ PM), in_or_app; right; exact Hp). apply in_seq in I. lia. Qed.
    Definition filled (t p : nat) : nat := if existsb (Nat.eqb p) (firstn t r) then 1%nat else 0%nat.
    Lemma filled_lt t p : (filled t p < 2)%nat. Proof using. clear. unfold filled. destruct (existsb _ _); lia. Qed.
    Lemma filled_in t p : In p (firstn t r) -> filled t p = 1%nat.
    Proof using. clear. intros I. unfold filled. assert (X : existsb (Nat.eqb p) (firstn t r) = true) by (apply existsb_exists; exists p; split; [exact I | apply Nat.eqb_refl]). rewrite X. reflexivity. Qed.
    Lemma filled_out t p : In p (skipn t r) -> filled t p = 0%nat.
    Proof using pr.
      clear root half iso kinds conn one. intros I. unfold filled. assert (X : existsb (Nat.eqb p) (firstn t r) = false).
      { apply not_true_iff_false. intros X. apply existsb_exists in X as (q & Q1 & Q2). apply Nat.eqb_eq in Q2. subst q. pose proof rest_NoDup as ND. rewrite <- (firstn_skipn t r) in ND. exact (SwapProofs.NoDup_app_disj _ _ p ND Q1 I). }
      rewrite X. reflexivity.
    Qed.
    Lemma filled_sum t : (t <= length r)%nat -> list_sum (map (filled t) r) = t.
    Proof using pr.
      clear root half iso kinds conn one. intros Ht. rewrite <- (firstn_skipn t r) at 1. rewrite map_app, list_sum_app.
      assert (A : forall q, (forall p, In p q -> filled t p = 1%nat) -> list_sum (map (filled t) q) = length q) by (induction q as [|p q IH]; intros W; [reflexivity|]; change (filled t p + list_sum (map (filled t) q) = S (length q))%nat; rewrite (W p (or_introl eq_refl)), IH by (intros; apply W; right; assumption); reflexivity).
      assert (B : forall q, (forall p, In p q -> filled t p = 0%nat) -> list_sum (map (filled t) q) = 0%nat) by (induction q as [|p q IH]; intros W; [reflexivity|]; change (filled t p + list_sum (map (filled t) q) = 0)%nat; rewrite (W p (or_introl eq_refl)), IH by (intros; apply W; right; assumption); reflexivity).
      rewrite A by apply filled_in. rewrite B by apply filled_out. rewrite firstn_length. lia.
    Qed.
    Lemma flip_agrees p a : agree_off 2 n [p] a (fl n p a) = true.
    Proof using. clear. apply agree_off_spec. intros q Hq NI. symmetry. apply dg_other; [exact Hq | intros ->; apply NI; left; reflexivity]. Qed.
    Lemma side_square p : side part p = 1 \/ side part p = -1. Proof using. clear. unfold side. destruct (part p); auto. Qed.
    Lemma raise_present m e psi : (k < m)%nat -> (m + k <= n)%nat -> lowest m e -> lives n m psi -> eig e psi -> present psi -> present (mv n 0 psi).
    Proof using All.
      intros K1 K2 LW L X Pp. pose proof pair_count as PC. set (t := (m - 1 - k)%nat). assert (Ht : (t < length r)%nat) by (unfold t; lia). set (p0 := nth t r 0%nat).
      assert (I0 : In p0 r) by (apply nth_In; exact Ht). assert (J0 : In p0 (skipn t r)).
      { unfold p0. replace t with (t + 0)%nat at 1 by lia. rewrite <- (firstn_skipn t r) at 1. rewrite app_nth2 by (rewrite firstn_length; lia). apply nth_In. rewrite skipn_length, firstn_length. lia. }
      set (cf := filled t). assert (CL : forall p, (p < n)%nat -> (cf p < 2)%nat) by (intros; apply filled_lt). set (Q := phi n l r cf). set (G := fun a => total (fun p => if (dg p a =? 1)%nat then Q (fl n p a) else 0) (seq 0 n)).
      pose proof (shown_lt n l cf CL) as SL. pose proof (shown_phi part n l r pr cf CL) as SP. fold Q in SP. set (b0 := shown n l cf) in *.
      assert (D0 : dg p0 b0 = 0%nat).
      { assert (W : Q b0 <> 0) by (rewrite SP; lra). unfold Q, phi in W. destruct (forallb (fun p => dg p b0 =? cf p)%nat r) eqn:FB; [|exfalso; apply W; reflexivity]. rewrite forallb_forall in FB. specialize (FB p0 I0). apply Nat.eqb_eq in FB. rewrite FB. apply filled_out, J0. }
      pose proof (rest_lt p0 I0) as H0. set (a0 := fl n p0 b0). set (w := rest_sign part r cf * side part p0).
      assert (TM : forall a, (a < D)%nat -> forall p, In p r -> 0 <= w * eps a * (if (dg p a =? 1)%nat then Q (fl n p a) else 0)).
      { intros a Ha p Hp. destruct (Nat.eqb_spec (dg p a) 1) as [E1|E1]; [|lra]. pose proof (rest_lt p Hp) as Hq. pose proof (sign_flip part n p a (fl n p a) Hq (flip_agrees p a) ltac:(rewrite dg_same by exact Hq; lia)) as SF.
        pose proof (phi_sign part n l r pr cf (fl n p a)) as PS. fold Q in PS. assert (SS : side part p = side part p0) by (unfold side; rewrite (one p p0 Hp I0); reflexivity). rewrite SS in SF. unfold w. rewrite <- SF. destruct (state_signs part n a Ha) as [S1|S1]; rewrite S1; [replace (rest_sign part r cf * (1 * eps (fl n p a)) * 1 * Q (fl n p a)) with (rest_sign part r cf * (eps (fl n p a) * Q (fl n p a))) by ring; exact PS|].
        replace (rest_sign part r cf * (-1 * eps (fl n p a)) * -1 * Q (fl n p a)) with (rest_sign part r cf * (eps (fl n p a) * Q (fl n p a))) by ring. exact PS. }
      assert (GV : forall a, w * (eps a * G a) = total (fun p => w * eps a * (if (dg p a =? 1)%nat then Q (fl n p a) else 0)) r).
      { intros a. unfold G. pose proof (phi_moves part n l r pr 1 cf a ltac:(lia)) as W. fold Q in W. rewrite W, total_scale. ring. }
      assert (A1 : dg p0 a0 = 1%nat) by (unfold a0; rewrite dg_same by exact H0; lia). assert (A2 : fl n p0 a0 = b0) by (unfold a0; apply fl_fl; assumption).
      assert (M : inner D (fun a => real (G a)) psi <> c0).
      { apply (ground_meets m e psi G w a0 LW L X Pp).
        - intros a Ha. rewrite GV. apply total_ge0. intros p Hp. apply TM; assumption.
        - apply fl_lt.
        - pose proof (fl_sum n p0 b0 H0) as FS. fold a0 in FS. rewrite D0 in FS. assert (SB : digit_sum 2 n b0 = (k + t)%nat) by (rewrite (phi_lives part n l r pr cf b0 SL) by (fold Q; rewrite SP; lra); unfold cf; rewrite filled_sum by lia; reflexivity). unfold t in SB. lia.
        - rewrite GV. apply (total_positive _ _ p0); [intros p Hp; apply TM; [apply fl_lt | exact Hp] | exact I0 |]. pose proof (TM a0 (fl_lt n p0 b0) p0 I0) as W. rewrite A1, Nat.eqb_refl, A2, SP in *. unfold w in *. destruct (rest_square part r cf) as [S1|S1], (side_square p0) as [S2|S2], (state_signs part n a0 (fl_lt n p0 b0)) as [S3|S3]; rewrite S1, S2, S3 in *; lra. }
      destruct (present_dec s (mv n 0 psi)) as [Y|Y]; [exact Y|]. exfalso. apply M. rewrite (inner_ext_l D _ (mv n 1 (fun a => real (Q a)))) by (intros a Ha; rewrite mv_real; reflexivity). rewrite (mv_adj n 1) by lia. apply inner_zero_r, Y.
    Qed.
    Lemma lowest_le m e : lowest m e -> (m <= n)%nat. Proof using. clear. intros ((psi & L & X & Pp) & _). exact (lives_le s m psi L Pp). Qed.
    Theorem level e j : lowest k e -> (2 * k + j <= n)%nat -> lowest (k + j) e.
    Proof using All.
      intros LK. destruct LK as ((psi & L & X & Pp) & MK) eqn:EK. clear EK. set (LK0 := LK). pose proof (highest k e psi l r pr eq_refl LK L X Pp) as HW.
      induction j as [|j IH]; intros Hj; [rewrite Nat.add_0_r; exact LK|]. specialize (IH ltac:(lia)). destruct (lowered s J k e psi (S j) L X Pp HW Hj) as (L1 & X1 & P1).
      destruct (lowest_exists rt s J root half iso (k + S j) ltac:(lia)) as (e2 & LW). assert (e2 = e) as <-; [|exact LW]. apply Rle_antisym; [destruct LW as (_ & M); exact (M e _ L1 X1 P1)|].
      destruct LW as ((psi2 & L2 & X2 & P2) & M2) eqn:EW. clear EW. pose proof (raise_present (k + S j) e2 psi2 ltac:(lia) ltac:(lia) LW L2 X2 P2) as RP. destruct IH as (_ & M). apply (M e2 (mv n 0 psi2)); [rewrite Nat.add_succ_r in L2; apply raise_lives, L2 | apply eig_mv, X2 | exact RP].
    Qed.
    Lemma level_moves e j psi : lowest k e -> (2 * k + j <= n)%nat -> lives n (k + j) psi -> eig e psi -> present psi -> forall a, (a < D)%nat -> mv n 1 (mv n 0 psi) a = real (INR j * (INR n - 2 * INR k - INR j + 1)) *c psi a.
    Proof using All.
      intros LK Hj Lp Xp Pp a Ha. pose proof (level e j LK Hj) as LW. destruct LK as ((chi & L & X & Pc) & MK) eqn:EK. clear EK. pose proof (highest k e chi l r pr eq_refl LK L X Pc) as HW. destruct (lowered s J k e chi j L X Pc HW Hj) as (L1 & X1 & P1).
      destruct (ground_multiple (k + j) e (lower s j chi) psi LW L1 X1 P1 Lp Xp) as (z & Z).
      rewrite (mv_ext n 1 _ (fun b => z *c mv n 0 (lower s j chi) b)) by (intros b Hb; rewrite <- mv_scale; apply mv_ext, Z). rewrite mv_scale, (Z a Ha). transitivity (z *c (real (INR j * (INR n - 2 * INR k - INR j + 1)) *c lower s j chi a)); [|ring]. f_equal.
      destruct j as [|j].
      - cbn [lower INR]. rewrite (mv_ext n 1 _ (fun _ => c0 *c c0)) by (intros b Hb; rewrite (HW b Hb); apply injective_projections; cbn; ring). rewrite mv_scale. apply injective_projections; cbn; ring.
      - rewrite (mv_ext n 1 _ (fun b => real (INR (S j) * (INR n - 2 * INR k - INR j)) *c lower s j chi b)) by (intros b Hb; apply (raised s k chi j b L HW Hb)). rewrite mv_scale. change (mv n 1 (lower s j chi)) with (lower s (S j) chi). f_equal. f_equal. rewrite !S_INR. ring.
    Qed.
    Theorem level_spin X Y Z e j psi : total_spin rt s X Y Z -> lowest k e -> (2 * k + j <= n)%nat -> lives n (k + j) psi -> eig e psi -> present psi -> has_spin D X Y Z (INR n / 2 - INR k) psi.
    Proof using All.
      intros T LK Hj L Xp Pp. apply (spin_of rt s X Y Z root half T). intros a Ha. rewrite (level_moves e j psi LK Hj L Xp Pp a Ha).
      destruct (Nat.eq_dec (digit_sum 2 n a) (k + j)) as [Q|Q]; [rewrite Q, plus_INR; apply injective_projections; cbn; field | rewrite (L a Ha Q); apply injective_projections; cbn; ring].
    Qed.
    (** ** The whole system *)
    Lemma mv_part psi a : mv n 1 (mv n 0 psi) a = mv n 1 (mv n 0 (part_of s (digit_sum 2 n a) psi)) a.
    Proof using.
      clear. apply ksum_ext. intros i Hi. destruct (Nat.eqb_spec (dg i a) 1) as [E1|E1]; [|reflexivity]. apply ksum_ext. intros j Hj. destruct (Nat.eqb_spec (dg j (fl n i a)) 0) as [E2|E2]; [|reflexivity].
      rewrite part_nonzero; [reflexivity|]. pose proof (fl_sum n i a Hi). pose proof (fl_sum n j (fl n i a) Hj). lia.
    Qed.
    Section Full.
      Variables (F V : mat CR) (E : list R) (e : R).
      Hypothesis made : sp_createH rt s None = Ok F.
      Hypothesis basis : eigenbasis F V E.
      Hypothesis low : smallest e E.
      Lemma full_lowest : lowest k e /\ forall psi, state_of D F e psi -> forall a, (a < D)%nat -> psi a <> c0 -> (k <= digit_sum 2 n a)%nat /\ (digit_sum 2 n a + k <= n)%nat.
      Proof using All.
        pose proof pair_count as PC. destruct (lowest_exists rt s J root half iso k ltac:(lia)) as (ek & LK).
        assert (RW : nrow V = D) by (exact (full_rows F V E made basis)).
        assert (UP : e <= ek). { destruct LK as ((chi & L & X & Pc) & _). apply (above_lowest D F V E e ek chi basis RW low); [apply (full_eig F ek chi made), X | exact Pc]. }
        assert (IN : forall psi, eig e psi -> forall a, (a < D)%nat -> psi a <> c0 -> (k <= digit_sum 2 n a)%nat /\ (digit_sum 2 n a + k <= n)%nat).
        { intros psi X a Ha NA. set (m := digit_sum 2 n a). pose proof (part_lives s m psi) as L. pose proof (part_eig s J m e psi X) as X1. assert (P1 : present (part_of s m psi)) by (exists a; split; [exact Ha | rewrite part_nonzero; [exact NA | reflexivity]]). pose proof (lives_le s m _ L P1) as Hm. split.
          - destruct (Nat.le_gt_cases k m) as [Q|Q]; [exact Q|]. pose proof (strict m k e ek _ l r pr eq_refl Q L X1 P1 LK). lra.
          - destruct (Nat.le_gt_cases (m + k) n) as [Q|Q]; [exact Q|]. pose proof (strict (n - m) k e ek _ l r pr eq_refl ltac:(lia) (over_lives s m _ Hm L) (over_eig s J e _ X1) (over_present s _ P1) LK). lra. }
        destruct low as (INE & _). destruct (In_nth E e 0 INE) as (c & Hc & Ec). pose proof (col_state F V E D basis RW c Hc) as ST. rewrite Ec in ST. apply (full_eig F e _ made) in ST.
        assert (PC' : present (col V c)).
        { pose proof (unit1 F V E D basis RW c Hc) as U. destruct (present_dec s (col V c)) as [Q|Q]; [exact Q|]. exfalso. unfold norm2 in U. rewrite inner_zero_r in U by exact Q. cbn in U. lra. }
        destruct PC' as (a & Ha & NA). destruct (IN _ ST a Ha NA) as (B1 & B2). set (m := digit_sum 2 n a) in *.
        pose proof (level ek (m - k) LK ltac:(lia)) as LM. replace (k + (m - k))%nat with m in LM by lia.
        assert (e = ek) as ->.
        { apply Rle_antisym; [exact UP|]. destruct LM as (_ & M). apply (M e (part_of s m (col V c))); [apply part_lives | apply part_eig, ST | exists a; split; [exact Ha | rewrite part_nonzero; [exact NA | reflexivity]]]. }
        split; [exact LK|]. intros psi X. apply IN. apply (full_eig F ek psi made), X.
      Qed.
      Theorem full_spin X Y Z psi : total_spin rt s X Y Z -> state_of D F e psi -> has_spin D X Y Z (INR n / 2 - INR k) psi.
      Proof using All.
        intros T ST. destruct full_lowest as (LK & IN). specialize (IN psi ST). apply (full_eig F e psi made) in ST. apply (spin_of rt s X Y Z root half T). intros a Ha. rewrite mv_part. set (m := digit_sum 2 n a).
        rewrite <- (part_nonzero s m psi a eq_refl). destruct (present_dec s (part_of s m psi)) as [Q|Q].
        - destruct Q as (b & Hb & NB) eqn:EQ. clear EQ. assert (Sb : digit_sum 2 n b = m) by (destruct (Nat.eq_dec (digit_sum 2 n b) m) as [W|W]; [exact W | exfalso; apply NB, (part_lives s m psi b Hb W)]). rewrite (part_nonzero s m psi b Sb) in NB. destruct (IN b Hb NB) as (B1 & B2). rewrite Sb in B1, B2.
          assert (Lm : lives n (k + (m - k)) (part_of s m psi)) by (replace (k + (m - k))%nat with m by lia; apply part_lives).
          rewrite (level_moves e (m - k) (part_of s m psi) LK ltac:(lia) Lm (part_eig s J m e psi ST) Q a Ha). rewrite minus_INR by exact B1. apply injective_projections; cbn; field.
        - rewrite (mv_ext n 1 _ (fun _ => c0 *c c0)) by (intros b Hb; rewrite (mv_ext n 0 _ (fun _ => c0 *c c0)) by (intros d Hd; rewrite (Q d Hd); apply injective_projections; cbn; ring); rewrite mv_scale; apply injective_projections; cbn; ring). rewrite mv_scale, (Q a Ha). apply injective_projections; cbn; ring.
      Qed.
      (** Two ground states with the same moment along z are the same up to a factor. *)
      Theorem full_parallel psi phi a b : state_of D F e psi -> state_of D F e phi -> (a < D)%nat -> (b < D)%nat -> digit_sum 2 n a = digit_sum 2 n b -> phi a *c psi b = psi a *c phi b.
      Proof using All.
        intros S1 S2 Ha Hb SM. destruct full_lowest as (LK & IN). pose proof (IN psi S1) as I1. pose proof (IN phi S2) as I2. apply (full_eig F e _ made) in S1. apply (full_eig F e _ made) in S2. set (m := digit_sum 2 n a) in *.
        destruct (le_dec k m) as [B1|B1]; [destruct (le_dec (m + k) n) as [B2|B2]|].
        - pose proof (level e (m - k) LK ltac:(lia)) as LM. replace (k + (m - k))%nat with m in LM by lia. pose proof (Singlet.ground_parallel rt s J part root half iso kinds conn m e (part_of s m psi) (part_of s m phi) a b LM (part_lives s m psi) (part_eig s J m e psi S1) (part_lives s m phi) (part_eig s J m e phi S2) ltac:(lia) Ha Hb) as GP.
          rewrite !part_nonzero in GP by (exact eq_refl || (symmetry; exact SM)). exact GP.
        - assert (PA : psi a = c0) by (destruct (CR_eq_dec (psi a) c0) as [Q|Q]; [exact Q | destruct (I1 a Ha Q); unfold m in *; lia]). assert (QA : phi a = c0) by (destruct (CR_eq_dec (phi a) c0) as [Q|Q]; [exact Q | destruct (I2 a Ha Q); unfold m in *; lia]). rewrite PA, QA. apply injective_projections; cbn; ring.
        - assert (PA : psi a = c0) by (destruct (CR_eq_dec (psi a) c0) as [Q|Q]; [exact Q | destruct (I1 a Ha Q); unfold m in *; lia]). assert (QA : phi a = c0) by (destruct (CR_eq_dec (phi a) c0) as [Q|Q]; [exact Q | destruct (I2 a Ha Q); unfold m in *; lia]). rewrite PA, QA. apply injective_projections; cbn; ring.
      Qed.
      (** As many sites of each kind: a singlet. *)
      Theorem singlet X Y Z psi a : r = [] -> total_spin rt s X Y Z -> state_of D F e psi -> (a < D)%nat -> apply D X psi a = c0 /\ apply D Y psi a = c0 /\ apply D Z psi a = c0.
      Proof using All.
        intros R0 T ST Ha. pose proof pair_count as PC. rewrite R0 in PC. cbn [length] in PC. destruct full_lowest as (LK & IN). specialize (IN psi ST). apply (full_eig F e psi made) in ST.
        assert (L : lives n k psi). { intros b Hb N. destruct (CR_eq_dec (psi b) c0) as [Q|Q]; [exact Q|]. destruct (IN b Hb Q). lia. }
        assert (NN : INR n = 2 * INR k) by (rewrite <- PC, Nat.add_0_r, mult_INR; reflexivity).
        assert (V0 : vanishes n (mv n 0 psi)).
        { destruct (present_dec s psi) as [Q|Q]; [exact (highest k e psi l r pr eq_refl LK L ST Q)|]. intros b Hb. rewrite (mv_ext n 0 _ (fun _ => c0 *c c0)) by (intros d Hd; rewrite (Q d Hd); apply injective_projections; cbn; ring). rewrite mv_scale. apply injective_projections; cbn; ring. }
        assert (V1 : vanishes n (mv n 1 psi)).
        { apply norm_zero. rewrite (norm_step n k psi L). rewrite (inner_zero_r D (mv n 0 psi) (mv n 0 psi) V0). cbn [fst kadd]. rewrite NN. replace (2 * INR k - 2 * INR k) with 0 by ring. cbn. ring. }
        rewrite (x_moves rt s X Y Z root half T psi a Ha), (y_moves rt s X Y Z root half T psi a Ha), (z_value rt s X Y Z half T psi a Ha), (V0 a Ha), (V1 a Ha).
        split; [|split]; [apply injective_projections; cbn; ring | apply injective_projections; cbn; ring |]. destruct (Nat.eq_dec (digit_sum 2 n a) k) as [Q|Q]; [rewrite Q, NN; apply injective_projections; cbn; field | rewrite (L a Ha Q); apply injective_projections; cbn; ring].
      Qed.
    End Full.
  End One.
End Kinds.
