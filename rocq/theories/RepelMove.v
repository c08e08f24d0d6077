(** Raising and lowering the spin of two species, on configurations and on states with one
    particle on every site. *)
From Coq Require Import List Arith Lia Reals Lra ZArith QArith Qabs Bool Permutation Classical.
From Verif Require Import Scalars Res Matrix Sums SqMat SpecMat SpecFock OpsProofs FockProofs FermiOps ModelBase ModelFermions ModelSpins SpecSpins Digits SpinOps SpinAlg SpinSwap SpinJordan HamProofs FermiApi SpecPerm
  ModelGeometry ModelPhase ModelSymmetry SymBase ModelThermal SpecThermal ThermalBase ThermalFacts ThermalBasis Spectral Thermo SpecHeat SpecConvex Convex SpecSigns Signs SignsHeat SignsSpins SpecSectors Perron Sectors SectorsRun HopSigns SpecShells Shells ShellsRun SpecLieb Halves LiebRun LiebSpin LiebCorr SpecHalf SpecRepel Repel.
From Verif Require SpinRotate Ladder Chain.
Import ListNotations.
Local Open Scope R_scope.

Section Move.
  Variables (g : fgeom CR) (ts : nat -> nat -> nat -> CR) (us : nat -> CR) (same : nat -> nat -> nat -> CR) (mus : nat -> CR) (pot : nat -> nat -> CR) (pr : mat CR).
  Notation f := (pairsys g ts us same mus pot pr).
  Notation ns := (fg_nsites g).
  Notation nl := (ns * 2)%nat.
  Notation B := (2 ^ ns)%nat.
  Notation D := (2 ^ (ns * 2))%nat.
  Notation gl x y := (glue ns x y).
  Notation cm y := (holes ns y).
  Notation dg i x := (digit 2 ns i x).
  Notation fl := (Ladder.fl ns).
  Notation eta := (state_sign Nat.odd ns).
  Notation SP := (SpinRotate.SP f).
  Lemma flip_pair i x y x' y' : (i < ns)%nat -> (x < B)%nat -> (y < B)%nat -> (x' < B)%nat -> (y' < B)%nat ->
    agree_off 2 nl [i; ns + i]%nat (gl x y) (gl x' y') && ((dg i x =? 1) && (dg i y =? 0) && (dg i x' =? 0) && (dg i y' =? 1))%nat = ((dg i x' =? 0) && (dg i y' =? 1))%nat && (x =? fl i x')%nat && (y =? fl i y')%nat.
  Proof using.
    intros Hi Hx Hy Hx' Hy'. apply bool_eq_iff. rewrite !andb_true_iff, agree_off_spec, !Nat.eqb_eq. split.
    - intros (AG & ((X1 & Y0) & X0) & Y1). split; [split; [auto|]|].
      + apply (Ladder.ext ns); [exact Hx | apply Ladder.fl_lt|]. intros p Hp. rewrite Ladder.dg_fl by exact Hp. destruct (Nat.eqb_spec p i) as [->|NE]; [lia|]. rewrite <- (digit_hi ns x y p), <- (digit_hi ns x' y' p) by assumption. apply AG; [lia|]. intros [Q|[Q|[]]]; lia.
      + apply (Ladder.ext ns); [exact Hy | apply Ladder.fl_lt|]. intros p Hp. rewrite Ladder.dg_fl by exact Hp. destruct (Nat.eqb_spec p i) as [->|NE]; [lia|]. rewrite <- (digit_lo ns x y p), <- (digit_lo ns x' y' p) by assumption. apply AG; [lia|]. intros [Q|[Q|[]]]; lia.
    - intros (((X0 & Y1) & QX) & QY). rewrite QX, QY, !Ladder.dg_same by exact Hi. split; [|repeat split; lia]. intros p Hp NI.
      destruct (Nat.lt_ge_cases p ns) as [L|L].
      + rewrite !digit_hi by (try apply Ladder.fl_lt; assumption). apply Ladder.dg_other; [exact L|]. intros ->. apply NI. left. reflexivity.
      + replace p with (ns + (p - ns))%nat by lia. rewrite !digit_lo by (try apply Ladder.fl_lt; try assumption; lia). apply Ladder.dg_other; [lia|]. intros Q. apply NI. right. left. lia.
  Qed.
  Lemma SP_glue x y x' y' : (x < B)%nat -> (y < B)%nat -> (x' < B)%nat -> (y' < B)%nat ->
    SP (gl x y) (gl x' y') = ksum ns (fun i => (if ((dg i x' =? 0) && (dg i y' =? 1))%nat && (x =? fl i x')%nat && (y =? fl i y')%nat then ksign (between nl i (ns + i) (gl x y)) else c0 : CR)).
  Proof using.
    intros Hx Hy Hx' Hy'. rewrite SP_val by (apply glue_lt; assumption). apply ksum_ext. intros i Hi. rewrite (digit_hi ns x y i), (digit_hi ns x' y' i), (digit_lo ns x y i), (digit_lo ns x' y' i) by assumption. rewrite flip_pair by assumption. reflexivity.
  Qed.
  Lemma SP_real a b : (a < D)%nat -> (b < D)%nat -> conj (SP a b) = SP a b.
  Proof using.
    intros Ha Hb. rewrite SP_val by assumption. rewrite ksum_conj. apply ksum_ext. intros i Hi. match goal with |- conj (if ?c then _ else _) = _ => destruct c end; [|apply kconj_0]. rewrite (real_of _ (snd_ksign _)). apply real_conj.
  Qed.
  (** Sums of moves. *)
  Lemma dn_glue X x y : (x < B)%nat -> (y < B)%nat -> Chain.dn nl SP X (gl x y) = ksum ns (fun i => if ((dg i x =? 1) && (dg i y =? 0))%nat then ksign (between nl i (ns + i) (gl x y)) *c X (gl (fl i x) (fl i y)) else c0).
  Proof using.
    intros Hx Hy. unfold Chain.dn. rewrite (sum_glue g). 
    transitivity (ksum B (fun x' => ksum B (fun y' => ksum ns (fun i => if ((dg i x =? 1) && (dg i y =? 0))%nat && (x' =? fl i x)%nat && (y' =? fl i y)%nat then ksign (between nl i (ns + i) (gl x y)) *c X (gl x' y') else c0)))).
    - apply ksum_ext. intros x' Hx'. apply ksum_ext. intros y' Hy'. rewrite SP_glue by assumption. rewrite <- ksum_mul_r. apply ksum_ext. intros i Hi.
      assert (Q : ((dg i x' =? 0) && (dg i y' =? 1))%nat && (x =? fl i x')%nat && (y =? fl i y')%nat = ((dg i x =? 1) && (dg i y =? 0))%nat && (x' =? fl i x)%nat && (y' =? fl i y)%nat).
      { apply bool_eq_iff. rewrite !andb_true_iff, !Nat.eqb_eq. split; intros (((X0 & Y1) & QX) & QY); subst; rewrite !Ladder.dg_same, !Ladder.fl_fl by assumption; repeat split; lia. }
      rewrite Q. match goal with |- (if ?c then _ else _) *c _ = _ => destruct c end; ring.
    - rewrite (ksum_ext B _ (fun x' => ksum ns (fun i => ksum B (fun y' => if ((dg i x =? 1) && (dg i y =? 0))%nat && (x' =? fl i x)%nat && (y' =? fl i y)%nat then ksign (between nl i (ns + i) (gl x y)) *c X (gl x' y') else c0)))) by (intros; apply ksum_swap).
      rewrite ksum_swap. apply ksum_ext. intros i Hi. destruct ((dg i x =? 1) && (dg i y =? 0))%nat; cbn [andb].
      + rewrite (ksum_single B (fl i x) (fun x' => ksum B (fun y' => if (x' =? fl i x)%nat && (y' =? fl i y)%nat then ksign (between nl i (ns + i) (gl x y)) *c X (gl x' y') else c0)) (Ladder.fl_lt ns i x)).
        * rewrite Nat.eqb_refl. cbn [andb]. rewrite (ksum_single B (fl i y) _ (Ladder.fl_lt ns i y)); [rewrite Nat.eqb_refl; reflexivity|]. intros y' Hy' NE. rewrite (proj2 (Nat.eqb_neq _ _)) by exact NE. reflexivity.
        * intros x' Hx' NE. apply ksum_zero. intros y' Hy'. rewrite (proj2 (Nat.eqb_neq _ _)) by exact NE. reflexivity.
      + apply ksum_zero. intros x' Hx'. apply ksum_0.
  Qed.
  Lemma up_glue X x y : (x < B)%nat -> (y < B)%nat -> Chain.up nl SP X (gl x y) = ksum ns (fun i => if ((dg i x =? 0) && (dg i y =? 1))%nat then ksign (between nl i (ns + i) (gl x y)) *c X (gl (fl i x) (fl i y)) else c0).
  Proof using.
    intros Hx Hy. unfold Chain.up. rewrite (sum_glue g). 
    transitivity (ksum B (fun x' => ksum B (fun y' => ksum ns (fun i => if ((dg i x =? 0) && (dg i y =? 1))%nat && (x' =? fl i x)%nat && (y' =? fl i y)%nat then ksign (between nl i (ns + i) (gl x y)) *c X (gl x' y') else c0)))).
    - apply ksum_ext. intros x' Hx'. apply ksum_ext. intros y' Hy'. rewrite SP_real by (apply glue_lt; assumption). rewrite SP_glue by assumption. rewrite <- ksum_mul_r. apply ksum_ext. intros i Hi.
      match goal with |- (if ?c then _ else _) *c _ = _ => destruct c eqn:C end; [|ring]. f_equal. f_equal. apply andb_true_iff in C as (C & QY). apply andb_true_iff in C as (_ & QX). apply Nat.eqb_eq in QX, QY. subst x' y'.
      unfold between. f_equal. apply map_ext_in. intros p Hp. apply in_seq in Hp. destruct (Nat.lt_ge_cases p ns) as [L|L].
      + rewrite !digit_hi by (try apply Ladder.fl_lt; assumption). apply Ladder.dg_other; lia.
      + replace p with (ns + (p - ns))%nat by lia. rewrite !digit_lo by (try apply Ladder.fl_lt; try assumption; lia). apply Ladder.dg_other; lia.
    - rewrite (ksum_ext B _ (fun x' => ksum ns (fun i => ksum B (fun y' => if ((dg i x =? 0) && (dg i y =? 1))%nat && (x' =? fl i x)%nat && (y' =? fl i y)%nat then ksign (between nl i (ns + i) (gl x y)) *c X (gl x' y') else c0)))) by (intros; apply ksum_swap).
      rewrite ksum_swap. apply ksum_ext. intros i Hi. destruct ((dg i x =? 0) && (dg i y =? 1))%nat; cbn [andb].
      + rewrite (ksum_single B (fl i x) (fun x' => ksum B (fun y' => if (x' =? fl i x)%nat && (y' =? fl i y)%nat then ksign (between nl i (ns + i) (gl x y)) *c X (gl x' y') else c0)) (Ladder.fl_lt ns i x)).
        * rewrite Nat.eqb_refl. cbn [andb]. rewrite (ksum_single B (fl i y) _ (Ladder.fl_lt ns i y)); [rewrite Nat.eqb_refl; reflexivity|]. intros y' Hy' NE. rewrite (proj2 (Nat.eqb_neq _ _)) by exact NE. reflexivity.
        * intros x' Hx' NE. apply ksum_zero. intros y' Hy'. rewrite (proj2 (Nat.eqb_neq _ _)) by exact NE. reflexivity.
      + apply ksum_zero. intros x' Hx'. apply ksum_0.
  Qed.
  (** States with one particle on every site. *)
  Definition singly (phi : nat -> R) (a : nat) : CR := if (a mod B =? cm (a / B))%nat then real (eta (a / B)%nat * phi (a / B)%nat) else c0.
  Lemma singly_glue phi x y : (y < B)%nat -> singly phi (gl x y) = if (y =? cm x)%nat then real (eta x * phi x) else c0.
  Proof using. intros Hy. unfold singly. rewrite glue_hi, glue_lo by exact Hy. reflexivity. Qed.
  Lemma fl_holes i x : (i < ns)%nat -> (x < B)%nat -> cm (fl i x) = fl i (cm x).
  Proof using.
    intros Hi Hx. apply (Ladder.ext ns); [apply holes_lt | apply Ladder.fl_lt|]. intros p Hp. rewrite holes_digit, !Ladder.dg_fl by (try apply Ladder.fl_lt; assumption). destruct (Nat.eqb_spec p i) as [->|NE]; rewrite holes_digit by assumption; reflexivity.
  Qed.
  Lemma eta_flip i x : (i < ns)%nat -> (x < B)%nat -> real (eta (fl i x)) = ksign i *c real (eta x).
  Proof using.
    intros Hi Hx. assert (AG : agree_off 2 ns [i] x (fl i x) = true) by (apply agree_off_spec; intros q Hq NI; symmetry; apply Ladder.dg_other; [exact Hq | intros ->; apply NI; left; reflexivity]).
    pose proof (sign_flip Nat.odd ns i x (fl i x) Hi AG ltac:(rewrite Ladder.dg_same by exact Hi; destruct (digit2_cases ns i x) as [-> | ->]; lia)) as S.
    rewrite (real_of (ksign i) (snd_ksign i)), <- odd_side, <- S. destruct (state_signs Nat.odd ns x Hx) as [Q|Q]; rewrite Q; apply injective_projections; cbn; ring.
  Qed.
  Lemma between_pair i x : (i < ns)%nat -> (x < B)%nat -> ksign (between nl i (ns + i) (gl x (cm x))) = ksign (K:=CR) i *c ksign (digit_sum 2 ns x + dg i x).
  Proof using.
    intros Hi Hx. unfold between. replace (Nat.min i (ns + i)) with i by lia. replace (Nat.max i (ns + i) - i - 1)%nat with ((ns - S i) + i)%nat by lia. rewrite seq_app, map_app, list_sum_app.
    replace (S i + (ns - S i))%nat with ns by lia.
    set (hi := list_sum (map (fun q => dg q x) (seq (S i) (ns - S i)))). set (lo := list_sum (map (fun q => dg q x) (seq 0 i))).
    assert (Q1 : list_sum (map (fun q => digit 2 nl q (gl x (cm x))) (seq (S i) (ns - S i))) = hi) by (unfold hi; f_equal; apply map_ext_in; intros q Hq; apply in_seq in Hq; apply digit_hi; [lia | apply holes_lt]).
    assert (Q2 : (list_sum (map (fun q => digit 2 nl q (gl x (cm x))) (seq ns i)) + lo = i)%nat).
    { assert (SH : seq ns i = map (fun q => ns + q)%nat (seq 0 i)) by (clear; rewrite <- (Nat.add_0_r ns) at 1; generalize 0%nat; induction i as [|i IH]; intros k; [reflexivity|]; cbn [seq map]; f_equal; rewrite <- Nat.add_succ_r; apply IH).
      rewrite SH, map_map. rewrite (map_ext_in _ (fun q => dg q (cm x))) by (intros q Hq; apply in_seq in Hq; apply digit_lo; [lia | apply holes_lt]).
      unfold lo. pose proof (holes_sum ns (seq 0 i) x Hx ltac:(intros q Hq; apply in_seq in Hq; lia)) as Z. rewrite seq_length in Z. exact Z. }
    assert (Q3 : digit_sum 2 ns x = (lo + dg i x + hi)%nat).
    { unfold digit_sum. assert (SQ : seq 0 ns = seq 0 i ++ i :: seq (S i) (ns - S i)) by (replace ns with (i + S (ns - S i))%nat at 1 by lia; rewrite seq_app; reflexivity). rewrite SQ. rewrite map_app, list_sum_app. cbn [map]. unfold lo, hi. change (list_sum (?u :: ?v)) with (u + list_sum v)%nat. lia. }
    rewrite Q1, Q3. set (lc := list_sum (map _ (seq ns i))) in *. generalize (dg i x). intros e. rewrite <- Q2. clearbody lc hi lo. clear.
    rewrite !ksign_plus. pose proof (ksign_twice lo) as T1. pose proof (ksign_twice e) as T2. rewrite ksign_plus in T1, T2.
    transitivity (ksign (K:=CR) lc *c ksign hi *c (ksign lo *c ksign lo) *c (ksign e *c ksign e)); [rewrite T1, T2; apply injective_projections; cbn; ring | ring].
  Qed.
  Lemma up_singly phi x y : (x < B)%nat -> (y < B)%nat -> Chain.up nl SP (singly phi) (gl x y) =
    if (y =? cm x)%nat then ksign (digit_sum 2 ns x) *c real (eta x * total (fun p => if (dg p x =? 0)%nat then phi (fl p x) else 0) (seq 0 ns)) else c0.
  Proof using.
    intros Hx Hy. rewrite up_glue by assumption. destruct (Nat.eqb_spec y (cm x)) as [->|NE].
    - transitivity (ksum ns (fun i => ksign (digit_sum 2 ns x) *c (real (eta x) *c real (if (dg i x =? 0)%nat then phi (fl i x) else 0)))).
      + apply ksum_ext. intros i Hi. rewrite holes_digit by assumption. destruct (digit2_cases ns i x) as [Q|Q]; rewrite Q; cbn [Nat.sub Nat.eqb andb]; [|apply injective_projections; cbn; ring].
        rewrite singly_glue by apply Ladder.fl_lt. rewrite fl_holes, Nat.eqb_refl by assumption. rewrite between_pair, Q, Nat.add_0_r by assumption.
        assert (RM : forall u v, real (u * v) = real u *c real v) by (intros; apply injective_projections; cbn; ring). rewrite RM, eta_flip by assumption.
        pose proof (ksign_twice i) as T. rewrite ksign_plus in T. transitivity ((ksign i *c ksign i) *c (ksign (digit_sum 2 ns x) *c (real (eta x) *c real (phi (fl i x))))); [ring | rewrite T; apply injective_projections; cbn; ring].
      + rewrite ksum_mul_l, ksum_mul_l, ksum_reals. f_equal. apply injective_projections; cbn; ring.
    - apply ksum_zero. intros i Hi. destruct ((dg i x =? 0) && (dg i y =? 1))%nat eqn:C; [|reflexivity]. rewrite singly_glue by apply Ladder.fl_lt. rewrite (proj2 (Nat.eqb_neq _ _)); [ring|]. rewrite fl_holes by assumption. intros Q. apply NE.
      rewrite <- (Ladder.fl_fl ns i y Hy Hi), Q. apply Ladder.fl_fl; [apply holes_lt | exact Hi].
  Qed.
  Lemma dn_singly phi x y : (x < B)%nat -> (y < B)%nat -> Chain.dn nl SP (singly phi) (gl x y) =
    if (y =? cm x)%nat then kopp (ksign (digit_sum 2 ns x)) *c real (eta x * total (fun p => if (dg p x =? 1)%nat then phi (fl p x) else 0) (seq 0 ns)) else c0.
  Proof using.
    intros Hx Hy. rewrite dn_glue by assumption. destruct (Nat.eqb_spec y (cm x)) as [->|NE].
    - transitivity (ksum ns (fun i => kopp (ksign (digit_sum 2 ns x)) *c (real (eta x) *c real (if (dg i x =? 1)%nat then phi (fl i x) else 0)))).
      + apply ksum_ext. intros i Hi. rewrite holes_digit by assumption. destruct (digit2_cases ns i x) as [Q|Q]; rewrite Q; cbn [Nat.sub Nat.eqb andb]; [apply injective_projections; cbn; ring|].
        rewrite singly_glue by apply Ladder.fl_lt. rewrite fl_holes, Nat.eqb_refl by assumption. rewrite between_pair, Q, Nat.add_1_r by assumption. cbn [ksign].
        assert (RM : forall u v, real (u * v) = real u *c real v) by (intros; apply injective_projections; cbn; ring). rewrite RM, eta_flip by assumption.
        pose proof (ksign_twice i) as T. rewrite ksign_plus in T. transitivity ((ksign i *c ksign i) *c (kopp (ksign (digit_sum 2 ns x)) *c (real (eta x) *c real (phi (fl i x))))); [ring | rewrite T; apply injective_projections; cbn; ring].
      + rewrite ksum_mul_l, ksum_mul_l, ksum_reals. f_equal. apply injective_projections; cbn; ring.
    - apply ksum_zero. intros i Hi. destruct ((dg i x =? 1) && (dg i y =? 0))%nat eqn:C; [|reflexivity]. rewrite singly_glue by apply Ladder.fl_lt. rewrite (proj2 (Nat.eqb_neq _ _)); [ring|]. rewrite fl_holes by assumption. intros Q. apply NE.
      rewrite <- (Ladder.fl_fl ns i y Hy Hi), Q. apply Ladder.fl_fl; [apply holes_lt | exact Hi].
  Qed.
  (** ** Sectors *)
  Definition in_sector (m a : nat) : Prop := digit_sum 2 ns (a / B) = m /\ (digit_sum 2 ns (a mod B) + m = ns)%nat.
  Definition lives (m : nat) (X : nat -> CR) : Prop := forall a, (a < D)%nat -> ~ in_sector m a -> X a = c0.
  Lemma in_glue m x y : (y < B)%nat -> (in_sector m (gl x y) <-> digit_sum 2 ns x = m /\ (digit_sum 2 ns y + m = ns)%nat).
  Proof using. clear ts us same mus pot pr. intros Hy. unfold in_sector. rewrite glue_hi, glue_lo by exact Hy. tauto. Qed.
  Lemma up_lives m X : lives (S m) X -> lives m (Chain.up nl SP X).
  Proof using.
    intros L a Ha NI. destruct (glue_split ns a Ha) as (L1 & L2 & Q). revert L1 L2 Q. generalize (a / B)%nat (a mod B)%nat. intros x y L1 L2 <-. rewrite up_glue by assumption. apply ksum_zero. intros i Hi. destruct ((dg i x =? 0) && (dg i y =? 1))%nat eqn:C; [|reflexivity].
    rewrite L; [ring | apply glue_lt; apply Ladder.fl_lt|]. intros I. apply NI. rewrite in_glue in * by (try apply Ladder.fl_lt; assumption). apply andb_true_iff in C as (C0 & C1). apply Nat.eqb_eq in C0, C1.
    pose proof (Ladder.fl_sum ns i x Hi) as F1. pose proof (Ladder.fl_sum ns i y Hi) as F2. rewrite C0 in F1. rewrite C1 in F2. lia.
  Qed.
  Lemma dn_lives m X : lives m X -> lives (S m) (Chain.dn nl SP X).
  Proof using.
    intros L a Ha NI. destruct (glue_split ns a Ha) as (L1 & L2 & Q). revert L1 L2 Q. generalize (a / B)%nat (a mod B)%nat. intros x y L1 L2 <-. rewrite dn_glue by assumption. apply ksum_zero. intros i Hi. destruct ((dg i x =? 1) && (dg i y =? 0))%nat eqn:C; [|reflexivity].
    rewrite L; [ring | apply glue_lt; apply Ladder.fl_lt|]. intros I. apply NI. rewrite in_glue in * by (try apply Ladder.fl_lt; assumption). apply andb_true_iff in C as (C0 & C1). apply Nat.eqb_eq in C0, C1.
    pose proof (Ladder.fl_sum ns i x Hi) as F1. pose proof (Ladder.fl_sum ns i y Hi) as F2. rewrite C0 in F1. rewrite C1 in F2. lia.
  Qed.
  Lemma up_top X : lives 0 X -> Ladder.vanishes nl (Chain.up nl SP X).
  Proof using.
    intros L a Ha. destruct (glue_split ns a Ha) as (L1 & L2 & Q). revert L1 L2 Q. generalize (a / B)%nat (a mod B)%nat. intros x y L1 L2 <-. rewrite up_glue by assumption. apply ksum_zero. intros i Hi. destruct ((dg i x =? 0) && (dg i y =? 1))%nat eqn:C; [|reflexivity].
    rewrite L; [ring | apply glue_lt; apply Ladder.fl_lt|]. intros I. rewrite in_glue in I by apply Ladder.fl_lt. apply andb_true_iff in C as (C0 & C1). apply Nat.eqb_eq in C0, C1.
    pose proof (Ladder.fl_sum ns i x Hi) as F1. rewrite C0 in F1. lia.
  Qed.
  Lemma lives_le m X : lives m X -> Chain.some nl X -> (m <= ns)%nat.
  Proof using. intros L (a & Ha & NA). destruct (Nat.le_gt_cases m ns) as [Q|Q]; [exact Q|]. exfalso. apply NA, L; [exact Ha|]. intros (_ & I). lia. Qed.
End Move.
