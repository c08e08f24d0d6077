(** Fermions that attract each other: the total spin and the correlations of the ground
    state. *)
From Coq Require Import List Arith Lia Reals Lra ZArith QArith Qabs Bool Permutation Classical.
From Verif Require Import Scalars Res Matrix Sums SqMat SpecMat SpecFock OpsProofs FockProofs FermiOps ModelBase ModelFermions ModelSpins SpecSpins Digits SpinOps SpinAlg SpinSwap SpinJordan HamProofs FermiApi SpecPerm
  ModelGeometry ModelPhase ModelSymmetry SymBase ModelThermal SpecThermal ThermalBase ThermalFacts ThermalBasis Spectral Thermo SpecHeat SpecConvex Convex SpecSigns Signs SignsHeat SignsSpins SpecSectors Perron Sectors HopSigns SpecShells Shells ShellsRun SpecLieb Halves Lieb LiebRun SpecHalf HalfHam.
From Verif Require SpinRotate SpecSinglet FreeFermi.
Import ListNotations.
Local Open Scope R_scope.

Section Full.
  Variables (g : fgeom CR) (ts : nat -> nat -> nat -> CR) (us : nat -> CR) (same : nat -> nat -> nat -> CR) (mus : nat -> CR) (pot : nat -> nat -> CR) (pr : mat CR).
  Notation f := (pairsys g ts us same mus pot pr).
  Notation ns := (fg_nsites g).
  Notation B := (2 ^ ns)%nat.
  Notation D := (2 ^ (ns * 2))%nat.
  Notation dg p a := (digit 2 (ns * 2) p a).
  Notation gl x y := (glue ns x y).
  Notation F := (HS2 f (amplitude f)).
  Hypothesis att : attracting f.
  Lemma F_real a b : (a < D)%nat -> (b < D)%nat -> snd (F a b) = 0.
  Proof using att.
    intros Ha Hb. destruct (glue_split ns a Ha) as (A1 & A2 & <-). destruct (glue_split ns b Hb) as (B1 & B2 & <-). rewrite glue_ham by assumption. rewrite h1_same by assumption.
    assert (PL : forall z w : CR, snd z = 0 -> snd w = 0 -> snd (z +c w) = 0) by (intros z w Z W; cbn; rewrite Z, W; ring).
    apply PL; [apply PL|].
    - apply snd_mul0; [apply h1_snd; assumption | apply snd_kb].
    - apply snd_mul0; [apply snd_kb | apply h1_snd; assumption].
    - apply snd_mul0; [apply snd_mul0; apply snd_kb|]. apply snd_ksum_zero. intros i Hi. rewrite (us_real g ts us same mus pot pr att i Hi). apply snd_mul_real, snd_mul0; apply snd_kb.
  Qed.
  Lemma hop_sym p r a b : p <> r -> (p < ns * 2)%nat -> (r < ns * 2)%nat -> (a < D)%nat -> (b < D)%nat -> hop f p r a b = hop f p r b a.
  Proof using.
    intros NE Hp Hr Ha Hb. rewrite !(hop_values f) by assumption. cbn [f_geom f_nspecies pairsys].
    replace (agree_off 2 (ns * 2) [p; r] b a) with (agree_off 2 (ns * 2) [p; r] a b) by (apply bool_eq_iff; rewrite !agree_off_spec; split; intros W x Hx NI; symmetry; apply W; assumption).
    destruct (agree_off 2 (ns * 2) [p; r] a b) eqn:AG; cbn [andb]; [|reflexivity]. rewrite agree_off_spec in AG.
    replace (between (ns * 2) p r b) with (between (ns * 2) p r a) by (unfold between; f_equal; apply map_ext_in; intros x Hx; apply in_seq in Hx; apply AG; [lia|]; intros [X|[X|[]]]; lia).
    destruct (digit2_cases (ns * 2) p a) as [-> | ->], (digit2_cases (ns * 2) p b) as [-> | ->], (digit2_cases (ns * 2) r a) as [-> | ->], (digit2_cases (ns * 2) r b) as [-> | ->]; reflexivity.
  Qed.
  Lemma F_sym a b : (a < D)%nat -> (b < D)%nat -> F a b = F b a.
  Proof using.
    intros Ha Hb. destruct (Nat.eq_dec a b) as [<-|NE]; [reflexivity|]. rewrite !(off_diagonal f) by (try assumption; try (left; cbn; lia); auto). apply ksum_ext. intros i Hi. apply ksum_ext. intros j Hj. apply ksum_ext. intros s Hs.
    cbn [f_geom f_nspecies pairsys] in *. f_equal. f_equal. apply hop_sym; try assumption; nia.
  Qed.
  Lemma F_keeps counts a b : full f counts a -> (b < D)%nat -> F a b <> c0 -> full f counts b.
  Proof using.
    intros FA Hb NZ. destruct (Nat.eq_dec a b) as [<-|NE]; [exact FA|]. apply NNPP. intros NF. apply NZ. pose proof (proj1 FA) as Ha. cbn [f_geom f_nspecies pairsys] in Ha.
    rewrite (off_diagonal f) by (try assumption; left; cbn; lia). cbn [f_geom f_nspecies pairsys]. apply ksum_zero. intros i Hi. apply ksum_zero. intros j Hj. apply ksum_zero. intros s Hs.
    assert (Hp : (ns * s + i < ns * 2)%nat) by nia. assert (Hr : (ns * s + j < ns * 2)%nat) by nia.
    rewrite (hop_values f) by (cbn [f_geom f_nspecies pairsys]; assumption || lia). cbn [f_geom f_nspecies pairsys].
    destruct (agree_off 2 (ns * 2) [ns * s + i; ns * s + j] a b)%nat eqn:AG; cbn [andb]; [|ring]. rewrite agree_off_spec in AG.
    destruct (negb (dg (ns * s + i) a =? dg (ns * s + j) a)%nat && (dg (ns * s + i) b =? dg (ns * s + j) a)%nat && (dg (ns * s + j) b =? dg (ns * s + i) a)%nat) eqn:C; [|ring].
    apply andb_true_iff in C as (C & C2). apply andb_true_iff in C as (_ & C1). apply Nat.eqb_eq in C1, C2. exfalso. apply NF.
    replace b with (pull 2 (ns * 2) (exchange (ns * s + i) (ns * s + j)) a); [apply (swap_full f counts a s i j FA); cbn; lia|].
    apply (digits_ext 2 ltac:(discriminate) (ns * 2)); [apply pull_lt; discriminate | exact Hb|]. intros p Hq. rewrite digit_pull by (discriminate || exact Hq).
    destruct (Nat.eq_dec p (ns * s + i)) as [->|N1]; [rewrite exchange_l; symmetry; exact C1|]. destruct (Nat.eq_dec p (ns * s + j)) as [->|N2]; [rewrite exchange_r; symmetry; exact C2|].
    rewrite exchange_o by assumption. apply AG; [exact Hq|]. intros [X|[X|[]]]; congruence.
  Qed.

  Variables (M : nat) (P : mat CR) (idx : list nat) (H V : mat CR) (E : list R).
  Hypothesis conn : connected_hops f.
  Hypothesis sec : shell ns 2 [M; M] P idx.
  Hypothesis made : createH f (Some P) = Ok H.
  Hypothesis basis : eigenbasis H V E.
  Variable e : R.
  Hypothesis sm : smallest e E.
  Notation N := (length idx).
  Notation at_ p := (nth p idx 0%nat).
  Notation N1 := (length (idx1 g M)).
  Notation at1 u := (nth u (idx1 g M) 0%nat).
  Notation pos u v := (pos g M idx u v).
  Notation hi p := (hi g M idx p).
  Notation lo p := (lo g M idx p).
  Notation spread := SpecSinglet.spread.
  Notation ent_F := (shell_ent f [M; M] P idx H sec (us_fine g ts us same mus pot pr) made).
  Lemma at_D p : (p < N)%nat -> (at_ p < D)%nat.
  Proof using ts us same mus pot pr sec. intros Hp. exact (proj1 (at_full f [M; M] P idx sec p Hp)). Qed.
  Lemma act_spread (X : nat -> nat -> CR) psi a : ksum D (fun b => X a b *c spread idx psi b) = ksum N (fun q => X a (at_ q) *c psi q).
  Proof using ts us same mus pot pr sec.
    unfold SpecSinglet.spread. rewrite (ksum_ext D _ (fun b => ksum N (fun q => if (at_ q =? b)%nat then X a b *c psi q else c0))).
    - rewrite ksum_swap. apply ksum_ext. intros q Hq. rewrite (ksum_single D (at_ q) _ (at_D q Hq)); [rewrite Nat.eqb_refl; reflexivity|]. intros b Hb Nb. rewrite (proj2 (Nat.eqb_neq _ _)) by congruence. reflexivity.
    - intros b Hb. rewrite <- ksum_mul_l. apply ksum_ext. intros q Hq. destruct (at_ q =? b)%nat; [reflexivity | apply injective_projections; cbn; ring].
  Qed.
  Lemma spread_pos psi p : (p < N)%nat -> spread idx psi (at_ p) = psi p.
  Proof using ts us same mus pot pr sec.
    intros Hp. unfold SpecSinglet.spread. rewrite (ksum_single N p); [rewrite Nat.eqb_refl; reflexivity | exact Hp|]. intros q Hq Nq. rewrite (proj2 (Nat.eqb_neq _ _)); [reflexivity|]. intros X. apply Nq, (shell_inj f [M; M] P idx sec); assumption.
  Qed.
  Lemma off_shell a q : (a < D)%nat -> ~ In a idx -> (q < N)%nat -> F a (at_ q) = c0.
  Proof using ts us same mus pot pr sec.
    intros Ha NI Hq. apply NNPP. intros NZ. apply NI. rewrite F_sym in NZ by (assumption || apply at_D, Hq).
    pose proof (F_keeps [M; M] (at_ q) a (at_full f [M; M] P idx sec q Hq) Ha NZ) as FA. destruct (full_at f [M; M] P idx sec a FA) as (p & Hp & <-). apply nth_In, Hp.
  Qed.
  Lemma spread_eig psi : state_of N H e psi -> forall a, (a < D)%nat -> ksum D (fun b => F a b *c spread idx psi b) = real e *c spread idx psi a.
  Proof using ts us same mus pot pr sec made.
    intros ST a Ha. rewrite act_spread. destruct (in_dec Nat.eq_dec a idx) as [I|NI].
    - destruct (In_nth idx a 0%nat I) as (p & Hp & <-). rewrite spread_pos by exact Hp. etransitivity; [|exact (ST p Hp)]. unfold apply. apply ksum_ext. intros q Hq. destruct ent_F as (_ & _ & W). rewrite W by assumption. reflexivity.
    - rewrite ksum_zero by (intros q Hq; rewrite off_shell by assumption; ring).
      unfold SpecSinglet.spread. rewrite ksum_zero; [ring|]. intros q Hq. rewrite (proj2 (Nat.eqb_neq _ _)); [reflexivity|]. intros <-. apply NI, nth_In, Hq.
  Qed.
  Lemma eig_shell X : (forall a, (a < D)%nat -> ksum D (fun b => F a b *c X b) = real e *c X a) -> state_of N H e (fun p => X (at_ p)).
  Proof using ts us same mus pot pr sec made.
    intros EX p Hp. etransitivity; [|exact (EX (at_ p) (at_D p Hp))]. unfold apply. destruct ent_F as (_ & _ & W).
    transitivity (ksum D (fun b => F (at_ p) b *c spread idx (fun q => X (at_ q)) b)).
    - rewrite act_spread. apply ksum_ext. intros q Hq. rewrite W by assumption. reflexivity.
    - apply ksum_ext. intros b Hb. destruct (in_dec Nat.eq_dec b idx) as [I|NI].
      + destruct (In_nth idx b 0%nat I) as (q & Hq & <-). rewrite spread_pos by exact Hq. reflexivity.
      + rewrite F_sym, off_shell by (assumption || apply at_D, Hp). ring.
  Qed.

  Theorem kills (SP : nat -> nat -> CR) psi : (forall a b, (a < D)%nat -> (b < D)%nat -> ksum D (fun c => F a c *c SP c b) = ksum D (fun c => SP a c *c F c b)) ->
    (forall a x, (a < D)%nat -> (x < B)%nat -> SP a (gl x x) = c0) -> state_of N H e psi -> forall a, (a < D)%nat -> ksum D (fun b => SP a b *c spread idx psi b) = c0.
  Proof using att conn sec made basis sm.
    intros SP_comm SP_pairs ST. set (Phi := spread idx psi). set (Psi := fun a => ksum D (fun b => SP a b *c Phi b)). set (Chi := fun a => ksum D (fun b => conj (SP b a) *c Psi b)).
    assert (E1 : forall a, (a < D)%nat -> ksum D (fun b => F a b *c Phi b) = real e *c Phi a) by (apply spread_eig; exact ST).
    assert (SW : forall (X Y : nat -> nat -> CR) (Z : nat -> CR) a, ksum D (fun b => X a b *c ksum D (fun c => Y b c *c Z c)) = ksum D (fun c => ksum D (fun b => X a b *c Y b c) *c Z c)).
    { intros X Y Z a. rewrite (ksum_ext D _ (fun b => ksum D (fun c => X a b *c Y b c *c Z c))) by (intros b _; rewrite <- ksum_mul_l; apply ksum_ext; intros; ring). rewrite ksum_swap. apply ksum_ext. intros c _. apply ksum_mul_r. }
    assert (E2 : forall a, (a < D)%nat -> ksum D (fun b => F a b *c Psi b) = real e *c Psi a).
    { intros a Ha. unfold Psi. rewrite SW. rewrite (ksum_ext D _ (fun c => ksum D (fun b => SP a b *c F b c) *c Phi c)) by (intros c Hc; rewrite SP_comm by assumption; reflexivity).
      rewrite <- SW, <- ksum_mul_l. apply ksum_ext. intros b Hb. rewrite E1 by exact Hb. ring. }
    assert (E3 : forall a, (a < D)%nat -> ksum D (fun b => F a b *c Chi b) = real e *c Chi a).
    { intros a Ha. unfold Chi. rewrite (SW F (fun b c => conj (SP c b)) Psi a).
      rewrite (ksum_ext D _ (fun c => ksum D (fun b => conj (SP b a) *c F b c) *c Psi c)).
      - rewrite <- (SW (fun a b => conj (SP b a)) F Psi a), <- ksum_mul_l. apply ksum_ext. intros b Hb. rewrite E2 by exact Hb. ring.
      - intros c Hc. f_equal. pose proof (SP_comm c a Hc Ha) as Q. apply (f_equal (fun z : CR => conj z)) in Q. rewrite !ksum_conj in Q.
        assert (FR : forall x y, (x < D)%nat -> (y < D)%nat -> conj (F x y) = F y x) by (intros x y Hx Hy; rewrite (F_sym y x) by assumption; rewrite (real_of (F x y) (F_real x y Hx Hy)); apply real_conj).
        transitivity (ksum D (fun d => conj (SP c d *c F d a))).
        + apply ksum_ext. intros d Hd. rewrite kconj_mul, (FR d a) by assumption. ring.
        + rewrite <- Q. apply ksum_ext. intros d Hd. rewrite kconj_mul, (FR c d) by assumption. ring. }
    pose proof (eig_shell Chi E3) as SC.
    destruct (lieb_matrix g ts us same mus pot pr M P idx H V E att conn sec made basis e sm) as (G & SG & DG & _ & UG).
    destruct (UG _ SC) as (z & Qz).
    assert (HN : (0 < N1)%nat).
    { destruct (Nat.eq_dec N1 0) as [Q|Q]; [|lia]. exfalso. destruct sm as (IE & _). destruct (In_nth E e 0 IE) as (k & Hk & _). destruct basis as ((L & _) & ON & _). pose proof (ON k k ltac:(lia) ltac:(lia)) as O2.
      rewrite (shell_rows f [M; M] P idx H V E (us_fine g ts us same mus pot pr) sec made basis), Nat.eqb_refl, (inner_pairs g M P idx sec), Q in O2. apply (f_equal fst) in O2. cbn in O2. lra. }
    assert (Z0 : z = c0).
    { assert (T : z *c real (rsum N1 (fun u => G u u)) = c0).
      { transitivity (ksum N1 (fun u => z *c real (G u u))).
        - rewrite ksum_mul_l. f_equal. clear. induction N1 as [|n IH]; [reflexivity|]. cbn [rsum ksum]. rewrite <- IH, real_add. reflexivity.
        - apply ksum_zero. intros u Hu. destruct (pos_spec g M P idx sec u u Hu Hu) as (Hp & Ep).
          pose proof (Qz (pos u u) Hp) as Q. cbn beta in Q. rewrite (hi_pos g M P idx sec), (lo_pos g M P idx sec), Ep in Q by assumption. rewrite <- Q. unfold Chi. apply ksum_zero. intros b Hb.
          rewrite SP_pairs by (try assumption; apply at1_lt; exact Hu). rewrite kconj_0. ring. }
      assert (TP : 0 < rsum N1 (fun u => G u u)).
      { rewrite rsum_total. apply (total_positive _ _ 0%nat); [|apply in_seq; lia|].
        - intros u Hu. apply in_seq in Hu. pose proof (DG _ u ltac:(lia) (unit_nonzero u)) as Q. rewrite form_unit in Q by lia. cbn in Q. lra.
        - pose proof (DG _ 0%nat HN (unit_nonzero 0)) as Q. rewrite form_unit in Q by exact HN. cbn in Q. lra. }
      destruct z as (p, q). pose proof (f_equal fst T) as T1. pose proof (f_equal snd T) as T2. cbn in T1, T2. apply injective_projections; cbn; apply (Rmult_eq_reg_r (rsum N1 (fun u => G u u))); lra. }
    assert (NP : rsum D (fun a => fst (conj (Psi a) *c Psi a)) = 0).
    { rewrite <- fst_ksum. transitivity (fst (ksum N (fun q => conj (psi q) *c Chi (at_ q)))).
      - f_equal. transitivity (conj (ksum N (fun q => conj (Chi (at_ q)) *c psi q))).
        + rewrite <- (act_spread (fun _ b => conj (Chi b)) psi 0%nat). fold Phi. rewrite ksum_conj.
          rewrite (ksum_ext D (fun b => conj (conj (Chi b) *c Phi b)) (fun b => ksum D (fun a => conj (SP a b *c Phi b) *c Psi a))).
          * rewrite ksum_swap. apply ksum_ext. intros a Ha. rewrite ksum_mul_r, <- ksum_conj. reflexivity.
          * intros b Hb. rewrite kconj_mul, kconj_inv. unfold Chi. rewrite <- ksum_mul_r. apply ksum_ext. intros a Ha. rewrite kconj_mul. ring.
        + rewrite ksum_conj. apply ksum_ext. intros q Hq. rewrite kconj_mul, kconj_inv. change (@eq CR (Chi (at_ q) *c conj (psi q)) (conj (psi q) *c Chi (at_ q))). ring.
      - rewrite ksum_zero; [reflexivity|]. intros q Hq. pose proof (Qz q Hq) as Q. cbn beta in Q. rewrite Q, Z0. ring. }
    intros a Ha. change (Psi a = c0). apply sq_zero.
    assert (PP : forall b, (b < D)%nat -> 0 <= fst (conj (Psi b) *c Psi b)) by (intros b _; rewrite conj_real; cbn [real fst]; nra).
    pose proof (rsum_zero D _ PP NP a Ha) as Q. cbn beta in Q. rewrite conj_real in Q. exact Q.
  Qed.
  (** ** The total spin *)
  Hypothesis sym : spin_symmetric f.
  Lemma F_conj x y : (x < D)%nat -> (y < D)%nat -> conj (F x y) = F y x.
  Proof using att. intros Hx Hy. rewrite (F_sym y x) by assumption. rewrite (real_of (F x y) (F_real x y Hx Hy)). apply real_conj. Qed.
  Notation SP := (SpinRotate.SP f).
  Lemma SP_val a b : (a < D)%nat -> (b < D)%nat -> SP a b = ksum ns (fun i => (if agree_off 2 (ns * 2) [i; ns + i]%nat a b && ((dg i a =? 1) && (dg (ns + i) a =? 0) && (dg i b =? 0) && (dg (ns + i) b =? 1))%nat then ksign (between (ns * 2) i (ns + i) a) else c0 : CR)).
  Proof using.
    intros Ha Hb. unfold SpinRotate.SP. cbn [f_geom pairsys]. apply ksum_ext. intros i Hi. unfold SpinRotate.raise. change (nlog (f_sys f)) with (ns * 2)%nat. unfold lsite. change (s_nsites (f_sys f)) with ns.
    pose proof (one_way f (ns * 0 + i) (ns * 1 + i) a b) as W. cbn [f_geom f_nspecies pairsys] in W. rewrite W by (assumption || lia). rewrite Nat.mul_0_r, Nat.mul_1_r, Nat.add_0_l. reflexivity.
  Qed.
  Lemma SP_pairs a x : (a < D)%nat -> (x < B)%nat -> SP a (gl x x) = c0.
  Proof using.
    intros Ha Hx. rewrite SP_val by (try assumption; apply glue_lt; assumption). apply ksum_zero. intros i Hi. rewrite digit_hi, digit_lo by assumption.
    destruct (digit2_cases ns i x) as [-> | ->]; cbn [Nat.eqb]; rewrite ?andb_false_r; reflexivity.
  Qed.
  Lemma SP_comm a b : (a < D)%nat -> (b < D)%nat -> ksum D (fun c => F a c *c SP c b) = ksum D (fun c => SP a c *c F c b).
  Proof using sym.
    intros Ha Hb. pose proof (SpinRotate.ad_H f sym a b Ha Hb) as Z. unfold FreeFermi.ad, s0, smul in Z.
    change (nlog (f_sys f)) with (ns * 2)%nat in Z. change (HS2 f (teff f)) with F in Z.
    transitivity (ksum D (fun c => SP a c *c F c b) +c (ksum D (fun c => F a c *c SP c b) -c ksum D (fun c => SP a c *c F c b))); [apply injective_projections; cbn; ring|]. rewrite Z. apply injective_projections; cbn; ring.
  Qed.
  Theorem raise_kills psi : state_of N H e psi -> forall a, (a < D)%nat -> ksum D (fun b => SP a b *c spread idx psi b) = c0.
  Proof using att conn sec made basis sm sym. apply kills; [apply SP_comm | apply SP_pairs]. Qed.
  Lemma SP_pairs' b x : (b < D)%nat -> (x < B)%nat -> SP (gl x x) b = c0.
  Proof using.
    intros Ha Hx. rewrite SP_val by (try assumption; apply glue_lt; assumption). apply ksum_zero. intros i Hi. rewrite digit_hi, digit_lo by assumption.
    destruct (digit2_cases ns i x) as [-> | ->]; cbn [Nat.eqb andb]; rewrite ?andb_false_r; reflexivity.
  Qed.
  Theorem lower_kills psi : state_of N H e psi -> forall a, (a < D)%nat -> ksum D (fun b => conj (SP b a) *c spread idx psi b) = c0.
  Proof using att conn sec made basis sm sym.
    apply (kills (fun a b => conj (SP b a))).
    - intros a b Ha Hb. pose proof (SP_comm b a Hb Ha) as Q. apply (f_equal (fun z : CR => conj z)) in Q. rewrite !ksum_conj in Q.
      etransitivity; [|etransitivity; [symmetry; exact Q|]]; apply ksum_ext; intros c Hc; rewrite kconj_mul, F_conj by assumption; ring.
    - intros a x Ha Hx. rewrite SP_pairs' by assumption. apply kconj_0.
  Qed.
End Full.
