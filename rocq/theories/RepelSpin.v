(** Fermions that repel each other, as many particles as sites: sectors, energies and the
    total spin. *)
From Coq Require Import List Arith Lia Reals Lra ZArith QArith Qabs Bool Permutation Classical.
From Verif Require Import Scalars Res Matrix Sums SqMat SpecMat SpecFock OpsProofs FockProofs FermiOps ModelBase ModelFermions ModelSpins SpecSpins Digits SpinOps SpinAlg SpinSwap SpinJordan HamProofs FermiApi SpecPerm
  ModelGeometry ModelPhase ModelSymmetry SymBase ModelThermal SpecThermal ThermalBase ThermalFacts ThermalBasis Spectral Thermo SpecHeat SpecConvex Convex SpecSigns Signs SignsHeat SignsSpins SpecSectors Perron Sectors SectorsRun HopSigns SpecShells Shells ShellsRun SpecLieb Halves LiebRun LiebSpin LiebCorr SpecHalf SpecRepel Repel RepelRun RepelCorr RepelMove.
From Verif Require SpinRotate Ladder Chain FreeFermi SpecSinglet Heis Singlet Dimers SingletApi SingletRun.
Import ListNotations.
Local Open Scope R_scope.

Section Spin.
  Variables (part : nat -> bool) (g : fgeom CR) (ts : nat -> nat -> nat -> CR) (us : nat -> CR) (same : nat -> nat -> nat -> CR) (mus : nat -> CR) (pot : nat -> nat -> CR) (pr : mat CR).
  Notation f := (pairsys g ts us same mus pot pr).
  Notation ns := (fg_nsites g).
  Notation nl := (ns * 2)%nat.
  Notation B := (2 ^ ns)%nat.
  Notation D := (2 ^ (ns * 2))%nat.
  Notation gl x y := (glue ns x y).
  Notation cm y := (holes ns y).
  Notation dg i x := (digit 2 ns i x).
  Notation fl := (Ladder.fl ns).
  Notation eta := (state_sign Nat.odd ns).
  Notation eps := (state_sign part ns).
  Notation SP := (SpinRotate.SP f).
  Notation F := (HS2 f (amplitude f)).
  Notation up := (Chain.up nl SP).
  Notation dn := (Chain.dn nl SP).
  Notation lives := (lives g).
  Notation some := (Chain.some nl).
  Notation vanishes := (Ladder.vanishes nl).
  Notation spread := SpecSinglet.spread.
  Definition eig (e : R) (X : nat -> CR) : Prop := forall a, (a < D)%nat -> ksum D (fun b => F a b *c X b) = real e *c X a.
  Notation least := (Chain.least nl lives eig).
  Notation ground := (Chain.ground nl lives eig).
  Hypothesis sym : spin_symmetric f.
  Hypothesis rep : repelling part f.
  (** The same energies of one species with attraction. *)
  Lemma weak_att : attracting (pairsys g ts (fun i => kopp (us i)) same mus pot pr).
  Proof using rep.
    clear sym. destruct rep as (_ & AM & SM & MM & (c & PU)). split; [reflexivity|]. split; [|split; [|split; [|split]]].
    - intros i j Hij. destruct (AM i j Hij) as (t & A0 & A1 & _). exists t. split; [exact A0 | exact A1].
    - intros i j Hij. destruct (SM i j Hij) as (S0 & S1). exists 0. split; [exact S0 | exact S1].
    - exact MM.
    - intros i Hi. destruct (PU i Hi) as (v & u & V0 & V1 & U0 & _). exists v. split; [exact V0 | exact V1].
    - intros i Hi. destruct (PU i Hi) as (v & u & V0 & V1 & U0 & UP & _). cbn [f_us pairsys] in *. exists (- u). rewrite U0. split; [apply injective_projections; cbn; ring | lra].
  Qed.
  Lemma F_real a b : (a < D)%nat -> (b < D)%nat -> snd (F a b) = 0.
  Proof using rep.
    clear sym. intros Ha Hb. destruct (glue_split ns a Ha) as (A1 & A2 & <-). destruct (glue_split ns b Hb) as (B1 & B2 & <-). rewrite glue_ham by assumption.
    rewrite (h1_same g ts (fun i => kopp (us i)) same mus pot pr weak_att) by assumption.
    assert (PL : forall z w : CR, snd z = 0 -> snd w = 0 -> snd (z +c w) = 0) by (intros z w Z W; cbn; rewrite Z, W; ring).
    apply PL; [apply PL|].
    - apply snd_mul0; [apply (h1_snd g ts (fun i => kopp (us i)) same mus pot pr weak_att); assumption | apply snd_kb].
    - apply snd_mul0; [apply snd_kb | apply (h1_snd g ts (fun i => kopp (us i)) same mus pot pr weak_att); assumption].
    - apply snd_mul0; [apply snd_mul0; apply snd_kb|]. apply snd_ksum_zero. intros i Hi. destruct rep as (_ & _ & _ & _ & (c & PU)). destruct (PU i Hi) as (v & u & _ & _ & U0 & _). cbn [f_us pairsys] in U0. rewrite U0. apply snd_mul_real, snd_mul0; apply snd_kb.
  Qed.
  Lemma F_conj x y : (x < D)%nat -> (y < D)%nat -> conj (F x y) = F y x.
  Proof using rep. intros Hx Hy. rewrite (F_sym g ts us same mus pot pr y x) by assumption. rewrite (real_of (F x y) (F_real x y Hx Hy)). apply real_conj. Qed.
  (** ** Moves keep energies *)
  Lemma act_swap (K1 K2 : nat -> nat -> CR) X a : ksum D (fun c => K1 a c *c ksum D (fun b => K2 c b *c X b)) = ksum D (fun b => ksum D (fun c => K1 a c *c K2 c b) *c X b).
  Proof using.
    clear. rewrite (ksum_ext D _ (fun c => ksum D (fun b => K1 a c *c K2 c b *c X b))) by (intros c _; rewrite <- ksum_mul_l; apply ksum_ext; intros; ring).
    rewrite ksum_swap. apply ksum_ext. intros b _. apply ksum_mul_r.
  Qed.
  Lemma moved_eig (K1 : nat -> nat -> CR) e X : (forall a b, (a < D)%nat -> (b < D)%nat -> ksum D (fun c => F a c *c K1 c b) = ksum D (fun c => K1 a c *c F c b)) -> eig e X -> eig e (fun a => ksum D (fun b => K1 a b *c X b)).
  Proof using.
    clear. intros CO EX a Ha. rewrite act_swap. rewrite (ksum_ext D _ (fun b => ksum D (fun c => K1 a c *c F c b) *c X b)) by (intros b Hb; rewrite CO by assumption; reflexivity).
    rewrite <- act_swap. rewrite <- ksum_mul_l. apply ksum_ext. intros c Hc. rewrite (EX c Hc). ring.
  Qed.
  Lemma dn_eig e X : eig e X -> eig e (dn X).
  Proof using sym. intros EX. apply (moved_eig SP e X); [|exact EX]. intros a b Ha Hb. exact (SP_comm g ts us same mus pot pr sym a b Ha Hb). Qed.
  Lemma up_eig e X : eig e X -> eig e (up X).
  Proof using sym rep.
    intros EX. apply (moved_eig (fun a b => conj (SP b a)) e X); [|exact EX]. intros a b Ha Hb.
    pose proof (SP_comm g ts us same mus pot pr sym b a Hb Ha) as Q. apply (f_equal (fun z : CR => conj z)) in Q. rewrite !ksum_conj in Q.
    etransitivity; [|etransitivity; [symmetry; exact Q|]]; apply ksum_ext; intros c Hc; rewrite kconj_mul, F_conj by assumption; ring.
  Qed.
  (** ** Raising after lowering *)
  Lemma lower_val i a b : (i < ns)%nat -> (a < D)%nat -> (b < D)%nat -> SpinRotate.lower f i a b = conj (SpinRotate.raise f i b a).
  Proof using.
    clear sym rep. intros Hi Ha Hb. unfold SpinRotate.raise, SpinRotate.lower. change (nlog (f_sys f)) with (ns * 2)%nat. unfold lsite. change (s_nsites (f_sys f)) with ns.
    pose proof (one_way f (ns * 0 + i) (ns * 1 + i) b a) as W1. pose proof (one_way f (ns * 1 + i) (ns * 0 + i) a b) as W2. cbn [f_geom f_nspecies pairsys] in W1, W2. rewrite W1, W2 by (assumption || lia). clear W1 W2. rewrite Nat.mul_0_r, Nat.mul_1_r, Nat.add_0_l.
    replace (agree_off 2 nl [(ns + i)%nat; i] a b) with (agree_off 2 nl [i; (ns + i)%nat] b a) by (apply bool_eq_iff; rewrite !agree_off_spec; split; intros W x Hx NI; symmetry; apply W; try assumption; intros [X|[X|[]]]; apply NI; cbn; auto).
    destruct (agree_off 2 nl [i; (ns + i)%nat] b a) eqn:AG; cbn [andb]; [|symmetry; apply kconj_0]. rewrite agree_off_spec in AG.
    replace ((digit 2 nl (ns + i) a =? 1) && (digit 2 nl i a =? 0) && (digit 2 nl (ns + i) b =? 0) && (digit 2 nl i b =? 1))%nat with ((digit 2 nl i b =? 1) && (digit 2 nl (ns + i) b =? 0) && (digit 2 nl i a =? 0) && (digit 2 nl (ns + i) a =? 1))%nat
      by (destruct (digit 2 nl i b =? 1)%nat, (digit 2 nl (ns + i) b =? 0)%nat, (digit 2 nl i a =? 0)%nat, (digit 2 nl (ns + i) a =? 1)%nat; reflexivity).
    match goal with |- (if ?c then _ else _) = _ => destruct c end; [|symmetry; apply kconj_0]. rewrite (real_of _ (snd_ksign (between nl i (ns + i) b))), real_conj, <- (real_of _ (snd_ksign _)). f_equal.
    unfold between. rewrite (Nat.min_comm (ns + i)), (Nat.max_comm (ns + i)). f_equal. apply map_ext_in. intros x Hx. apply in_seq in Hx. symmetry. apply AG; [lia|]. intros [X|[X|[]]]; lia.
  Qed.
  Lemma down_val a b : (a < D)%nat -> (b < D)%nat -> conj (SP b a) = ksum ns (fun i => SpinRotate.lower f i a b).
  Proof using. clear sym rep. intros Ha Hb. unfold SpinRotate.SP. cbn [f_geom pairsys]. rewrite ksum_conj. apply ksum_ext. intros i Hi. symmetry. apply lower_val; assumption. Qed.
  Lemma ad_lower i a b : (i < ns)%nat -> (a < D)%nat -> (b < D)%nat -> FreeFermi.ad (N:=D) SP (SpinRotate.lower f i) a b = kb (a =? b)%nat *c (kb (digit 2 nl (ns + i) a =? 1)%nat -c kb (digit 2 nl i a =? 1)%nat).
  Proof using sym.
    clear rep. intros Hi Ha Hb. pose proof (SpinRotate.ad_pair f sym i i 1 0 Hi Hi ltac:(cbn; lia) ltac:(cbn; lia) a b Ha Hb) as Q. change (nlog (f_sys f)) with (ns * 2)%nat in Q. etransitivity; [exact Q|]. clear Q. unfold sadd, sscale. cbn [Nat.eqb kb].
    unfold lsite. change (s_nsites (f_sys f)) with ns. rewrite Nat.mul_0_r, Nat.mul_1_r, Nat.add_0_l.
    assert (H1 : smul (N:=D) (Cd nl i) (Ca nl i) a b = Nn (K:=CR) nl i a b) by (apply Cd_Ca; assumption || lia). assert (H2 : smul (N:=D) (Cd nl (ns + i)) (Ca nl (ns + i)) a b = Nn (K:=CR) nl (ns + i) a b) by (apply Cd_Ca; assumption || lia).
    rewrite H1, H2, !Nn_val by (assumption || lia). apply injective_projections; cbn; ring.
  Qed.
  Lemma count_sum x : (x < B)%nat -> ksum ns (fun i => kb (dg i x =? 1)%nat) = real (INR (digit_sum 2 ns x)).
  Proof using.
    clear. intros Hx. assert (G : forall n, (n <= ns)%nat -> ksum n (fun i => kb (digit 2 ns i x =? 1)%nat) = real (INR (list_sum (map (fun i => dg i x) (seq 0 n))))); [|apply G; apply le_n].
    induction n as [|n IH]; intros Hn; [reflexivity|]. cbn [ksum]. rewrite IH by lia. rewrite seq_S, map_app, list_sum_app, plus_INR. cbn [Nat.add map]. destruct (digit2_cases ns n x) as [-> | ->]; cbn; apply injective_projections; cbn; ring.
  Qed.
  Lemma comm m X a : (m <= ns)%nat -> lives m X -> (a < D)%nat -> up (dn X) a = dn (up X) a +c real (INR ns - 2 * INR m) *c X a.
  Proof using sym.
    clear rep. intros Hm L Ha. unfold Chain.up, Chain.dn. rewrite (act_swap (fun a b => conj (SP b a)) SP X a), (act_swap SP (fun a b => conj (SP b a)) X a).
    assert (AD : forall b, (b < D)%nat -> ksum D (fun c => conj (SP c a) *c SP c b) = ksum D (fun c => SP a c *c conj (SP b c)) +c ksum ns (fun i => kb (a =? b)%nat *c (kb (digit 2 nl (ns + i) a =? 1)%nat -c kb (digit 2 nl i a =? 1)%nat))).
    { intros b Hb. rewrite <- (ksum_ext ns (fun i => FreeFermi.ad (N:=D) SP (SpinRotate.lower f i) a b)) by (intros i Hi; apply ad_lower; assumption). rewrite <- FreeFermi.ad_ksum. unfold FreeFermi.ad, smul.
      rewrite (ksum_ext D (fun c => conj (SP c a) *c SP c b) (fun c => ksum ns (fun i => SpinRotate.lower f i a c) *c SP c b)) by (intros c Hc; rewrite down_val by assumption; reflexivity).
      rewrite (ksum_ext D (fun c => SP a c *c conj (SP b c)) (fun c => SP a c *c ksum ns (fun i => SpinRotate.lower f i c b))) by (intros c Hc; rewrite down_val by assumption; reflexivity). apply injective_projections; cbn; ring. }
    rewrite (ksum_ext D _ (fun b => ksum D (fun c => SP a c *c conj (SP b c)) *c X b +c ksum ns (fun i => kb (a =? b)%nat *c (kb (digit 2 nl (ns + i) a =? 1)%nat -c kb (digit 2 nl i a =? 1)%nat)) *c X b)) by (intros b Hb; rewrite AD by exact Hb; ring).
    rewrite ksum_add. f_equal. rewrite (ksum_single D a _ Ha).
    - rewrite Nat.eqb_refl. destruct (classic (in_sector g m a)) as [(I1 & I2)|NI]; [|rewrite (L a Ha NI); apply injective_projections; cbn; ring]. f_equal. destruct (glue_split ns a Ha) as (L1 & L2 & Q).
      rewrite (ksum_ext ns _ (fun i => kb (dg i (a mod B) =? 1)%nat -c kb (dg i (a / B) =? 1)%nat)).
      + rewrite ksum_minus, !count_sum by assumption. rewrite I1. replace (digit_sum 2 ns (a mod B)) with (ns - m)%nat by lia. rewrite minus_INR by exact Hm. apply injective_projections; cbn; ring.
      + intros i Hi. clear I1 I2 AD L Ha. revert L1 L2 Q. generalize (a / B)%nat (a mod B)%nat. intros x y L1 L2 <-. rewrite (digit_hi ns x y i), (digit_lo ns x y i) by assumption. apply injective_projections; cbn; ring.
    - intros b Hb NE. rewrite ksum_zero; [ring|]. intros i Hi. rewrite (proj2 (Nat.eqb_neq a b)) by auto. cbn [kb]. ring.
  Qed.
End Spin.
