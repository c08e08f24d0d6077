(** Signs of the hopping that sites absorb, and the scale of energies: fermions. *)
From Coq Require Import List Arith Lia Reals Lra ZArith QArith Qabs Bool Permutation.
From Verif Require Import Scalars Res Matrix Sums SqMat SpecMat SpecFock OpsProofs FockProofs FermiOps ModelBase ModelFermions ModelSpins SpecSpins Digits SpinOps SpinAlg SpinSwap SpinJordan HamProofs FermiApi SpecPerm
  ModelGeometry ModelPhase ModelSymmetry SymBase ModelThermal SpecThermal ThermalBase ThermalFacts ThermalBasis Thermo SpecFermiGas SpecSigns Sectors HopSigns SpecShells Shells Precess SpecGauge Gauge.
From Verif Require SymAverage.
Import ListNotations.
Local Open Scope R_scope.

(** Products. *)
Fixpoint rprod (n : nat) (F : nat -> R) : R := match n with O => 1 | S k => rprod k F * F k end.
Lemma rprod_ext n F G : (forall x, (x < n)%nat -> F x = G x) -> rprod n F = rprod n G.
Proof. induction n as [|n IH]; [reflexivity|]. intros W. cbn [rprod]. rewrite IH by (intros; apply W; lia). rewrite (W n) by lia. reflexivity. Qed.
Lemma rprod_mul n F G : rprod n F * rprod n G = rprod n (fun x => F x * G x).
Proof. induction n as [|n IH]; cbn [rprod]; [ring|]. rewrite <- IH. ring. Qed.
Lemma rprod_one n F : (forall x, (x < n)%nat -> F x = 1) -> rprod n F = 1.
Proof. induction n as [|n IH]; [reflexivity|]. intros W. cbn [rprod]. rewrite IH by (intros; apply W; lia). rewrite (W n) by lia. ring. Qed.
Lemma rprod_single n p F : (p < n)%nat -> (forall x, (x < n)%nat -> x <> p -> F x = 1) -> rprod n F = F p.
Proof.
  induction n as [|n IH]; [lia|]. intros Hp W. cbn [rprod]. destruct (Nat.eq_dec p n) as [->|NE].
  - rewrite rprod_one by (intros; apply W; lia). ring.
  - rewrite IH by (try lia; intros; apply W; lia). rewrite (W n) by lia. ring.
Qed.
Lemma rprod_two n p q F : (p < n)%nat -> (q < n)%nat -> p <> q -> (forall x, (x < n)%nat -> x <> p -> x <> q -> F x = 1) -> rprod n F = F p * F q.
Proof.
  intros Hp Hq NE W. rewrite (rprod_ext n F (fun x => (if (x =? p)%nat then F x else 1) * (if (x =? p)%nat then 1 else F x))) by (intros x _; destruct (x =? p)%nat; ring).
  rewrite <- rprod_mul, (rprod_single n p), (rprod_single n q).
  - rewrite Nat.eqb_refl, (proj2 (Nat.eqb_neq q p)) by auto. reflexivity.
  - exact Hq.
  - intros x Hx N. destruct (Nat.eqb_spec x p); [reflexivity | apply W; assumption].
  - exact Hp.
  - intros x Hx N. rewrite (proj2 (Nat.eqb_neq x p) N). reflexivity.
Qed.

Section Signs.
  Variables (f : fermions CR) (w : nat -> nat -> R).
  Notation ns := (fg_nsites (f_geom f)).
  Notation m := (f_nspecies f).
  Notation nl := (ns * m)%nat.
  Notation D := (2 ^ (ns * m))%nat.
  Notation dg p a := (digit 2 nl p a).
  Notation orb s i := (ns * s + i)%nat.
  Hypothesis pm : forall i k, (i < ns)%nat -> (k < m)%nat -> w i k = 1 \/ w i k = -1.
  Definition wo (p : nat) : R := w (p mod ns) (p / ns).
  Definition su (a : nat) : R := rprod nl (fun p => if (dg p a =? 1)%nat then wo p else 1).
  Lemma orb_lt' s i : (s < m)%nat -> (i < ns)%nat -> (orb s i < nl)%nat. Proof using. intros. nia. Qed.
  Lemma wo_orb s i : (i < ns)%nat -> wo (orb s i) = w i s.
  Proof using. intros Hi. unfold wo. replace (ns * s + i)%nat with (i + s * ns)%nat by lia. rewrite Nat.mod_add, Nat.div_add by lia. rewrite Nat.mod_small, Nat.div_small by exact Hi. reflexivity. Qed.
  Lemma wo_pm p : (p < nl)%nat -> wo p = 1 \/ wo p = -1.
  Proof using pm. intros Hp. assert (ns <> 0)%nat by (intros Q; rewrite Q in Hp; cbn in Hp; lia). unfold wo. apply pm; [apply Nat.mod_upper_bound; assumption | apply Nat.div_lt_upper_bound; assumption]. Qed.
  Lemma su_sq a : su a * su a = 1.
  Proof using pm. unfold su. rewrite rprod_mul. apply rprod_one. intros p Hp. destruct (wo_pm p Hp) as [-> | ->]; destruct (dg p a =? 1)%nat; ring. Qed.
  Lemma su_hop p q a b : (p < nl)%nat -> (q < nl)%nat -> p <> q -> agree_off 2 nl [p; q] a b = true -> dg p a <> dg q a -> dg p b = dg q a -> dg q b = dg p a -> su a * su b = wo p * wo q.
  Proof using pm.
    intros Hp Hq NE AG N Q1 Q2. rewrite agree_off_spec in AG. unfold su. rewrite rprod_mul, (rprod_two nl p q) by (try assumption; intros x Hx X1 X2; rewrite (AG x Hx) by (intros [X|[X|[]]]; auto); destruct (wo_pm x Hx) as [-> | ->]; destruct (dg x b =? 1)%nat; ring).
    rewrite Q1, Q2. destruct (digit2_cases nl p a) as [E1|E1], (digit2_cases nl q a) as [E2|E2]; rewrite E1, E2 in *; try congruence; cbn; ring.
  Qed.
  Lemma one_way_u p q a b : p <> q -> (p < nl)%nat -> (q < nl)%nat -> (a < D)%nat -> (b < D)%nat -> real (su a * su b) *c smul (N:=D) (Cd nl p) (Ca nl q) a b = real (wo p * wo q) *c smul (N:=D) (Cd nl p) (Ca nl q) a b.
  Proof using pm.
    intros NE Hp Hq Ha Hb. rewrite (one_way f p q a b NE Hp Hq Ha Hb). destruct (agree_off 2 nl [p; q] a b) eqn:AG; cbn [andb]; [|apply injective_projections; cbn; ring].
    destruct (Nat.eqb_spec (dg p a) 1) as [E1|E1]; cbn [andb]; [|apply injective_projections; cbn; ring]. destruct (Nat.eqb_spec (dg q a) 0) as [E2|E2]; cbn [andb]; [|apply injective_projections; cbn; ring].
    destruct (Nat.eqb_spec (dg p b) 0) as [E3|E3]; cbn [andb]; [|apply injective_projections; cbn; ring]. destruct (Nat.eqb_spec (dg q b) 1) as [E4|E4]; cbn [andb]; [|apply injective_projections; cbn; ring].
    rewrite (su_hop p q a b Hp Hq NE AG) by congruence. reflexivity.
  Qed.
  Lemma hop_u p q a b : p <> q -> (p < nl)%nat -> (q < nl)%nat -> (a < D)%nat -> (b < D)%nat -> real (su a * su b) *c hop f p q a b = real (wo p * wo q) *c hop f p q a b.
  Proof using pm.
    intros NE Hp Hq Ha Hb. unfold hop, sadd. change (nlog (f_sys f)) with nl. pose proof (one_way_u p q a b NE Hp Hq Ha Hb) as Q1. pose proof (one_way_u q p a b (not_eq_sym NE) Hq Hp Ha Hb) as Q2.
    rewrite (Rmult_comm (wo q) (wo p)) in Q2. set (x := smul (N:=D) (Cd nl p) (Ca nl q) a b) in *. set (y := smul (N:=D) (Cd nl q) (Ca nl p) a b) in *. set (s1 := real (su a * su b)) in *. set (s2 := real (wo p * wo q)) in *.
    transitivity (s1 *c x +c s1 *c y); [ring|]. rewrite Q1, Q2. ring.
  Qed.
  Lemma diag_u (X : nat -> nat -> CR) a b : (a <> b -> X a b = c0) -> real (su a * su b) *c X a b = X a b.
  Proof using pm. intros W. destruct (Nat.eq_dec a b) as [<-|NE]; [rewrite su_sq; apply injective_projections; cbn; ring | rewrite (W NE); apply injective_projections; cbn; ring]. Qed.
  Lemma Nn_u p a b : (p < nl)%nat -> (a < D)%nat -> (b < D)%nat -> real (su a * su b) *c Nn nl p a b = Nn nl p a b.
  Proof using pm. intros Hp Ha Hb. apply (diag_u (fun a b => Nn nl p a b)). intros NE. exact (Nn_off f p a b Hp Ha Hb NE). Qed.
  Lemma NN_u p q a b : (p < nl)%nat -> (q < nl)%nat -> (a < D)%nat -> (b < D)%nat -> real (su a * su b) *c smul (N:=D) (Nn nl p) (Nn nl q) a b = smul (N:=D) (Nn nl p) (Nn nl q) a b.
  Proof using pm. intros Hp Hq Ha Hb. apply (diag_u (fun a b => smul (N:=D) (Nn nl p) (Nn nl q) a b)). intros NE. exact (NN_off f p q a b Hp Hq Ha Hb NE). Qed.

  (** ** Operators that are measured *)
  Lemma Nn_real p a b : (p < nl)%nat -> (a < D)%nat -> (b < D)%nat -> conj (Nn (K:=CR) nl p a b) = Nn nl p a b.
  Proof using. intros Hp Ha Hb. rewrite (n_entry (K:=CR) nl p Hp a b Ha Hb). cbn [n_spec ent]. destruct ((a =? b)%nat && occ nl b p); apply injective_projections; cbn; ring. Qed.
  Lemma ksign_real x : conj (ksign (K:=CR) x) = ksign x. Proof using. apply ksign_conj. Qed.
  Theorem measured_ok A c : measured f w A c -> square D A /\ (forall a b, (a < D)%nat -> (b < D)%nat -> real (su a * su b) *c ent A a b = real c *c ent A a b /\ conj (ent A a b) = ent A a b).
  Proof using pm.
    assert (one : forall z : CR, real 1 *c z = z) by (intros z; apply injective_projections; cbn; ring).
    intros [i k A' Hi Hk EA | i k j l A' Hi Hk Hj Hl EA | i j k A' Hi Hj Hk NE EA].
    - destruct (single_ok (K:=CR) (f_sys f) i k n_op Boson) as (A0 & EA0 & SQ & FA); auto using sq_n; try discriminate; try reflexivity. rewrite EA in EA0. injection EA0 as <-. split; [exact SQ|].
      intros a b Ha Hb. rewrite (FA a b Ha Hb). change (gop Boson (nlog (f_sys f)) (lsite (f_sys f) i k) n_op a b) with (Nn (K:=CR) nl (orb k i) a b). pose proof (orb_lt' k i Hk Hi) as L. split; [rewrite one; apply Nn_u; assumption | apply Nn_real; assumption].
    - destruct (two_ok (K:=CR) (f_sys f) i k j l n_op n_op Boson) as (A0 & EA0 & SQ & FA); auto using sq_n; try discriminate; try reflexivity. rewrite EA in EA0. injection EA0 as <-. split; [exact SQ|].
      intros a b Ha Hb. rewrite (FA a b Ha Hb). change (smul (N:=D) (Nn (K:=CR) nl (orb k i)) (Nn nl (orb l j)) a b) with (smul (gop Boson (nlog (f_sys f)) (lsite (f_sys f) i k) n_op) (gop Boson (nlog (f_sys f)) (lsite (f_sys f) j l) n_op) a b).
      change (smul (N := 2 ^ nlog (f_sys f)) (gop Boson (nlog (f_sys f)) (lsite (f_sys f) i k) n_op) (gop Boson (nlog (f_sys f)) (lsite (f_sys f) j l) n_op) a b) with (smul (N:=D) (Nn (K:=CR) nl (orb k i)) (Nn nl (orb l j)) a b).
      pose proof (orb_lt' k i Hk Hi) as L1. pose proof (orb_lt' l j Hl Hj) as L2. split; [rewrite one; apply NN_u; assumption|].
      unfold smul. rewrite ksum_conj. apply ksum_ext. intros c' Hc. rewrite kconj_mul, !Nn_real by assumption. reflexivity.
    - destruct (two_ok (K:=CR) (f_sys f) i k j k cdag_op c_op Fermion) as (A0 & EA0 & SQ & FA); auto using sq_cdag, sq_c; try discriminate; try reflexivity. rewrite EA in EA0. injection EA0 as <-. split; [exact SQ|].
      intros a b Ha Hb. rewrite (FA a b Ha Hb). change (smul (N := 2 ^ nlog (f_sys f)) (gop Fermion (nlog (f_sys f)) (lsite (f_sys f) i k) cdag_op) (gop Fermion (nlog (f_sys f)) (lsite (f_sys f) j k) c_op) a b) with (smul (N:=D) (Cd (K:=CR) nl (orb k i)) (Ca nl (orb k j)) a b).
      pose proof (orb_lt' k i Hk Hi) as L1. pose proof (orb_lt' k j Hk Hj) as L2. assert (N : (orb k i <> orb k j)%nat) by lia. split.
      + rewrite one_way_u by assumption. rewrite !wo_orb by assumption. reflexivity.
      + rewrite (one_way f (orb k i) (orb k j) a b N L1 L2 Ha Hb). destruct (_ && _); [apply ksign_real | apply injective_projections; cbn; ring].
  Qed.

  (** ** Symmetry of the Hamiltonian *)
  Lemma hop_real p q a b : p <> q -> (p < nl)%nat -> (q < nl)%nat -> (a < D)%nat -> (b < D)%nat -> conj (hop f p q a b) = hop f p q a b.
  Proof using. intros NE Hp Hq Ha Hb. rewrite (hop_values f p q a b NE Hp Hq Ha Hb). destruct (_ && _); [apply ksign_real | apply injective_projections; cbn; ring]. Qed.
  Lemma hop_swap p q a b : p <> q -> (p < nl)%nat -> (q < nl)%nat -> (a < D)%nat -> (b < D)%nat -> hop f p q a b = hop f p q b a.
  Proof using. intros NE Hp Hq Ha Hb. rewrite <- (hop_adj f p q Hp Hq a b Ha Hb). unfold sadj. apply hop_real; assumption. Qed.
  Lemma ham_sym a b : us_ok f -> (a < D)%nat -> (b < D)%nat -> HS2 f (amplitude f) a b = HS2 f (amplitude f) b a.
  Proof using.
    intros US Ha Hb. destruct (Nat.eq_dec a b) as [->|NE]; [reflexivity|]. rewrite !(off_diagonal f US) by auto. apply ksum_ext. intros i Hi. apply ksum_ext. intros j Hj. apply ksum_ext. intros s Hs. do 2 f_equal.
    apply hop_swap; try assumption; [lia | apply orb_lt'; lia | apply orb_lt'; lia].
  Qed.

  (** ** Entries in a sector *)
  Variables (pr : option (mat CR)) (idx : list nat).
  Hypothesis sel : selects f pr idx.
  Notation N := (length idx).
  Notation at_ p := (nth p idx 0%nat).
  Lemma n_st : nstates (f_sys f) = D. Proof using. apply nstates2. reflexivity. Qed.
  Lemma sel_lt p : (p < N)%nat -> (at_ p < D)%nat.
  Proof using sel. intros Hp. unfold selects in sel. rewrite n_st in sel. destruct pr as [P|]; [apply (proj2 sel), nth_In, Hp|]. rewrite sel in Hp |- *. rewrite seq_length in Hp. rewrite seq_nth by exact Hp. exact Hp. Qed.
  Lemma sel_rows : rows_are D (the_proj f pr) idx /\ forall k, In k idx -> (k < D)%nat.
  Proof using sel.
    unfold selects, the_proj in *. rewrite n_st in *. destruct pr as [P|]; [exact sel|]. subst idx. split; [|intros k Hk; apply in_seq in Hk; lia].
    split; [symmetry; apply seq_length|]. split; [reflexivity|]. intros i j Hi Hj. rewrite seq_length in Hi. rewrite seq_nth by exact Hi. cbn. destruct (i =? j)%nat; reflexivity.
  Qed.
  Lemma sel_ent H : us_ok f -> createH f pr = Ok H -> nrow H = N /\ ncol H = N /\ forall p q, (p < N)%nat -> (q < N)%nat -> ent H p q = HS2 f (amplitude f) (at_ p) (at_ q).
  Proof using sel.
    intros US EH. destruct sel_rows as (RW & B). pose proof RW as (R1 & R2 & _). destruct (createH_ok f pr R2 US) as (H' & E' & (S1 & S2) & W). rewrite EH in E'. injection E' as <-.
    split; [congruence|]. split; [congruence|]. intros p q Hp Hq. rewrite W. transitivity (HS f (at_ p) (at_ q)); [|exact (HS_HS2 f (at_ p) (at_ q))]. exact (sand_rows D _ idx (HS f) p q RW B Hp Hq).
  Qed.
  Lemma used_ent A O : square D A -> used pr A O -> nrow O = N /\ ncol O = N /\ forall p q, (p < N)%nat -> (q < N)%nat -> ent O p q = ent A (at_ p) (at_ q).
  Proof using sel.
    intros SA U. destruct sel_rows as (RW & B). pose proof RW as (R1 & R2 & _). unfold used, the_proj, selects in *. rewrite n_st in *. destruct pr as [P|].
    - destruct (sandwich_ok D P A R2 SA) as (O' & EO & (S1 & S2) & VO). rewrite U in EO. injection EO as <-. split; [congruence|]. split; [congruence|]. intros p q Hp Hq. rewrite VO. exact (sand_rows D P idx (ent A) p q RW B Hp Hq).
    - subst O idx. destruct SA as (S1 & S2). rewrite seq_length. split; [exact S1|]. split; [exact S2|]. intros p q Hp Hq. rewrite !seq_nth by assumption. reflexivity.
  Qed.
End Signs.

Theorem ham_gauge r w f f' a b : regauged r w f f' -> us_ok f -> let D := (2 ^ (fg_nsites (f_geom f) * f_nspecies f))%nat in (a < D)%nat -> (b < D)%nat ->
  HS2 f' (amplitude f') a b = real (r * (su f w a * su f w b)) *c HS2 f (amplitude f) a b.
Proof.
  intros RG US D Ha Hb. unfold D in *. clear D. destruct f as [g m ts us sm mu pt pr0], f' as [g' m' ts' us' sm' mu' pt' pr']. destruct RG as (G & M & PM & T & U & SM & MU & PT). unfold us_ok in US. cbn [f_geom f_nspecies f_ts f_us f_same f_mus f_pot] in *. subst g' m'.
  set (f := Ferm g m ts us sm mu pt pr0) in *. set (f' := Ferm g m ts' us' sm' mu' pt' pr') in *.
  set (ns := fg_nsites g) in *. set (nl := (ns * m)%nat). set (s2 := su f w a * su f w b).
  assert (pm : forall i k, (i < fg_nsites (f_geom f))%nat -> (k < f_nspecies f)%nat -> w i k = 1 \/ w i k = -1) by exact PM.
  assert (L : forall s i, (s < m)%nat -> (i < ns)%nat -> (ns * s + i < nl)%nat) by (intros; unfold nl; nia).
  unfold HS2. change (nlog (f_sys f')) with nl. change (nlog (f_sys f)) with nl. unfold lsite. change (s_nsites (f_sys f')) with ns. change (s_nsites (f_sys f)) with ns.
  cbn [f_geom f_nspecies f_ts f_us f_same f_mus f_pot f f']. fold ns. fold f f'.
  match goal with |- kadd (ksub (kadd (kadd ?A1 ?A2) ?A3) ?A4) ?A5 = ?c *c kadd (ksub (kadd (kadd ?B1 ?B2) ?B3) ?B4) ?B5 =>
    assert (Q1 : A1 = c *c B1); [|assert (Q2 : A2 = c *c B2); [|assert (Q3 : A3 = c *c B3); [|assert (Q4 : A4 = c *c B4); [|assert (Q5 : A5 = c *c B5); [|rewrite Q1, Q2, Q3, Q4, Q5; generalize c B1 B2 B3 B4 B5; intros; ring]]]]] end.
  - rewrite <- ksum_mul_l. apply ksum_ext. intros i Hi. rewrite <- ksum_mul_l. apply ksum_ext. intros j Hj. rewrite <- ksum_mul_l. apply ksum_ext. intros k Hk.
    change (hop f' (ns * k + i) (ns * k + j) a b) with (hop f (ns * k + i) (ns * k + j) a b).
    pose proof (hop_u f w pm (ns * k + i)%nat (ns * k + j)%nat a b ltac:(lia) (L k i Hk Hi) (L k j Hk ltac:(lia)) Ha Hb) as Q. rewrite !wo_orb in Q by (cbn [f_geom f]; fold ns; lia). fold s2 in Q.
    unfold amplitude. cbn [f_ts f_geom f f']. fold f. rewrite T by lia. set (h := hop f (ns * k + i) (ns * k + j) a b) in *. set (d := kQ _). set (t := ts i j k).
    transitivity (kopp (real r *c (t *c d) *c (real (w i k * w j k) *c h))); [clearbody h d t; apply injective_projections; cbn; ring|]. rewrite <- Q. clearbody h d t. apply injective_projections; cbn; ring.
  - rewrite <- ksum_mul_l. apply ksum_ext. intros i Hi. rewrite (U i Hi). destruct US as [M2|Z].
    + pose proof (NN_u f w pm (ns * 0 + i)%nat (ns * 1 + i)%nat a b (L 0%nat i ltac:(lia) Hi) (L 1%nat i ltac:(lia) Hi) Ha Hb) as Q. fold s2 in Q. change (f_nspecies f) with m in Q. change (fg_nsites (f_geom f)) with ns in Q. fold nl in Q.
      set (h := smul (Nn nl (ns * 0 + i)) (Nn nl (ns * 1 + i)) a b) in *. transitivity (real r *c us i *c h); [reflexivity|]. rewrite <- Q at 1. generalize (us i). intros z. clearbody h. apply injective_projections; cbn; ring.
    + rewrite (Z i Hi). apply injective_projections; cbn; ring.
  - rewrite <- ksum_mul_l. apply ksum_ext. intros i Hi. rewrite <- ksum_mul_l. apply ksum_ext. intros j Hj. rewrite <- ksum_mul_l. apply ksum_ext. intros k Hk. rewrite SM by lia.
    pose proof (NN_u f w pm (ns * k + i)%nat (ns * k + j)%nat a b (L k i Hk Hi) (L k j Hk ltac:(lia)) Ha Hb) as Q. fold s2 in Q. change (f_nspecies f) with m in Q. change (fg_nsites (f_geom f)) with ns in Q. fold nl in Q.
    set (h := smul (Nn nl (ns * k + i)) (Nn nl (ns * k + j)) a b) in *. transitivity (real r *c sm i j k *c h); [reflexivity|]. rewrite <- Q at 1. generalize (sm i j k). intros z. clearbody h. apply injective_projections; cbn; ring.
  - rewrite <- ksum_mul_l. apply ksum_ext. intros i Hi. rewrite <- ksum_mul_l. apply ksum_ext. intros k Hk. rewrite MU by lia.
    pose proof (Nn_u f w pm (ns * k + i)%nat a b (L k i Hk Hi) Ha Hb) as Q. fold s2 in Q. change (f_nspecies f) with m in Q. change (fg_nsites (f_geom f)) with ns in Q. fold nl in Q.
    set (h := Nn nl (ns * k + i) a b) in *. transitivity (real r *c mu k *c h); [reflexivity|]. rewrite <- Q at 1. generalize (mu k). intros z. clearbody h. apply injective_projections; cbn; ring.
  - rewrite <- ksum_mul_l. apply ksum_ext. intros i Hi. rewrite <- ksum_mul_l. apply ksum_ext. intros k Hk. rewrite PT by lia.
    pose proof (Nn_u f w pm (ns * k + i)%nat a b (L k i Hk Hi) Ha Hb) as Q. fold s2 in Q. change (f_nspecies f) with m in Q. change (fg_nsites (f_geom f)) with ns in Q. fold nl in Q.
    set (h := Nn nl (ns * k + i) a b) in *. transitivity (real r *c pt i k *c h); [reflexivity|]. rewrite <- Q at 1. generalize (pt i k). intros z. clearbody h. apply injective_projections; cbn; ring.
Qed.
