(** Chemical potentials: fermions. *)
From Coq Require Import List Arith Lia Reals Lra ZArith QArith Qabs Bool Permutation.
From Verif Require Import Scalars Res Matrix Sums SqMat SpecMat SpecFock OpsProofs FockProofs FermiOps ModelBase ModelFermions ModelSpins SpecSpins Digits SpinOps SpinAlg SpinSwap SpinJordan HamProofs FermiApi SpecPerm HamSym
  ModelGeometry ModelPhase ModelSymmetry SymBase ModelThermal SpecThermal ThermalBase ThermalFacts ThermalBasis Thermo SpecFermiGas SpecSigns Sectors HopSigns SpecShells Shells Precess SpecGauge Gauge GaugeRun GaugeApi SpecMus Mus.
From Verif Require SymAverage ChainSpectrum.
Import ListNotations.
Local Open Scope R_scope.

Section Gain.
  Variables (f : fermions CR) (x : nat -> R).
  Notation ns := (fg_nsites (f_geom f)).
  Notation m := (f_nspecies f).
  Notation nl := (ns * m)%nat.
  Notation D := (2 ^ (ns * m))%nat.
  Notation dg p a := (digit 2 nl p a).
  Notation orb s i := (ns * s + i)%nat.
  Notation cnt a k := (occ_species nl ns a k).
  Lemma gain_ext a b : (forall k, (k < m)%nat -> cnt a k = cnt b k) -> gain f x a = gain f x b.
  Proof using. intros W. unfold gain. apply total_ext. intros k Hk. apply in_seq in Hk. rewrite (W k) by lia. reflexivity. Qed.
  Lemma gain_differs a b : gain f x a <> gain f x b -> exists k, (k < m)%nat /\ cnt a k <> cnt b k.
  Proof using.
    intros NE. destruct (forallb (fun k => cnt a k =? cnt b k)%nat (seq 0 m)) eqn:Q.
    - exfalso. apply NE, gain_ext. intros k Hk. rewrite forallb_forall in Q. apply Nat.eqb_eq, Q, in_seq. lia.
    - destruct (existsb (fun k => negb (cnt a k =? cnt b k)%nat) (seq 0 m)) eqn:Q2.
      + apply existsb_exists in Q2 as (k & Hk & W). apply in_seq in Hk. exists k. split; [lia|]. apply negb_true_iff, Nat.eqb_neq in W. exact W.
      + exfalso. assert (X : forallb (fun k => cnt a k =? cnt b k)%nat (seq 0 m) = true); [|congruence]. apply forallb_forall. intros k Hk. destruct (cnt a k =? cnt b k)%nat eqn:Y; [reflexivity|]. exfalso.
        assert (Z : existsb (fun k => negb (cnt a k =? cnt b k)%nat) (seq 0 m) = true) by (apply existsb_exists; exists k; rewrite Y; split; [exact Hk | reflexivity]). congruence.
  Qed.
  Lemma ham_keeps a b : us_ok f -> (a < D)%nat -> (b < D)%nat -> gain f x a <> gain f x b -> HS2 f (amplitude f) a b = c0.
  Proof using.
    intros US Ha Hb NE. destruct (gain_differs a b NE) as (k & Hk & NC). destruct (conserve f US) as (H & EH & _ & _ & W).
    assert (SL : selects f None (seq 0 (nstates (f_sys f)))) by reflexivity. destruct (sel_ent f None _ SL H US EH) as (_ & _ & Q). rewrite seq_length in Q.
    assert (ST : nstates (f_sys f) = D) by (apply nstates2; reflexivity). rewrite ST in *. specialize (Q a b Ha Hb). rewrite !seq_nth in Q by assumption. cbn [Nat.add] in Q. rewrite <- Q. apply (W k a b Hk Ha Hb). exact NC.
  Qed.
  (** A hop within a species keeps the numbers. *)
  Lemma hop_keeps s i j a b : (s < m)%nat -> (i < ns)%nat -> (j < ns)%nat -> (a < D)%nat -> agree_off 2 nl [orb s i; orb s j] a b = true -> dg (orb s i) b = dg (orb s j) a -> dg (orb s j) b = dg (orb s i) a ->
    gain f x a = gain f x b.
  Proof using.
    intros Hs Hi Hj Ha AG Q1 Q2. apply gain_ext. intros k Hk. rewrite !(species_sum f) by exact Hk. set (counts := map (fun s => list_sum (map (fun i => dg (orb s i) a) (seq 0 ns))) (seq 0 m)).
    assert (NC : forall s, (s < m)%nat -> nth s counts 0%nat = list_sum (map (fun i => dg (orb s i) a) (seq 0 ns))).
    { intros s' Hs'. unfold counts. rewrite (nth_indep _ 0%nat ((fun s => list_sum (map (fun i => dg (orb s i) a) (seq 0 ns))) 0%nat)) by (rewrite map_length, seq_length; exact Hs'). rewrite (map_nth (fun s => list_sum (map (fun i => dg (orb s i) a) (seq 0 ns)))), seq_nth by exact Hs'. reflexivity. }
    assert (FU : full f counts a). { split; [exact Ha|]. intros s' Hs'. rewrite NC by exact Hs'. reflexivity. }
    destruct (swap_full f counts a s i j FU Hs Hi Hj) as (_ & W). specialize (W k Hk). rewrite NC in W by exact Hk. rewrite <- W. f_equal. apply map_ext_in. intros q Hq. apply in_seq in Hq. assert (L : (orb k q < nl)%nat) by (apply (orb_lt f); lia).
    rewrite digit_pull by (discriminate || exact L). rewrite agree_off_spec in AG. destruct (Nat.eq_dec (orb k q) (orb s i)) as [->|N1]; [rewrite exchange_l; symmetry; exact Q1|]. destruct (Nat.eq_dec (orb k q) (orb s j)) as [->|N2]; [rewrite exchange_r; symmetry; exact Q2|].
    rewrite exchange_o by assumption. apply AG; [exact L|]. intros [X|[X|[]]]; congruence.
  Qed.
  Lemma measured_keeps w A c a b : measured f w A c -> (a < D)%nat -> (b < D)%nat -> gain f x a <> gain f x b -> ent A a b = c0.
  Proof using.
    intros M Ha Hb NE. assert (NAB : a <> b) by congruence. destruct M as [i k A' Hi Hk EA | i k j l A' Hi Hk Hj Hl EA | i j k A' Hi Hj Hk N EA].
    - destruct (single_ok (K:=CR) (f_sys f) i k n_op Boson) as (A0 & EA0 & SQ & FA); auto using sq_n; try discriminate; try reflexivity. rewrite EA in EA0. injection EA0 as <-.
      rewrite (FA a b Ha Hb). change (gop Boson (nlog (f_sys f)) (lsite (f_sys f) i k) n_op a b) with (Nn (K:=CR) nl (orb k i) a b). apply (Nn_off f); try assumption. apply (orb_lt f); assumption.
    - destruct (two_ok (K:=CR) (f_sys f) i k j l n_op n_op Boson) as (A0 & EA0 & SQ & FA); auto using sq_n; try discriminate; try reflexivity. rewrite EA in EA0. injection EA0 as <-.
      rewrite (FA a b Ha Hb). change (smul (N := 2 ^ nlog (f_sys f)) (gop Boson (nlog (f_sys f)) (lsite (f_sys f) i k) n_op) (gop Boson (nlog (f_sys f)) (lsite (f_sys f) j l) n_op) a b) with (smul (N:=D) (Nn (K:=CR) nl (orb k i)) (Nn nl (orb l j)) a b).
      apply (NN_off f); try assumption; apply (orb_lt f); assumption.
    - destruct (two_ok (K:=CR) (f_sys f) i k j k cdag_op c_op Fermion) as (A0 & EA0 & SQ & FA); auto using sq_cdag, sq_c; try discriminate; try reflexivity. rewrite EA in EA0. injection EA0 as <-.
      rewrite (FA a b Ha Hb). change (smul (N := 2 ^ nlog (f_sys f)) (gop Fermion (nlog (f_sys f)) (lsite (f_sys f) i k) cdag_op) (gop Fermion (nlog (f_sys f)) (lsite (f_sys f) j k) c_op) a b) with (smul (N:=D) (Cd (K:=CR) nl (orb k i)) (Ca nl (orb k j)) a b).
      pose proof (orb_lt f k i Hk Hi) as L1. pose proof (orb_lt f k j Hk Hj) as L2. rewrite (one_way f (orb k i) (orb k j) a b ltac:(lia) L1 L2 Ha Hb).
      destruct (agree_off 2 nl [orb k i; orb k j] a b) eqn:AG; cbn [andb]; [|reflexivity]. destruct (_ && _) eqn:DG; [|reflexivity]. exfalso. apply NE.
      apply andb_true_iff in DG as (DG & D4). apply andb_true_iff in DG as (DG & D3). apply andb_true_iff in DG as (D1 & D2). apply Nat.eqb_eq in D1, D2, D3, D4. apply (hop_keeps k i j a b); congruence.
  Qed.
  Lemma number_total a : (a < D)%nat -> ksum ns (fun i => ksum m (fun k => real (x k) *c Nn nl (orb k i) a a)) = real (gain f x a).
  Proof using.
    intros Ha. rewrite ksum_swap. unfold gain. assert (G : forall M, (M <= m)%nat -> ksum M (fun k => ksum ns (fun i => real (x k) *c Nn nl (orb k i) a a)) = real (total (fun k => x k * INR (cnt a k)) (seq 0 M))).
    { induction M as [|M IH]; intros L; [reflexivity|]. cbn [ksum]. rewrite IH by lia. rewrite seq_S. cbn [Nat.add]. rewrite total_app. cbn [total fold_right].
      assert (SP : ksum ns (fun i => real (x M) *c Nn nl (orb M i) a a) = real (x M * INR (cnt a M))).
      { rewrite ksum_mul_l. unfold occ_species. assert (C : forall k, (k <= ns)%nat -> ksum k (fun i => Nn (K:=CR) nl (orb M i) a a) = real (INR (length (filter (fun i => occ nl a (orb M i)) (seq 0 k))))).
        { induction k as [|k IHk]; intros Lk; [reflexivity|]. cbn [ksum]. rewrite IHk by lia. rewrite seq_S. cbn [Nat.add]. rewrite filter_app, app_length, plus_INR. cbn [filter].
          rewrite (n_entry nl (orb M k)) by (try assumption; apply (orb_lt f); lia). cbn [n_spec ent]. rewrite Nat.eqb_refl. cbn [andb]. destruct (occ nl a (orb M k)); cbn [length INR]; apply injective_projections; cbn; ring. }
        rewrite C by lia. apply injective_projections; cbn; ring. }
      etransitivity; [apply f_equal2; [reflexivity | exact SP]|]. apply injective_projections; cbn; ring. }
    apply G. lia.
  Qed.
End Gain.

Theorem ham_raised x f f' a b : raised x f f' -> us_ok f -> let D := (2 ^ (fg_nsites (f_geom f) * f_nspecies f))%nat in (a < D)%nat -> (b < D)%nat ->
  HS2 f' (amplitude f') a b = HS2 f (amplitude f) a b +c (if (a =? b)%nat then real (- gain f x a) else c0).
Proof.
  intros RG US D Ha Hb. unfold D in *. clear D. destruct f as [g m ts us sm mu pt pr0], f' as [g' m' ts' us' sm' mu' pt' pr']. destruct RG as (G & M & T & U & SM & MU & PT). unfold us_ok in US. cbn [f_geom f_nspecies f_ts f_us f_same f_mus f_pot] in *. subst g' m'.
  set (f := Ferm g m ts us sm mu pt pr0) in *. set (f' := Ferm g m ts' us' sm' mu' pt' pr') in *.
  set (ns := fg_nsites g) in *. set (nl := (ns * m)%nat).
  assert (L : forall s i, (s < m)%nat -> (i < ns)%nat -> (ns * s + i < nl)%nat) by (intros; unfold nl; nia).
  assert (X : ksum ns (fun i => ksum m (fun k => real (x k) *c Nn nl (ns * k + i) a b)) = (if (a =? b)%nat then real (gain f x a) else c0)).
  { destruct (Nat.eqb_spec a b) as [<-|NE]; [exact (number_total f x a Ha)|]. apply ksum_zero. intros i Hi. apply ksum_zero. intros k Hk. pose proof (Nn_off f (ns * k + i)%nat a b (L k i Hk Hi) Ha Hb NE) as Z. etransitivity; [apply f_equal2; [reflexivity | exact Z]|]. ring. }
  unfold HS2. change (nlog (f_sys f')) with nl. change (nlog (f_sys f)) with nl. unfold lsite. change (s_nsites (f_sys f')) with ns. change (s_nsites (f_sys f)) with ns.
  cbn [f_geom f_nspecies f_ts f_us f_same f_mus f_pot f f']. fold ns. fold f f'.
  match goal with |- kadd (ksub (kadd (kadd ?A1 ?A2) ?A3) ?A4) ?A5 = kadd (ksub (kadd (kadd ?B1 ?B2) ?B3) ?B4) ?B5 +c ?Z =>
    assert (Q1 : A1 = B1); [|assert (Q2 : A2 = B2); [|assert (Q3 : A3 = B3); [|assert (Q4 : A4 = B4 -c Z); [|assert (Q5 : A5 = B5); [|rewrite Q1, Q2, Q3, Q4, Q5; generalize Z B1 B2 B3 B4 B5; intros; ring]]]]] end.
  - apply ksum_ext. intros i Hi. apply ksum_ext. intros j Hj. apply ksum_ext. intros k Hk. unfold amplitude. cbn [f_ts f_geom f f']. rewrite T by lia. reflexivity.
  - apply ksum_ext. intros i Hi. rewrite U by exact Hi. reflexivity.
  - apply ksum_ext. intros i Hi. apply ksum_ext. intros j Hj. apply ksum_ext. intros k Hk. rewrite SM by lia. reflexivity.
  - transitivity (ksum ns (fun i => ksum m (fun k => mu k *c Nn nl (ns * k + i) a b)) +c (if (a =? b)%nat then real (gain f x a) else c0)).
    + rewrite <- X, <- ksum_add. apply ksum_ext. intros i Hi. rewrite <- ksum_add. apply ksum_ext. intros k Hk. rewrite MU by exact Hk. set (y := Nn nl (ns * k + i) a b). generalize (mu k). intros z. clearbody y. apply injective_projections; cbn; ring.
    + set (y := ksum ns _). change (real (- gain f x a)) with (real (- (gain f x a))). destruct (a =? b)%nat; clearbody y; apply injective_projections; cbn; ring.
  - apply ksum_ext. intros i Hi. apply ksum_ext. intros k Hk. rewrite PT by lia. reflexivity.
Qed.

Section Api.
  Variables (x : nat -> R) (f f' : fermions CR) (pr : option (mat CR)) (idx : list nat) (H H' V V' : mat CR) (E E' : list R).
  Hypothesis rg : raised x f f'.
  Hypothesis us : us_ok f.
  Hypothesis sel : selects f pr idx.
  Hypothesis made : createH f pr = Ok H.
  Hypothesis made' : createH f' pr = Ok H'.
  Hypothesis basis : eigenbasis H V E.
  Hypothesis basis' : eigenbasis H' V' E'.
  Notation n := (length idx).
  Notation gn p := (gain f x (nth p idx 0%nat)).
  Lemma us' : us_ok f'. Proof using rg us. destruct rg as (G & M & _ & U & _). destruct us as [A|Z]; [left; rewrite M; exact A|]. right. rewrite G. intros i Hi. rewrite (U i Hi). apply Z, Hi. Qed.
  Lemma sel' : selects f' pr idx. Proof using rg sel. destruct rg as (G & M & _). unfold selects, f_sys in *. rewrite G, M. exact sel. Qed.
  Hypothesis dist : NoDup idx.
  Lemma same_at p q : (p < n)%nat -> (q < n)%nat -> (nth p idx 0 =? nth q idx 0)%nat = (p =? q)%nat.
  Proof using dist. intros Hp Hq. apply eq_true_iff_eq. rewrite !Nat.eqb_eq. split; [|congruence]. intros Q. apply (proj1 (NoDup_nth idx 0%nat) dist); assumption. Qed.
  Lemma r_ents : nrow H = n /\ ncol H = n /\ nrow H' = n /\ ncol H' = n /\ (forall p q, (p < n)%nat -> (q < n)%nat -> gn p <> gn q -> ent H p q = c0) /\
    forall p q, (p < n)%nat -> (q < n)%nat -> ent H' p q = ent H p q +c (if (p =? q)%nat then real (- gn p) else c0).
  Proof using rg us sel made made' dist.
    destruct (sel_ent f pr idx sel H us made) as (A & B & W). destruct (sel_ent f' pr idx sel' H' us' made') as (A' & B' & W'). split; [exact A|]. split; [exact B|]. split; [exact A'|]. split; [exact B'|]. pose proof (sel_lt f pr idx sel) as SL. split.
    - intros p q Hp Hq NE. rewrite W by assumption. apply (ham_keeps f x); auto.
    - intros p q Hp Hq. rewrite W, W' by assumption. rewrite (ham_raised x f f' _ _ rg us) by auto. rewrite same_at by assumption. reflexivity.
  Qed.
  Lemma r_V : nrow V = n. Proof using rg us sel made made' basis dist. destruct basis as ((_ & X & _) & _). rewrite <- X. apply r_ents. Qed.
  Lemma r_V' : nrow V' = n. Proof using rg us sel made made' basis' dist. destruct basis' as ((_ & X & _) & _). rewrite <- X. apply r_ents. Qed.
  Section Motion.
    Variables (w : nat -> nat -> R) (A O : mat CR) (c : R).
    Hypothesis ms : measured f w A c.
    Hypothesis pm : forall i k, (i < fg_nsites (f_geom f))%nat -> (k < f_nspecies f)%nat -> w i k = 1 \/ w i k = -1.
    Hypothesis uo : used pr A O.
    Theorem raised_motion st k times Ms Ms' v : (k < ncol (as_columns st))%nat -> quench st V E times = Ok Ms -> quench st V' E' times = Ok Ms' ->
      exp_vals (Columns (nth k Ms (mzero 0 0))) O = Ok v -> exp_vals (Columns (nth k Ms' (mzero 0 0))) O = Ok v.
    Proof using rg us sel made made' basis basis' dist ms pm uo.
      intros Hk E1 E2 EX. destruct (measured_ok f w pm A c ms) as (SQ & _). destruct (used_ent f pr idx sel A O SQ uo) as (O1 & O2 & QO). pose proof r_V as RV. pose proof r_V' as RV'. destruct r_ents as (_ & _ & _ & _ & KP & RL).
      rewrite (path_of V E st _ Ms k O E1 Hk ltac:(congruence) ltac:(congruence)) in EX. injection EX as <-. rewrite (path_of V' E' st times Ms' k O E2 Hk ltac:(congruence) ltac:(congruence)). f_equal. apply map_ext_in. intros a Ha. rewrite RV, RV'.
      apply (conserved_path n H H' V V' E E' (fun p => - gn p) basis basis' RV RV').
      - intros p q Hp Hq NE. apply KP; try assumption. intros Q. apply NE. rewrite Q. reflexivity.
      - intros p q Hp Hq. rewrite RL by assumption. reflexivity.
      - intros p q Hp Hq NE. rewrite QO by assumption. apply (measured_keeps f x w A c); try (apply (sel_lt f pr idx sel); assumption); [exact ms|]. intros Q. apply NE. rewrite Q. reflexivity.
    Qed.
  End Motion.
  (** Fixed numbers of particles. *)
  Variable count : nat -> nat.
  Hypothesis fixed : same_numbers f count idx.
  Notation sft := (total (fun k => x k * INR (count k)) (seq 0 (f_nspecies f))).
  Lemma gain_fixed p : (p < n)%nat -> gn p = sft.
  Proof using fixed. intros Hp. unfold gain. apply total_ext. intros k Hk. apply in_seq in Hk. rewrite (fixed _ k) by (try apply nth_In; lia). reflexivity. Qed.
  Lemma shift_nth k : (k < length E)%nat -> nth k (map (fun e => e + - sft) E) 0 = nth k E 0 + - sft.
  Proof using. intros Hk. rewrite (nth_indep _ 0 (0 + - sft)) by (rewrite map_length; exact Hk). apply (map_nth (fun e => e + - sft)). Qed.
  Theorem raised_basis : eigenbasis H' V (map (fun e => e + - sft) E).
  Proof using rg us sel made made' basis dist fixed.
    pose proof r_V as RV. destruct r_ents as (_ & _ & R1 & R2 & _ & RL). destruct basis as ((LE & _ & _ & EV) & ON & CO). split; [|split; assumption]. split; [rewrite map_length; exact LE|]. split; [congruence|]. split; [congruence|].
    rewrite RV in *. intros p k Hp Hk. rewrite shift_nth by lia. unfold apply. rewrite (ksum_ext n _ (fun q => ent H p q *c col V k q +c (if (p =? q)%nat then real (- sft) *c col V k q else c0))).
    - rewrite ksum_add. specialize (EV p k Hp Hk). unfold apply in EV. etransitivity; [apply f_equal2; [exact EV | apply (ksum_single n p); [exact Hp|]]|].
      + intros q Hq NE. rewrite (proj2 (Nat.eqb_neq p q)) by auto. reflexivity.
      + rewrite Nat.eqb_refl. unfold col. apply injective_projections; cbn; ring.
    - intros q Hq. rewrite RL by assumption. rewrite gain_fixed by exact Hp. generalize (col V k q), (ent H p q). intros. destruct (p =? q)%nat; apply injective_projections; cbn; ring.
  Qed.
  Theorem raised_energies : Permutation (map (fun e => e - sft) E) E'.
  Proof using rg us sel made made' basis basis' dist fixed.
    pose proof r_V as RV. pose proof r_V' as RV'. apply (ChainSpectrum.energies_perm H' V V'); [apply (SymAverage.eigenbasis_hermitian _ _ _ raised_basis) | exact raised_basis | exact basis' | congruence].
  Qed.
  Theorem raised_average O T v : T <> 0 \/ (sorted_list E /\ sorted_list E' /\ apart gap13 E) -> exp_vals_thermal V O E T = Ok v -> exp_vals_thermal V' O E' T = Ok v.
  Proof using rg us sel made made' basis basis' dist fixed.
    intros HT EX. assert (NE : E <> []). { intros ->. unfold exp_vals_thermal, thermal_weights in EX. cbn in EX. destruct HT as [NT|_]; discriminate EX. }
    pose proof r_V as RV. pose proof r_V' as RV'. pose proof raised_energies as PE. set (Es := map (fun e => e + - sft) E).
    assert (NE' : E' <> []). { intros Q. rewrite Q in PE. apply Permutation_sym, Permutation_nil, map_eq_nil in PE. congruence. }
    assert (LE : ncol V = length E) by apply basis.
    assert (SO : nrow O = nrow V /\ ncol O = nrow V).
    { unfold exp_vals_thermal in EX. destruct (thermal_weights true E T) as [(w0, z0)|e]; cbn [bind] in EX; [|discriminate EX]. unfold exp_vals in EX. destruct (is_zero T); cbn [as_columns nrow first_cols] in EX.
      - destruct ((ncol O =? nrow V) && (nrow O =? nrow V))%nat eqn:Q; [|discriminate EX]. apply andb_true_iff in Q as (Q1 & Q2). apply Nat.eqb_eq in Q1, Q2. split; assumption.
      - destruct ((ncol O =? nrow V) && (nrow O =? nrow V))%nat eqn:Q; [|discriminate EX]. apply andb_true_iff in Q as (Q1 & Q2). apply Nat.eqb_eq in Q1, Q2. split; assumption. }
    assert (FV : fits V O E) by (repeat split; try apply SO; assumption).
    assert (FS : fits V O Es) by (repeat split; try apply SO; unfold Es; [rewrite map_length; exact LE | intros Q; apply map_eq_nil in Q; congruence]).
    assert (IS : forall y, In y Es -> exists e, In e E /\ y = e + - sft) by (intros y Hy; apply in_map_iff in Hy as (e & <- & He); exists e; auto).
    assert (SS : sorted_list E -> sorted_list Es). { intros SL i j Hij. unfold Es in *. rewrite map_length in Hij. rewrite !shift_nth by lia. specialize (SL i j Hij). lra. }
    assert (AS : apart gap13 E -> apart gap13 Es). { intros AP y z Hy Hz. destruct (IS y Hy) as (e1 & I1 & ->). destruct (IS z Hz) as (e2 & I2 & ->). destruct (AP e1 e2 I1 I2) as [->|Q]; [left; reflexivity | right]. replace (e1 + - sft - (e2 + - sft)) with (e1 - e2) by ring. exact Q. }
    rewrite <- (thermal_basis H' V V' O Es E' T (SymAverage.eigenbasis_hermitian _ _ _ raised_basis) raised_basis basis' ltac:(congruence) FS NE').
    - rewrite <- EX. destruct (Req_EM_T T 0) as [->|NT]; [|apply thermal_shift; [exact FV | exact NT]]. destruct HT as [X|(S1 & S2 & AP)]; [congruence|]. rewrite (thermal_zero V O E FV S1 AP), (thermal_zero V O Es FS (SS S1) (AS AP)). f_equal.
      assert (LP : (0 < length E)%nat) by (destruct E; [congruence | cbn; lia]).
      unfold average_at, levels. rewrite !total_map. unfold at_energy. cbn [energy value fst snd]. rewrite (map_length _ E : length Es = length E). apply (f_equal2 Rdiv); apply total_ext; intros k Hk; apply in_seq in Hk; unfold Es; rewrite !shift_nth by lia;
        destruct (Req_EM_T (nth k E 0 + - sft) (nth 0 E 0 + - sft)), (Req_EM_T (nth k E 0) (nth 0 E 0)); try reflexivity; exfalso; lra.
    - destruct HT as [X|(S1 & S2 & AP)]; [left; exact X | right]. split; [apply SS, S1|]. split; [exact S2 | apply AS, AP].
  Qed.
End Api.
Theorem numbers_sector f counts P : fg_nsites (f_geom f) <> 0%nat -> length counts = f_nspecies f -> n_projector (f_sys f) (Some (map Some counts)) = Ok P ->
  exists idx, selects f (Some P) idx /\ NoDup idx /\ same_numbers f (fun k => nth k counts 0%nat) idx.
Proof.
  intros NS LC EP. destruct (number_basis (K:=CR) (f_sys f) (map Some counts) eq_refl NS ltac:(rewrite map_length; exact LC)) as (P' & idx & EP' & RW & SS & MB & _). rewrite EP in EP'. injection EP' as <-. exists idx. split; [|split].
  - split; [exact RW|]. intros k Hk. apply MB, Hk.
  - clear - SS. induction SS as [|a l _ ND FA]; constructor; [|exact ND]. intros I. rewrite Forall_forall in FA. specialize (FA a I). lia.
  - intros a k Ha Hk. apply MB in Ha as (_ & W). apply W. rewrite nth_error_map. rewrite (nth_error_nth' counts 0%nat) by lia. reflexivity.
Qed.
