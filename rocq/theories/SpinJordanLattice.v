(** Chains of spins 1/2 and of spinless fermions: energies, averages and open chains. *)
From Coq Require Import List Arith Lia Bool QArith Qabs Reals Lra ZArith.
From Verif Require Import Scalars Res Matrix ModelBase ModelFermions ModelSpins SpecMat SpecSpins SpecPerm SqMat FockProofs FermiOps HamProofs Sums Digits SpinOps SpinApi SpecJordan SpinJordan.
From Verif Require Import ModelGeometry ModelPhase ModelSymmetry SymBase GeoSquare GeoApi SpecGeometry ModelThermal SpecThermal ThermalFacts ThermalBasis SymAverage
  SpecFermiGas FreeFermi FreeThermal ModelFreeLattice SpecFreeLattice SpecSpace SpaceHubbard ModelSpinLattice SpinRotate.
Import ListNotations.
Local Open Scope R_scope.

(** Shifting the Hamiltonian shifts the energies. *)
Lemma eigenbasis_shift H H' V E c : eigenbasis H V E -> square (nrow V) H' ->
  (forall a b, (a < nrow V)%nat -> (b < nrow V)%nat -> ent H' a b = ent H a b +c real c *c kb (a =? b)%nat) ->
  eigenbasis H' V (map (fun e => e + c) E).
Proof.
  intros ((A & B & C & EV) & R) (S1 & S2) HH. split; [|exact R]. split; [rewrite map_length; exact A|]. split; [exact S1|]. split; [exact S2|].
  intros i k Hi Hk. specialize (EV i k Hi Hk). unfold apply in *.
  rewrite (ksum_ext _ _ (fun j => ent H i j *c col V k j +c kb (j =? i)%nat *c (real c *c col V k j))).
  2: { intros j Hj. rewrite HH by assumption. rewrite (Nat.eqb_sym j i). ring. }
  rewrite ksum_add, EV. rewrite (ksum_pick (nrow V) i) by exact Hi.
  rewrite (nth_indep (map (fun e => e + c) E) 0 (0 + c)) by (rewrite map_length, <- A; exact Hk). rewrite (map_nth (fun e => e + c)).
  unfold col. apply injective_projections; cbn; ring.
Qed.
Lemma sorted_shift E c : sorted_list E -> sorted_list (map (fun e => e + c) E).
Proof.
  intros S i j Hij. rewrite map_length in Hij. rewrite !(nth_indep (map (fun e => e + c) E) 0 (0 + c)) by (rewrite map_length; lia).
  rewrite !(map_nth (fun e => e + c)). specialize (S i j Hij). lra.
Qed.
Lemma apart_shift gap E c : apart gap E -> apart gap (map (fun e => e + c) E).
Proof.
  intros A x y Hx Hy. apply in_map_iff in Hx as (x' & <- & Hx). apply in_map_iff in Hy as (y' & <- & Hy).
  destruct (A x' y' Hx Hy) as [->|L]; [left; reflexivity|right]. replace (x' + c - (y' + c)) with (x' - y') by ring. exact L.
Qed.
(** An equality of averages at all other temperatures holds at zero. *)
Lemma at_zero_both V O E V' O' E' : fits V O E -> fits V' O' E' -> sorted_list E -> apart gap13 E -> sorted_list E' -> apart gap13 E' ->
  (forall T, T <> 0 -> exp_vals_thermal V O E T = exp_vals_thermal V' O' E' T) -> exp_vals_thermal V O E 0 = exp_vals_thermal V' O' E' 0.
Proof.
  intros F F' S A S' A' Q. destruct (thermal_limit V O E F S A) as (r & -> & L). destruct (thermal_limit V' O' E' F' S' A') as (r' & -> & L'). f_equal.
  destruct (Req_EM_T r r') as [Z|Z]; [exact Z|]. exfalso. set (e := (Rabs (r - r') / 2)%R).
  assert (Pe : (0 < e)%R) by (unfold e; pose proof (Rabs_pos_lt (r - r') ltac:(lra)); lra).
  destruct (L e Pe) as (d & Pd & D). destruct (L' e Pe) as (d' & Pd' & D').
  pose proof (Rmin_l d d'). pose proof (Rmin_r d d'). assert (Pm : (0 < Rmin d d')%R) by (apply Rmin_pos; assumption).
  set (t := (Rmin d d' / 2)%R). specialize (D t ltac:(unfold t; lra)). specialize (D' t ltac:(unfold t; lra)).
  rewrite Q in D by (unfold t; lra). destruct (exp_vals_thermal V' O' E' t) as [x|x]; cbn in D, D'; unfold e in *.
  - unfold Rabs in *. repeat destruct (Rcase_abs _); lra.
  - unfold Rabs in *. repeat destruct (Rcase_abs _); lra.
Qed.

(** Averages of any observable do not depend on a constant added to the Hamiltonian. *)
Lemma averages_shift H H' V E V' E' O T c : (0 < nrow V)%nat -> eigenbasis H V E -> eigenbasis H' V' E' -> nrow V' = nrow V -> square (nrow V) O ->
  (forall a b, (a < nrow V)%nat -> (b < nrow V)%nat -> ent H' a b = ent H a b +c real c *c kb (a =? b)%nat) ->
  T <> 0 \/ (sorted_list E /\ sorted_list E' /\ apart gap13 E) ->
  exp_vals_thermal V' O E' T = exp_vals_thermal V O E T.
Proof.
  intros P B B' R (O1 & O2) HH HT.
  assert (SH : square (nrow V) H'). { destruct B' as ((_ & X & Y & _) & _). split; congruence. }
  pose proof (eigenbasis_shift H H' V E c B SH HH) as B2.
  pose proof (FreeWick.basis_not_empty V E H B P) as NE. pose proof (FreeWick.basis_not_empty V' E' H' B' ltac:(rewrite R; exact P)) as NE'.
  assert (F : fits V O E). { repeat split; try congruence. apply B. }
  assert (F2 : fits V O (map (fun e => e + c) E)).
  { destruct F as (X1 & X2 & X3 & _). split; [exact X1|]. split; [exact X2|]. split; [rewrite map_length; exact X3|]. destruct E; [congruence|discriminate]. }
  transitivity (exp_vals_thermal V O (map (fun e => e + c) E) T).
  - symmetry. apply (thermal_basis H' V V' O (map (fun e => e + c) E) E' T (eigenbasis_hermitian H' V _ B2) B2 B' R F2 NE').
    destruct HT as [Z|(S & S' & A)]; [left; exact Z|right]. split; [apply sorted_shift, S|]. split; [exact S'|apply apart_shift, A].
  - destruct (Req_EM_T T 0) as [Z|Z]; [|apply thermal_shift; assumption].
    destruct HT as [X|(S & S' & A)]; [congruence|]. rewrite Z. apply at_zero_both; try assumption; [apply sorted_shift, S|apply apart_shift, A|].
    intros T' X. apply thermal_shift; assumption.
Qed.

Section Averages.
  Variables (rt : nat -> CR) (s : spins CR) (f : fermions CR) (Hs Hf : mat CR) (c : R).
  Hypothesis rt1 : rt 1%nat = c1.
  Hypothesis same : same_chain s f.
  Hypothesis hamS : sp_createH rt s None = Ok Hs.
  Hypothesis hamF : createH f None = Ok Hf.
  Hypothesis offset : chain_offset s = real c.
  Notation n := (fg_nsites (f_geom f)).

  Lemma agree : square (2 ^ n) Hs /\ square (2 ^ n) Hf /\ forall a b, (a < 2 ^ n)%nat -> (b < 2 ^ n)%nat -> ent Hs a b = ent Hf a b +c real c *c kb (a =? b)%nat.
  Proof using rt1 same hamS hamF offset.
    destruct (chains_agree rt rt1 s f same) as (A & B & EA & EB & SA & SB & V). rewrite hamS in EA. rewrite hamF in EB. injection EA as <-. injection EB as <-.
    split; [exact SA|]. split; [exact SB|]. intros a b Ha Hb. rewrite V by assumption. rewrite offset. reflexivity.
  Qed.
  (** A basis of one is a basis of the other, with energies moved by the offset. *)
  Theorem chain_energies V E : eigenbasis Hf V E -> eigenbasis Hs V (map (fun e => e + c) E).
  Proof using rt1 same hamS hamF offset.
    intros B. destruct agree as (SA & SB & V0). assert (R : nrow V = (2 ^ n)%nat). { destruct B as ((_ & X & _) & _). rewrite <- X. apply SB. }
    apply (eigenbasis_shift Hf Hs V E c B); [rewrite R; exact SA|rewrite R; exact V0].
  Qed.
  Theorem chain_averages V E V' E' O T : eigenbasis Hf V E -> eigenbasis Hs V' E' -> square (2 ^ n) O ->
    T <> 0 \/ (sorted_list E /\ sorted_list E' /\ apart gap13 E) -> exp_vals_thermal V' O E' T = exp_vals_thermal V O E T.
  Proof using rt1 same hamS hamF offset.
    intros B B' SO HT. destruct agree as (SA & SB & V0). assert (R : nrow V = (2 ^ n)%nat). { destruct B as ((_ & X & _) & _). rewrite <- X. apply SB. }
    assert (R' : nrow V' = (2 ^ n)%nat). { destruct B' as ((_ & X & _) & _). rewrite <- X. apply SA. }
    apply (averages_shift Hf Hs V E V' E' O T c); try assumption.
    - rewrite R. apply Nat.neq_0_lt_0, Nat.pow_nonzero. lia.
    - congruence.
    - rewrite R. exact SO.
    - rewrite R. exact V0.
  Qed.
  (** The moment along z is one half less the density. *)
  Theorem chain_moment V E V' E' T i A B x : eigenbasis Hf V E -> eigenbasis Hs V' E' ->
    T <> 0 \/ (sorted_list E /\ sorted_list E' /\ apart gap13 E) -> (i < n)%nat ->
    single_site_op (sp_sys s) i 0 (sz_op 1) Boson = Ok A -> single_site_op (f_sys f) i 0 n_op Boson = Ok B ->
    exp_vals_thermal V B E T = Ok x -> exp_vals_thermal V' A E' T = Ok (1 / 2 - x).
  Proof using rt1 same hamS hamF offset.
    intros BF BS HT Hi EA EB EX. destruct agree as (SA & SB & V0). pose proof same as (NS & TW & SP & _).
    assert (R : nrow V = (2 ^ n)%nat). { destruct BF as ((_ & X & _) & _). rewrite <- X. apply SB. }
    assert (YS : sp_sys s = dsys 2 n) by (unfold sp_sys; rewrite NS, TW; reflexivity).
    assert (YF : f_sys f = dsys 2 n) by (unfold f_sys; rewrite SP; reflexivity).
    rewrite YS in EA. rewrite YF in EB.
    destruct (single_elem 2 ltac:(lia) n i (sz_op 1) ltac:(split; reflexivity) Hi (or_introl eq_refl)) as (A' & EA' & SA' & VA). rewrite EA in EA'. injection EA' as <-.
    destruct (single_elem 2 ltac:(lia) n i n_op ltac:(split; reflexivity) Hi (or_introl eq_refl)) as (B' & EB' & SB' & VB). rewrite EB in EB'. injection EB' as <-.
    rewrite (chain_averages V E V' E' A T BF BS SA' HT).
    replace (1 / 2 - x) with (1 / 2 + (-1) * x) by lra.
    apply (average_linear Hf V E T B A (1 / 2) (-1) BF); try (rewrite R; assumption).
    - rewrite R. apply Nat.neq_0_lt_0, Nat.pow_nonzero. lia.
    - destruct HT as [Z|(S & S' & P)]; [left; exact Z|right; split; assumption].
    - rewrite R. intros a b Ha Hb. rewrite VA, VB by assumption.
      transitivity (site_elem 2 n i (fun r c => kmul (kb (r =? c)%nat) (if (r =? 0)%nat then real (1 / 2) else real (- (1 / 2)))) a b).
      { unfold site_elem. destruct (agree_off _ _ _ _ _); [|reflexivity].
        destruct (two_cases (digit 2 n i a)) as [-> | ->]; [apply digit_lt; lia| |];
        (destruct (two_cases (digit 2 n i b)) as [-> | ->]; [apply digit_lt; lia| |]); apply injective_projections; cbn; unfold Q2R; cbn; field. }
      transitivity (real (1 / 2) *c kb (a =? b)%nat +c real (-1) *c site_elem 2 n i (fun r c => kmul (kb (r =? c)%nat) (if (r =? 0)%nat then c0 else c1)) a b).
      { rewrite !site_diag by assumption. destruct (digit 2 n i a =? 0)%nat, (a =? b)%nat; apply injective_projections; cbn; field. }
      f_equal. f_equal. unfold site_elem. destruct (agree_off _ _ _ _ _); [|reflexivity].
      destruct (two_cases (digit 2 n i a)) as [-> | ->]; [apply digit_lt; lia| |];
      (destruct (two_cases (digit 2 n i b)) as [-> | ->]; [apply digit_lt; lia| |]); apply injective_projections; cbn; ring.
    - exact EX.
  Qed.
End Averages.

Section Open.
  Variables (nx : Z) (g : geometry CR) (w t v mu : R) (f : fermions CR) (s : spins CR).
  Hypothesis X1 : (1 <= nx)%Z. Hypothesis X2 : (2 * nx <= 100000000000000)%Z.
  Hypothesis LG : c_square_geometry nx 1 0 0 true true = Ok g.
  Notation n := (Z.to_nat nx).
  Hypothesis madeF : fermions_init (fgeom_of g) (number 0) (numbers 1 (fun _ => t)) None (numbers 1 (fun _ => mu)) (number w) (numbers 1 (fun _ => v)) 1 = Ok f.
  Definition spins_stored : Prop := sp_geom s = sgeom_of g /\ sp_two s = 1%nat /\
    (forall a b, sp_jx s a b = if sg_adj (sgeom_of g) a b then kmul (real (- t)) (sg_phase (sgeom_of g) a b) else k0) /\
    (forall a b, sp_jy s a b = if sg_adj (sgeom_of g) a b then kmul (real (- t)) (sg_phase (sgeom_of g) a b) else k0) /\
    (forall a b, sp_jz s a b = if sg_adj (sgeom_of g) a b then kmul (real (v / 2)) (sg_phase (sgeom_of g) a b) else k0) /\
    (forall i, sp_hx s i = c0) /\ (forall i, sp_hy s i = c0) /\ (forall i, (i < n)%nat -> sp_hz s i = real (w - mu + v / 2 * INR (chain_degree n i))).
  Hypothesis madeS : spins_stored.

  Lemma n_sites : g_n g = n.
  Proof using X1 X2 LG.
    destruct (square_neighbours phase_matrix valid_phases nx 1 0 0 true true g X1 ltac:(lia) X2 ltac:(lia) LG) as (G & _). rewrite G. f_equal. lia.
  Qed.
  Lemma next_sites i j : (i < n)%nat -> (j < n)%nat -> fg_adj (fgeom_of g) i j = ((i =? S j) || (j =? S i))%nat.
  Proof using X1 X2 LG.
    intros Hi Hj. destruct (square_neighbours phase_matrix valid_phases nx 1 0 0 true true g X1 ltac:(lia) X2 ltac:(lia) LG) as (G & _ & _ & _ & _ & _ & NB).
    rewrite <- n_sites in Hi, Hj. destruct (NB i j Hi Hj) as (B01 & _ & _ & ST). cbn [fgeom_of fg_adj].
    assert (BB : negb (Qeq_bool (ent (g_adj g) i j) 0) = true <-> ent (g_adj g) i j = 1%Q).
    { destruct B01 as [-> | ->]; cbn; split; intros; try reflexivity; discriminate. }
    apply Bool.eq_true_iff_eq. rewrite BB, ST. unfold site_x, site_y. rewrite !Z.div_1_r, !Z.mod_1_r. cbn [one_step]. rewrite orb_true_iff, !Nat.eqb_eq. clear - X1.
    split; [intros [([?|?] & _)|(_ & [?|?])]; lia|]. intros [-> | ->]; left; (split; [|reflexivity]); lia.
  Qed.
  Lemma pick_or n' (i : nat) (x : CR) : ksum n' (fun j => kb (j =? i)%nat *c x) = kb (i <? n')%nat *c x.
  Proof using.
    clear. destruct (Nat.ltb_spec i n') as [L|L].
    - rewrite (ksum_pick n' i (fun _ => x) L). cbn [kb]. ring.
    - rewrite (ksum_ext _ _ (fun _ => c0)); [rewrite ksum_zero; [cbn [kb]; ring|reflexivity]|]. intros j Hj. rewrite (proj2 (Nat.eqb_neq j i)) by lia. cbn [kb]. ring.
  Qed.

  Theorem open_same : same_chain s f.
  Proof using All.
    destruct (couplings g 0 w (fun _ => t) (fun _ => v) (fun _ => mu) 1 f madeF) as (FG & NS & FT & FU & FV & FM & FP).
    destruct madeS as (SG & S2 & SX & SY & SZ & HX & HY & HZ).
    assert (NF : fg_nsites (f_geom f) = n) by (rewrite FG; cbn [fgeom_of fg_nsites]; apply n_sites).
    unfold same_chain. rewrite NF, SG. cbn [sgeom_of sg_nsites].
    assert (SA : forall i j, sg_adj (sgeom_of g) i j = fg_adj (fgeom_of g) i j) by reflexivity.
    assert (PH : forall i j, (i < n)%nat -> (j < n)%nat -> ent (g_phase g) i j = c1).
    { intros i j Hi Hj. apply (phase_one nx 1 true true g X1 ltac:(lia) X2 ltac:(lia) LG i j); rewrite Z.mul_1_r; assumption. }
    assert (TS : forall i j, (i < n)%nat -> (j < n)%nat -> f_ts f i j 0 = real t *c kb (fg_adj (fgeom_of g) i j)).
    { intros i j Hi Hj. rewrite FT by lia. cbn [fgeom_of fg_phase]. rewrite PH by assumption. destruct (fg_adj _ i j); cbn [kb].
      - replace (real t *c (c1 *c c1)) with (real t) by ring. rewrite kre_re. ring.
      - replace (real t *c (c0 *c c1)) with (real 0) by (apply injective_projections; cbn; ring). rewrite kre_re. apply injective_projections; cbn; ring. }
    assert (VS : forall i j, f_same f i j 0 = real v *c kb (fg_adj (fgeom_of g) i j)).
    { intros i j. rewrite FV by lia. destruct (fg_adj _ i j); cbn [kb].
      - replace (real v *c c1) with (real v) by ring. apply kre_re.
      - replace (real v *c c0) with (real 0) by (apply injective_projections; cbn; ring). apply kre_re. }
    assert (JZ : forall i j, (i < n)%nat -> (j < n)%nat -> sp_jz s i j = real (v / 2) *c kb (fg_adj (fgeom_of g) i j)).
    { intros i j Hi Hj. rewrite SZ, SA. cbn [sgeom_of sg_phase]. rewrite PH by assumption. destruct (fg_adj _ i j); cbn [kb]; ring. }
    split; [apply n_sites|]. split; [exact S2|]. split; [exact NS|]. split; [intros i Hi; apply FU|]. split; [|split; [|split]].
    - intros i j Hij Ne. rewrite TS in Ne by lia. rewrite FG. destruct (fg_adj (fgeom_of g) i j) eqn:A; [|exfalso; apply Ne; cbn [kb]; ring].
      split.
      + rewrite next_sites in A by lia. apply orb_true_iff in A as [A|A]; apply Nat.eqb_eq in A; lia.
      + apply (adj_dist nx 1 true true g X1 ltac:(lia) X2 ltac:(lia) LG i j); [rewrite Z.mul_1_r; lia | rewrite Z.mul_1_r; lia | exact A].
    - intros i j Hij. rewrite SX, SY, SA, TS by lia. cbn [sgeom_of sg_phase]. rewrite PH by lia. destruct (fg_adj _ i j); cbn [kb]; split; apply injective_projections; cbn; ring.
    - intros i j Hij. rewrite VS, JZ by lia. assert (K2 : kofnat 2 = real 2) by (apply injective_projections; cbn; unfold Q2R; cbn; field). rewrite K2.
      destruct (fg_adj _ i j); cbn [kb]; apply injective_projections; cbn; field.
    - intros i Hi. split; [apply HX|]. split; [apply HY|]. rewrite HZ by exact Hi.
      rewrite VS, FP, FM by lia. rewrite (next_sites i i) by assumption. rewrite (proj2 (Nat.eqb_neq i (S i))) by lia. cbn [orb kb].
      assert (SUM : ksum n (fun j => if (j =? i)%nat then k0 else jz_pair s i j) = real (v / 2 * INR (chain_degree n i))).
      { rewrite (ksum_ext _ _ (fun j => kb (j =? S i)%nat *c real (v / 2) +c (if (i =? 0)%nat then c0 else kb (j =? i - 1)%nat *c real (v / 2)))).
        2: { intros j Hj. unfold jz_pair. destruct (Nat.eqb_spec j i) as [Z|Z].
             - subst j. rewrite (proj2 (Nat.eqb_neq i (S i))) by lia. destruct (Nat.eqb_spec i 0) as [Z|Z]; [cbn [kb]; ring|].
               rewrite (proj2 (Nat.eqb_neq i (i - 1))) by lia. cbn [kb]. ring.
             - rewrite !JZ, !next_sites by assumption. destruct (Nat.ltb_spec j i) as [L|L].
               + rewrite (proj2 (Nat.eqb_neq j (S i))) by lia. rewrite (proj2 (Nat.eqb_neq i 0)) by lia. rewrite orb_false_r.
                 destruct (Nat.eqb_spec i (S j)), (Nat.eqb_spec j (i - 1)); try lia; cbn [kb]; ring.
               + rewrite (proj2 (Nat.eqb_neq i (S j))) by lia. rewrite orb_false_r.
                 destruct (Nat.eqb_spec i 0); [cbn [kb]; ring|]. rewrite (proj2 (Nat.eqb_neq j (i - 1))) by lia. cbn [kb]. ring. }
        rewrite ksum_add, pick_or. unfold chain_degree. destruct (Nat.eqb_spec i 0) as [Z|Z].
        - rewrite ksum_zero by reflexivity. destruct (Nat.ltb_spec (S i) n), (Nat.eqb_spec (S i) n); try lia; cbn [Nat.add kb]; apply injective_projections; cbn; ring.
        - rewrite pick_or. rewrite (proj2 (Nat.ltb_lt (i - 1) n)) by lia.
          destruct (Nat.ltb_spec (S i) n), (Nat.eqb_spec (S i) n); try lia; cbn [Nat.add kb]; apply injective_projections; cbn; ring. }
      rewrite SUM. apply injective_projections; cbn; ring.
  Qed.

  Lemma real_add x y : real x +c real y = real (x + y).
  Proof using. clear. apply injective_projections; cbn; ring. Qed.
  Lemma sum_steps k (x : R) : ksum k (fun i => if (i =? 0)%nat then c0 else real x) = real (INR (k - 1) * x).
  Proof using.
    clear. induction k as [|k IH]; [cbn; apply injective_projections; cbn; ring|]. cbn [ksum]. rewrite IH. destruct k as [|k]; [apply injective_projections; cbn; ring|].
    cbn [Nat.eqb]. rewrite real_add. f_equal. replace (S (S k) - 1)%nat with (S k) by lia. replace (S k - 1)%nat with k by lia. rewrite S_INR. ring.
  Qed.
  Lemma sum_degrees k (x y : R) : (k <= n)%nat -> ksum k (fun i => real (x + y * INR (chain_degree n i))) =
    real (INR k * x + y * (INR (k - 1) + INR k - (if (k =? n)%nat then (if (n =? 0)%nat then 0 else 1) else 0))).
  Proof using.
    clear. intros Hk. induction k as [|k IH]; [apply injective_projections; cbn; [destruct n; cbn; ring|ring]|]. cbn [ksum]. rewrite IH by lia. rewrite real_add. f_equal.
    rewrite (proj2 (Nat.eqb_neq k n)) by lia. rewrite S_INR. replace (S k - 1)%nat with k by lia. unfold chain_degree.
    assert (E : INR (k - 1) = INR k - INR (if (k =? 0)%nat then 0 else 1)%nat). { destruct k as [|k]; [cbn; ring|]. cbn [Nat.eqb]. rewrite minus_INR by lia. reflexivity. }
    rewrite E, plus_INR. destruct (Nat.eqb_spec (S k) n) as [W1|W1], (Nat.eqb_spec k 0) as [W2|W2], (Nat.eqb_spec n 0) as [W3|W3]; try lia; cbn; ring.
  Qed.
  Theorem open_offset : chain_offset s = real (- (INR n * (w - mu) + (INR n - 1) * (v / 2)) / 2).
  Proof using X1 X2 LG madeS.
    destruct madeS as (SG & S2 & SX & SY & SZ & HX & HY & HZ).
    assert (PH : forall i j, (i < n)%nat -> (j < n)%nat -> ent (g_phase g) i j = c1).
    { intros i j Hi Hj. apply (phase_one nx 1 true true g X1 ltac:(lia) X2 ltac:(lia) LG i j); rewrite Z.mul_1_r; assumption. }
    unfold chain_offset. rewrite SG. cbn [sgeom_of sg_nsites]. rewrite n_sites.
    rewrite (ksum_ext n (fun i => ksum i (fun j => sp_jz s i j)) (fun i => if (i =? 0)%nat then c0 else real (v / 2))).
    2: { intros i Hi. destruct (Nat.eqb_spec i 0) as [->|Z]; [reflexivity|].
         rewrite (ksum_ext _ _ (fun j => kb (j =? i - 1)%nat *c real (v / 2))).
         2: { intros j Hj. rewrite SZ. change (sg_adj (sgeom_of g) i j) with (fg_adj (fgeom_of g) i j). rewrite next_sites by lia. cbn [sgeom_of sg_phase]. rewrite PH by lia.
              rewrite (proj2 (Nat.eqb_neq j (S i))) by lia. rewrite orb_false_r.
              destruct (Nat.eqb_spec i (S j)), (Nat.eqb_spec j (i - 1)); try lia; cbn [kb]; ring. }
         rewrite pick_or. rewrite (proj2 (Nat.ltb_lt (i - 1) i)) by lia. cbn [kb]. ring. }
    rewrite (ksum_ext n (fun i => sp_hz s i) (fun i => real (w - mu + v / 2 * INR (chain_degree n i)))).
    2: { intros i Hi. apply HZ, Hi. }
    rewrite sum_steps, sum_degrees by lia. rewrite Nat.eqb_refl. rewrite (proj2 (Nat.eqb_neq n 0)) by lia. rewrite minus_INR by lia.
    apply injective_projections; cbn; unfold Q2R; cbn; field.
  Qed.
End Open.
(** The chain of spins can always be made. *)
Lemma open_made nx g w t v mu ip : (1 <= nx)%Z -> (2 * nx <= 100000000000000)%Z -> c_square_geometry nx 1 0 0 true true = Ok g ->
  exists s : spins CR, spins_init ip (sgeom_of g) (JNum (real (- t))) (JNum (real (- t))) (JNum (real (v / 2))) (HNum c0) (HNum c0)
    (HArr (map (fun i => real (w - mu + v / 2 * INR (chain_degree (Z.to_nat nx) i))) (seq 0 (Z.to_nat nx)))) false 1 = Ok s.
Proof.
  intros X1 X2 LG. eexists. unfold spins_init, interaction_mat, field_mat. cbn [bind]. rewrite map_length, seq_length. cbn [sgeom_of sg_nsites].
  rewrite (n_sites nx g X1 X2 LG), Nat.eqb_refl. cbn [negb bind]. reflexivity.
Qed.
(** What the constructor stores: fields site by site ... *)
Lemma stored_fields nx g w t v mu ip (s : spins CR) : spins_init ip (sgeom_of g) (JNum (real (- t))) (JNum (real (- t))) (JNum (real (v / 2))) (HNum c0) (HNum c0)
    (HArr (map (fun i => real (w - mu + v / 2 * INR (chain_degree (Z.to_nat nx) i))) (seq 0 (Z.to_nat nx)))) false 1 = Ok s -> spins_stored nx g w t v mu s.
Proof.
  intros M. destruct (spins_init_ok ip _ _ _ _ _ _ _ _ s M) as (SG & S2 & SX & SY & SZ & HX & HY & (_ & HZ)).
  split; [exact SG|]. split; [exact S2|]. split; [exact SX|]. split; [exact SY|]. split; [exact SZ|]. split; [exact HX|]. split; [exact HY|].
  intros i Hi. rewrite HZ. rewrite (nth_indep _ c0 ((fun i => real (w - mu + v / 2 * INR (chain_degree (Z.to_nat nx) i))) 0%nat)) by (rewrite map_length, seq_length; exact Hi).
  rewrite (map_nth (fun i => real (w - mu + v / 2 * INR (chain_degree (Z.to_nat nx) i)))), seq_nth by exact Hi. reflexivity.
Qed.
(** ... or one number. *)
Lemma stored_uniform nx g (j h : R) ip (s : spins CR) : spins_init ip (sgeom_of g) (JNum (real j)) (JNum (real j)) (JNum c0) (HNum c0) (HNum c0) (HNum (real h)) false 1 = Ok s ->
  spins_stored nx g h (- j) 0 0 s.
Proof.
  intros M. destruct (spins_init_ok ip _ _ _ _ _ _ _ _ s M) as (SG & S2 & SX & SY & SZ & HX & HY & HZ).
  assert (E1 : - - j = j) by ring. assert (E2 : real (0 / 2) = c0) by (apply injective_projections; cbn; field).
  split; [exact SG|]. split; [exact S2|]. rewrite E1, E2. split; [exact SX|]. split; [exact SY|]. split; [exact SZ|]. split; [exact HX|]. split; [exact HY|].
  intros i Hi. rewrite HZ. f_equal. field.
Qed.
Theorem open_chain nx g w t v mu ip : (1 <= nx)%Z -> (2 * nx <= 100000000000000)%Z -> c_square_geometry nx 1 0 0 true true = Ok g ->
  forall f, fermions_init (fgeom_of g) (number 0) (numbers 1 (fun _ => t)) None (numbers 1 (fun _ => mu)) (number w) (numbers 1 (fun _ => v)) 1 = Ok f ->
  exists s : spins CR, spins_init ip (sgeom_of g) (JNum (real (- t))) (JNum (real (- t))) (JNum (real (v / 2))) (HNum c0) (HNum c0)
    (HArr (map (fun i => real (w - mu + v / 2 * INR (chain_degree (Z.to_nat nx) i))) (seq 0 (Z.to_nat nx)))) false 1 = Ok s /\
    same_chain s f /\ chain_offset s = real (- (INR (Z.to_nat nx) * (w - mu) + (INR (Z.to_nat nx) - 1) * (v / 2)) / 2).
Proof.
  intros X1 X2 LG f MF. destruct (open_made nx g w t v mu ip X1 X2 LG) as (s & MS). exists s. split; [exact MS|].
  pose proof (stored_fields nx g w t v mu ip s MS) as ST. split.
  - apply (open_same nx g w t v mu f s X1 X2 LG MF ST).
  - apply (open_offset nx g w t v mu s X1 X2 LG ST).
Qed.
