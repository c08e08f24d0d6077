(** Free particles on a rectangular lattice with open or closed sides, and open chains of spins: proofs. *)
From Coq Require Import List Arith Lia Reals Lra ZArith QArith Bool Permutation.
From Verif Require Import Scalars Res Matrix ModelBase ModelFermions ModelSpins ModelGeometry ModelPhase ModelSymmetry SymBase GeoSquare GeoApi SpecGeometry SpecMat
  SpecThermal ModelThermal SpecFermiGas SpecFree ModelFreeLattice SpecFreeLattice FreeThermal FreeSpectrum SpecRect SineBasis SpaceHubbard SpecJordan SpinJordanLattice ModelSpinLattice ThermalBase ThermalFacts SqMat FreeKms SpaceExist FermiOps SpecSpins SpinOps SpinApi Digits.
Import ListNotations.
Local Open Scope R_scope.

Section Rect.
  Variables (nx ny : nat) (o1 o2 : bool) (g : geometry CR) (w : R) (t mu : nat -> R) (m : nat) (f : fermions CR).
  Hypothesis X1 : (1 <= nx)%nat. Hypothesis Y1 : (1 <= ny)%nat.
  Hypothesis X2 : (2 * Z.of_nat nx <= 100000000000000)%Z. Hypothesis Y2 : (2 * Z.of_nat ny <= 100000000000000)%Z.
  Hypothesis LG : c_square_geometry (Z.of_nat nx) (Z.of_nat ny) 0 0 o1 o2 = Ok g.
  Hypothesis made : fermions_init (fgeom_of g) (number 0) (numbers m t) None (numbers m mu) (number w) (numbers m (fun _ => 0)) m = Ok f.

  Lemma sites_rect : fg_nsites (f_geom f) = (nx * ny)%nat.
  Proof using X1 Y1 X2 Y2 LG made.
    destruct (couplings g 0 w t (fun _ => 0) mu m f made) as (FG & _). rewrite FG. cbn [fgeom_of fg_nsites].
    rewrite (sites_n (Z.of_nat nx) (Z.of_nat ny) o1 o2 g ltac:(lia) ltac:(lia) X2 Y2 LG). rewrite Z2Nat.inj_mul, !Nat2Z.id by lia. reflexivity.
  Qed.
  Lemma adjacent i j : (i < nx * ny)%nat -> (j < nx * ny)%nat -> fg_adj (fgeom_of g) i j = rect_next o1 o2 nx ny i j.
  Proof using X1 Y1 X2 Y2 LG.
    clear made. intros Hi Hj.
    destruct (square_neighbours phase_matrix valid_phases (Z.of_nat nx) (Z.of_nat ny) 0 0 o1 o2 g ltac:(lia) ltac:(lia) X2 Y2 LG) as (G & _ & _ & _ & _ & _ & NB).
    assert (G' : g_n g = (nx * ny)%nat) by (rewrite G, Z2Nat.inj_mul, !Nat2Z.id by lia; reflexivity). rewrite G' in NB.
    assert (SX : forall k, site_x (Z.of_nat ny) k = Z.of_nat (k / ny)) by (intros; unfold site_x; rewrite Nat2Z.inj_div; reflexivity).
    assert (SY : forall k, site_y (Z.of_nat ny) k = Z.of_nat (k mod ny)) by (intros; unfold site_y; rewrite Nat2Z.inj_mod; reflexivity).
    assert (P0 : (0 < nx * ny)%nat) by lia.
    assert (O1 : nx = 1%nat -> o1 = true).
    { intros Z. destruct o1; [reflexivity|]. exfalso. destruct (NB 0%nat 0%nat P0 P0) as (_ & _ & D & A). rewrite D in A.
      assert (X : (0 = 1)%Q); [|discriminate X]. apply A. left. split; [|reflexivity]. cbn [one_step]. rewrite Z. left. apply Z.mod_1_r. }
    assert (O2 : ny = 1%nat -> o2 = true).
    { intros Z. destruct o2; [reflexivity|]. exfalso. destruct (NB 0%nat 0%nat P0 P0) as (_ & _ & D & A). rewrite D in A.
      assert (X : (0 = 1)%Q); [|discriminate X]. apply A. right. split; [reflexivity|]. cbn [one_step]. rewrite Z. left. apply Z.mod_1_r. }
    destruct (NB i j Hi Hj) as (B01 & _ & _ & ST). cbn [fgeom_of fg_adj].
    assert (BB : negb (Qeq_bool (ent (g_adj g) i j) 0) = true <-> ent (g_adj g) i j = 1%Q).
    { destruct B01 as [-> | ->]; cbn; split; intros; try reflexivity; discriminate. }
    apply Bool.eq_true_iff_eq. rewrite BB, ST, !SX, !SY. unfold rect_next. rewrite orb_true_iff, !andb_true_iff, !Nat.eqb_eq.
    rewrite (side_step o1 nx), (side_step o2 ny); try assumption; try (apply Nat.mod_upper_bound; lia); try (apply Nat.div_lt_upper_bound; lia).
    rewrite !Nat2Z.inj_iff. reflexivity.
  Qed.
  Lemma rect_sym i j : rect_next o1 o2 nx ny i j = rect_next o1 o2 nx ny j i.
  Proof using.
    clear. unfold rect_next. rewrite (side_next_sym o1 nx (i / ny)), (side_next_sym o2 ny (i mod ny)), (Nat.eqb_sym (i / ny)), (Nat.eqb_sym (i mod ny)). reflexivity.
  Qed.
  Lemma rect_irr i : rect_next o1 o2 nx ny i i = false.
  Proof using. clear. unfold rect_next. rewrite !side_next_irr, andb_false_r. reflexivity. Qed.

  (** Standing and running waves are the levels of one particle. *)
  Theorem rect_particle k : (k < m)%nat -> eigenbasis (particle_matrix f k) (rect_waves o1 o2 nx ny) (rect_levels o1 o2 nx ny (t k) (w - mu k)).
  Proof using X1 Y1 X2 Y2 LG made.
    intros Hk. destruct (couplings g 0 w t (fun _ => 0) mu m f made) as (FG & FS & FT & FU & FV & FM & FP).
    apply rect_basis; try assumption.
    { unfold particle_matrix, one_particle. split; cbn [nrow ncol]; apply sites_rect. }
    intros i j Hi Hj. unfold particle_matrix, one_particle. cbn [ent].
    assert (HZ : forall x, (x < nx * ny)%nat -> (x < Z.to_nat (Z.of_nat nx * Z.of_nat ny))%nat) by (intros; rewrite Z2Nat.inj_mul, !Nat2Z.id by lia; assumption).
    assert (HOP : forall i j, (i < nx * ny)%nat -> (j < nx * ny)%nat -> kmul (f_ts f i j k) (kQ (Qabs.Qabs (fg_xdist (f_geom f) i j) + Qabs.Qabs (fg_ydist (f_geom f) i j))) = real (t k) *c kb (rect_next o1 o2 nx ny i j)).
    { clear i j Hi Hj. intros i j Hi Hj. rewrite <- adjacent by assumption.
      apply (hopping (Z.of_nat nx) (Z.of_nat ny) o1 o2 g 0 w t (fun _ => 0) mu m f ltac:(lia) ltac:(lia) X2 Y2 LG made i j k); auto. }
    destruct (Nat.eqb_spec i j) as [->|Ne].
    - rewrite FP, FM by exact Hk. rewrite rect_irr. cbn [kb]. apply injective_projections; cbn; ring.
    - destruct (Nat.ltb_spec j i).
      + rewrite HOP by assumption. apply injective_projections; cbn; ring.
      + rewrite HOP by assumption. rewrite (rect_sym j i). apply injective_projections; cbn; ring.
  Qed.
  Lemma rect_free : non_interacting f.
  Proof using made.
    destruct (couplings g 0 w t (fun _ => 0) mu m f made) as (FG & FS & FT & FU & FV & FM & FP). split; [intros; apply FU|]. intros i j k _ _ Hk.
    rewrite FV by (rewrite <- FS; exact Hk). replace (real 0 *c kb (fg_adj (fgeom_of g) i j)) with (real 0) by (apply injective_projections; cbn; ring). apply kre_re.
  Qed.
  Variables (H V : mat CR) (E : list R).
  Hypothesis ham : createH f None = Ok H.
  Hypothesis basis : eigenbasis H V E.
  Lemma species : f_nspecies f = m. Proof using made. apply (couplings g 0 w t (fun _ => 0) mu m f made). Qed.
  Notation U := (rect_waves o1 o2 nx ny).
  Notation e k := (rect_levels o1 o2 nx ny (t k) (w - mu k)).
  Theorem rect_spectrum : Permutation E (subset_sums (flat_map (fun k => e k) (seq 0 m))).
  Proof using All.
    rewrite <- species. apply (spectrum_ok f rect_free H V E ham basis (fun _ => U) (fun k => e k)). intros k Hk. rewrite species in Hk. apply rect_particle, Hk.
  Qed.
  Theorem rect_density k T i A : T <> 0 -> (k < m)%nat -> (i < nx * ny)%nat -> single_site_op (f_sys f) i k n_op Boson = Ok A ->
    exp_vals_thermal V A E T = Ok (fst (filled T U (e k) i i)).
  Proof using All.
    intros T0 Hk Hi EA. apply (density_avg f rect_free H V E T ham basis T0 k U (e k)); try (rewrite species; exact Hk); try (apply rect_particle; exact Hk); try assumption. rewrite sites_rect. exact Hi.
  Qed.
  Theorem rect_bond k T i j A : T <> 0 -> (k < m)%nat -> (i < nx * ny)%nat -> (j < nx * ny)%nat -> two_site_op (f_sys f) i k j k cdag_op c_op Fermion = Ok A ->
    exp_vals_thermal V A E T = Ok (fst (filled T U (e k) i j)).
  Proof using All.
    intros T0 Hk Hi Hj EA. rewrite (bond_avg f rect_free H V E T ham basis T0 k U (e k) ltac:(rewrite species; exact Hk) (rect_particle k Hk) i j k A); try (rewrite sites_rect; assumption); try (rewrite species; assumption); try assumption.
    rewrite Nat.eqb_refl. reflexivity.
  Qed.
  Theorem rect_pair k T i j A : T <> 0 -> (k < m)%nat -> (i < nx * ny)%nat -> (j < nx * ny)%nat -> two_site_op (f_sys f) i k j k n_op n_op Boson = Ok A ->
    exp_vals_thermal V A E T = Ok (fst (filled T U (e k) i i) * fst (filled T U (e k) j j) +
      (if (i =? j)%nat then fst (filled T U (e k) i i) else 0) - abs2 (filled T U (e k) i j)).
  Proof using All.
    intros T0 Hk Hi Hj EA. apply (pair_avg f rect_free H V E T ham basis T0 k U (e k)); try (rewrite species; exact Hk); try (apply rect_particle; exact Hk); try (rewrite sites_rect; assumption); assumption.
  Qed.
End Rect.

(** Averages of combinations of observables. *)
Lemma average_combine H V E T O1 O2 O3 O' (a b1 b2 b3 x1 x2 x3 : R) : eigenbasis H V E -> (0 < nrow V)%nat -> T <> 0 ->
  square (nrow V) O1 -> square (nrow V) O2 -> square (nrow V) O3 -> square (nrow V) O' ->
  (forall i j, (i < nrow V)%nat -> (j < nrow V)%nat -> ent O' i j = real a *c kb (i =? j)%nat +c (real b1 *c ent O1 i j +c (real b2 *c ent O2 i j +c real b3 *c ent O3 i j))) ->
  exp_vals_thermal V O1 E T = Ok x1 -> exp_vals_thermal V O2 E T = Ok x2 -> exp_vals_thermal V O3 E T = Ok x3 ->
  exp_vals_thermal V O' E T = Ok (a + b1 * x1 + b2 * x2 + b3 * x3).
Proof.
  intros B P T0 (A1 & A2) (B1 & B2) (C1 & C2) (D1 & D2) HE. pose proof (FreeWick.basis_not_empty V E H B P) as NE.
  rewrite !thermal_finite; try exact T0; try (repeat split; try congruence; apply B). intros Q1 Q2 Q3. injection Q1 as <-. injection Q2 as <-. injection Q3 as <-. f_equal.
  rewrite <- !(boltzmann_omega (nrow V) V E T eq_refl) by assumption.
  erewrite (omega_ext (nrow V) V E T (ent O') (sadd (sscale (real a) s1) (sadd (sscale (real b1) (ent O1)) (sadd (sscale (real b2) (ent O2)) (sscale (real b3) (ent O3)))))).
  2: { intros i j Hi Hj. rewrite HE by assumption. unfold sadd, sscale, s1. reflexivity. }
  rewrite !omega_add, !omega_scale. erewrite omega_one by eassumption || reflexivity.
  assert (Z : 0 < Zp E T) by (apply Zp_pos; exact NE). cbn. field. lra.
Qed.

(** Diagonal operators on one and two sites. *)
Lemma site_like n i (A B : nat -> nat -> CR) a b : (forall r c, (r < 2)%nat -> (c < 2)%nat -> A r c = B r c) -> site_elem 2 n i A a b = site_elem 2 n i B a b.
Proof. intros Q. unfold site_elem. destruct (agree_off _ _ _ _ _); [|reflexivity]. apply Q; apply digit_lt; lia. Qed.
Lemma pair_like n i k (A B A' B' : nat -> nat -> CR) a b : (forall r c, (r < 2)%nat -> (c < 2)%nat -> A r c = A' r c) -> (forall r c, (r < 2)%nat -> (c < 2)%nat -> B r c = B' r c) ->
  pair_elem 2 n i k A B a b = pair_elem 2 n i k A' B' a b.
Proof. intros Q Q'. unfold pair_elem. destruct (agree_off _ _ _ _ _); [|reflexivity]. rewrite Q, Q' by (apply digit_lt; lia). reflexivity. Qed.
Lemma pair_diag n i k (v w : nat -> CR) a b : (i < n)%nat -> (k < n)%nat -> (a < 2 ^ n)%nat -> (b < 2 ^ n)%nat ->
  pair_elem 2 n i k (fun r c => kb (r =? c)%nat *c v r) (fun r c => kb (r =? c)%nat *c w r) a b = kb (a =? b)%nat *c (v (digit 2 n i a) *c w (digit 2 n k a)).
Proof.
  intros Hi Hk Ha Hb. unfold pair_elem. destruct (Nat.eqb_spec a b) as [->|Hne]; cbn [kb].
  - assert (E : agree_off 2 n [i; k] b b = true) by (apply agree_off_spec; reflexivity). rewrite E, !Nat.eqb_refl. cbn [kb]. ring.
  - destruct (agree_off 2 n [i; k] a b) eqn:E; [|ring].
    destruct (Nat.eqb_spec (digit 2 n i a) (digit 2 n i b)) as [Ed|Ed], (Nat.eqb_spec (digit 2 n k a) (digit 2 n k b)) as [Ek|Ek]; cbn [kb]; try ring.
    exfalso. apply Hne. apply (digits_ext 2 ltac:(lia) n); auto. intros p Hp.
    destruct (Nat.eq_dec p i) as [->|Hp']; [assumption|]. destruct (Nat.eq_dec p k) as [->|Hp'']; [assumption|].
    apply (proj1 (agree_off_spec _ _ _ _ _) E); auto. cbn. intros [Z|[Z|[]]]; congruence.
Qed.

(** The open chain of spins 1/2 coupled along x and y in a field along z. *)
Section XX.
  Variables (n : nat) (g : geometry CR) (j h : R) (ip : CR -> bool) (s : spins CR) (rt : nat -> CR) (Hs Vs : mat CR) (Es : list R).
  Hypothesis n1 : (1 <= n)%nat. Hypothesis n2 : (2 * Z.of_nat n <= 100000000000000)%Z.
  Hypothesis LG : c_square_geometry (Z.of_nat n) 1 0 0 true true = Ok g.
  Hypothesis made : spins_init ip (sgeom_of g) (JNum (real j)) (JNum (real j)) (JNum c0) (HNum c0) (HNum c0) (HNum (real h)) false 1 = Ok s.
  Hypothesis rt1 : rt 1%nat = c1.
  Hypothesis ham : sp_createH rt s None = Ok Hs.
  Hypothesis basis : eigenbasis Hs Vs Es.
  Notation angle a := (PI * INR (S a) / INR (S n)).
  Notation lev := (chain_level n j h).

  Lemma chain_levels : rect_levels true true n 1 (- j) h = map lev (seq 0 n).
  Proof using.
    clear. unfold rect_levels. rewrite Nat.mul_1_r. apply map_ext. intros a. rewrite Nat.div_1_r, Nat.mod_1_r. unfold side_level, ring_side. cbn [negb andb].
    replace (PI * INR 1 / INR 2) with (PI / 2) by (cbn; field). rewrite cos_PI2. unfold chain_level. ring.
  Qed.
  Lemma system : exists f, fermions_init (fgeom_of g) (number 0) (numbers 1 (fun _ => - j)) None (numbers 1 (fun _ => 0)) (number h) (numbers 1 (fun _ => 0)) 1 = Ok f /\
    same_chain s f /\ chain_offset s = real (- (INR n * h) / 2) /\ fg_nsites (f_geom f) = n.
  Proof using n1 n2 LG made.
    destruct (hubbard_exists (Z.of_nat n) 1 true true 0 h (fun _ => - j) (fun _ => 0) (fun _ => 0) 1 ltac:(lia) ltac:(lia) n2 ltac:(lia) (fun _ => eq_refl) (fun _ => eq_refl)) as (g' & f & LG' & MF).
    rewrite LG in LG'. injection LG' as <-. exists f. split; [exact MF|].
    pose proof (stored_uniform (Z.of_nat n) g j h ip s made) as ST.
    split; [|split].
    - apply (open_same (Z.of_nat n) g h (- j) 0 0 f s ltac:(lia) n2 LG MF ST).
    - rewrite (open_offset (Z.of_nat n) g h (- j) 0 0 s ltac:(lia) n2 LG ST). rewrite Nat2Z.id. f_equal. field.
    - rewrite (sites_rect n 1 true true g h (fun _ => - j) (fun _ => 0) 1 f n1 ltac:(lia) n2 ltac:(lia) LG MF). lia.
  Qed.
  Notation c := (- (INR n * h) / 2).
  Lemma partner f : same_chain s f -> chain_offset s = real c -> exists Hf, createH f None = Ok Hf /\ eigenbasis Hf Vs (map (fun e => e + (- c)) Es).
  Proof using rt1 ham basis.
    intros SC OFF. destruct (SpinJordan.chains_agree rt rt1 s f SC) as (A & Hf & EA & EF & SA & SF & V0). rewrite ham in EA. injection EA as <-.
    exists Hf. split; [exact EF|].
    assert (R : nrow Vs = (2 ^ fg_nsites (f_geom f))%nat). { destruct basis as ((_ & X & _) & _). rewrite <- X. apply SA. }
    apply (eigenbasis_shift Hs Hf Vs Es (- c) basis); rewrite R; [exact SF|]. intros a b Ha Hb. rewrite V0 by assumption. rewrite OFF.
    replace (real (- c)) with (kopp (real c)) by (apply injective_projections; cbn; ring). ring.
  Qed.
  Theorem xx_spectrum : Permutation Es (map (fun x => x - INR n * h / 2) (subset_sums (map lev (seq 0 n)))).
  Proof using All.
    destruct system as (f & MF & SC & OFF & NF). destruct (partner f SC OFF) as (Hf & HF & BF).
    pose proof (rect_spectrum n 1 true true g h (fun _ => - j) (fun _ => 0) 1 f n1 ltac:(lia) n2 ltac:(lia) LG MF Hf Vs _ HF BF) as P.
    cbn [seq flat_map] in P. rewrite app_nil_r in P. rewrite (Rminus_0_r h) in P. rewrite chain_levels in P.
    apply (Permutation_map (fun e => e + c)) in P. rewrite map_map in P. rewrite (map_ext _ (fun x => x)) in P by (intros; ring). rewrite map_id in P.
    rewrite P. rewrite (map_ext (fun e => e + c) (fun x => x - INR n * h / 2)) by (intros; field). reflexivity.
  Qed.
  Variable T : R.
  Hypothesis T0 : T <> 0.
  Notation xx_green := (chain_green n j h T).
  Lemma filled_green i k : filled T (rect_waves true true n 1) (rect_levels true true n 1 (- j) h) i k = real (xx_green i k).
  Proof using.
    clear made ham basis rt1 LG n1 n2. rewrite chain_levels. unfold filled. rewrite map_length, seq_length. unfold chain_green. rewrite <- (real_total n). apply ksum_ext. intros a Ha.
    rewrite (nth_indep _ 0 (lev 0%nat)) by (rewrite map_length, seq_length; exact Ha). rewrite (map_nth lev), seq_nth by exact Ha. cbn [Nat.add].
    unfold rect_waves. cbn [ent]. rewrite !Nat.div_1_r, !Nat.mod_1_r. unfold side_wave, ring_side. cbn [negb andb].
    assert (W1 : sqrt (2 / INR 2) * sin (INR 1 * (PI * INR 1 / INR 2)) = 1).
    { replace (INR 1 * (PI * INR 1 / INR 2)) with (PI / 2) by (cbn; field). replace (2 / INR 2) with 1 by (cbn; field). rewrite sqrt_1, sin_PI2. ring. }
    rewrite W1. assert (NP : 0 < INR (S n)) by (apply lt_0_INR; lia).
    assert (SQ : sqrt (2 / INR (S n)) * sqrt (2 / INR (S n)) = 2 / INR (S n)) by (apply sqrt_sqrt; left; apply Rdiv_lt_0_compat; lra).
    assert (L : forall f q s1 s2, re f *c (conj (re (q * s1) *c re 1) *c (re (q * s2) *c re 1)) = real (f * (q * q * (s1 * s2)))) by (intros; apply injective_projections; cbn; ring).
    rewrite L, SQ. reflexivity.
  Qed.
  Theorem xx_moment i A : (i < n)%nat -> single_site_op (sp_sys s) i 0 (sz_op 1) Boson = Ok A -> exp_vals_thermal Vs A Es T = Ok (1 / 2 - xx_green i i).
  Proof using All.
    intros Hi EA. destruct system as (f & MF & SC & OFF & NF). destruct (partner f SC OFF) as (Hf & HF & BF).
    destruct (single_ok (f_sys f) i 0 n_op Boson (HamProofs.f_two f) ltac:(discriminate) ltac:(change (i < fg_nsites (f_geom f))%nat; lia) ltac:(change (0 < f_nspecies f)%nat; destruct SC as (_ & _ & -> & _); lia) ltac:(split; reflexivity)) as (B & EB & _).
    pose proof (rect_density n 1 true true g h (fun _ => - j) (fun _ => 0) 1 f n1 ltac:(lia) n2 ltac:(lia) LG MF Hf Vs _ HF BF 0%nat T i B T0 ltac:(lia) ltac:(lia) EB) as D.
    cbv beta in D. rewrite (Rminus_0_r h), filled_green in D. cbn [fst real] in D.
    apply (chain_moment rt s f Hs Hf c rt1 SC ham HF OFF Vs _ Vs Es T i A B _ BF basis (or_introl T0) ltac:(lia) EA EB D).
  Qed.
  Theorem xx_correlation i k A : (i < n)%nat -> (k < n)%nat -> i <> k -> two_site_op (sp_sys s) i 0 k 0 (sz_op 1) (sz_op 1) Boson = Ok A ->
    exp_vals_thermal Vs A Es T = Ok ((1 / 2 - xx_green i i) * (1 / 2 - xx_green k k) - xx_green i k ^ 2).
  Proof using All.
    intros Hi Hk Ne EA. destruct system as (f & MF & SC & OFF & NF). destruct (partner f SC OFF) as (Hf & HF & BF).
    assert (YF : f_sys f = dsys 2 n). { destruct SC as (_ & _ & SP & _). unfold f_sys. rewrite SP, NF. reflexivity. }
    assert (YS : sp_sys s = dsys 2 n). { destruct SC as (NS & TW & _). unfold sp_sys. rewrite NS, TW, NF. reflexivity. }
    rewrite YS in EA.
    destruct (single_elem 2 ltac:(lia) n i n_op ltac:(split; reflexivity) Hi (or_introl eq_refl)) as (B1 & EB1 & SB1 & VB1).
    destruct (single_elem 2 ltac:(lia) n k n_op ltac:(split; reflexivity) Hk (or_introl eq_refl)) as (B2 & EB2 & SB2 & VB2).
    destruct (two_elem 2 ltac:(lia) n i k n_op n_op ltac:(split; reflexivity) ltac:(split; reflexivity) Hi Hk Ne) as (B3 & EB3 & SB3 & VB3).
    destruct (two_elem 2 ltac:(lia) n i k (sz_op 1) (sz_op 1) ltac:(split; reflexivity) ltac:(split; reflexivity) Hi Hk Ne) as (A' & EA' & SA & VA). rewrite EA in EA'. injection EA' as <-.
    rewrite <- YF in EB1, EB2, EB3.
    pose proof (rect_density n 1 true true g h (fun _ => - j) (fun _ => 0) 1 f n1 ltac:(lia) n2 ltac:(lia) LG MF Hf Vs _ HF BF 0%nat T i B1 T0 ltac:(lia) ltac:(lia) EB1) as D1.
    pose proof (rect_density n 1 true true g h (fun _ => - j) (fun _ => 0) 1 f n1 ltac:(lia) n2 ltac:(lia) LG MF Hf Vs _ HF BF 0%nat T k B2 T0 ltac:(lia) ltac:(lia) EB2) as D2.
    pose proof (rect_pair n 1 true true g h (fun _ => - j) (fun _ => 0) 1 f n1 ltac:(lia) n2 ltac:(lia) LG MF Hf Vs _ HF BF 0%nat T i k B3 T0 ltac:(lia) ltac:(lia) ltac:(lia) EB3) as D3.
    cbv beta in D1, D2, D3. rewrite (Rminus_0_r h) in D1, D2, D3. rewrite filled_green in D1. rewrite filled_green in D2. rewrite (filled_green i i), (filled_green k k), (filled_green i k) in D3. cbn [fst real] in D1, D2, D3. rewrite (proj2 (Nat.eqb_neq i k) Ne) in D3.
    assert (R : nrow Vs = (2 ^ n)%nat). { destruct BF as ((_ & X & _) & _). rewrite <- X. destruct (SpinJordan.chains_agree rt rt1 s f SC) as (? & Hf' & ? & HF' & ? & (X1 & _) & _). rewrite HF in HF'. injection HF' as <-. rewrite X1, NF. reflexivity. }
    rewrite (chain_averages rt s f Hs Hf c rt1 SC ham HF OFF Vs _ Vs Es A T BF basis ltac:(rewrite NF; exact SA) (or_introl T0)).
    assert (RES := average_combine Hf Vs (map (fun e => e + - c) Es) T B1 B2 B3 A (1 / 4) (- (1 / 2)) (- (1 / 2)) 1 (xx_green i i) (xx_green k k) (xx_green i i * xx_green k k + 0 - abs2 (real (xx_green i k))) BF ltac:(rewrite R; apply Nat.neq_0_lt_0, Nat.pow_nonzero; lia) T0
      ltac:(rewrite R; exact SB1) ltac:(rewrite R; exact SB2) ltac:(rewrite R; exact SB3) ltac:(rewrite R; exact SA)).
    erewrite RES; [| |exact D1|exact D2|exact D3].
    - f_equal. unfold abs2, real. cbn [fst snd]. field.
    - rewrite R. intros a b Ha Hb. rewrite VA, VB1, VB2, VB3 by assumption.
      assert (DZ : forall r c, (r < 2)%nat -> (c < 2)%nat -> ent (sz_op (K:=CR) 1) r c = kb (r =? c)%nat *c (if (r =? 0)%nat then real (1 / 2) else real (- (1 / 2)))).
      { intros r q Hr Hq. destruct r as [|[|r]]; [| |lia]; (destruct q as [|[|q]]; [| |lia]); apply injective_projections; cbn; unfold Q2R; cbn; field. }
      assert (DN : forall r c, (r < 2)%nat -> (c < 2)%nat -> ent (n_op (K:=CR)) r c = kb (r =? c)%nat *c (if (r =? 0)%nat then c0 else c1)).
      { intros r q Hr Hq. destruct r as [|[|r]]; [| |lia]; (destruct q as [|[|q]]; [| |lia]); apply injective_projections; cbn; ring. }
      rewrite (pair_like _ _ _ _ _ _ _ a b DZ DZ), (pair_like _ _ _ _ _ _ _ a b DN DN), !(site_like _ _ _ _ a b DN), !pair_diag, !site_diag by assumption.
      destruct (digit 2 n i a =? 0)%nat, (digit 2 n k a =? 0)%nat, (a =? b)%nat; apply injective_projections; cbn; field.
  Qed.
End XX.
