(** Exact diagonalization of a periodic lattice without interactions and the
    formulas for the Fermi gas: proofs. *)
From Coq Require Import List Arith Lia Reals Lra ZArith QArith Qabs Qreals Bool.
From Verif Require Import Scalars Res Sums Matrix ModelBase ModelFermions ModelGeometry ModelPhase ModelSymmetry SymBase GeoSquare GeoApi SpecGeometry
  ModelThermal SpecThermal ThermalBase ThermalBasis
  SpecFermiGas ModelFermiGas FermiBase FermiGrid FermiModes FermiGas FermiGreen FermiCorr SpecFree ModelFreeLattice SpecFreeLattice PlaneWaves FreeThermal.
Import ListNotations.
Local Open Scope R_scope.

Lemma kre_real x : kre (real x) = real x.
Proof.
  unfold kre. apply injective_projections; cbn; [|ring]. rewrite !Ropp_0 || idtac. unfold Q2R. cbn. field.
Qed.

Section Lattice.
  Variables (s : shape) (n : nat).
  Notation c := (depth s n).
  Variables (g : geometry CR) (t : R) (m : nat) (mu : nat -> R) (f : fermions CR).
  Hypothesis size : (3 <= n)%nat.
  Hypothesis small : (2 * Z.of_nat n <= 100000000000000)%Z.
  Hypothesis lattice : c_square_geometry (Z.of_nat n) (Z.of_nat c) 0 0 false (flat_shape s) = Ok g.
  Hypothesis made : fermions_init (fgeom_of g) (number 0) (number t) None (numbers m mu) (number 0) (number 0) m = Ok f.

  Lemma c_le : (1 <= c <= n)%nat. Proof using size. clear - size. destruct s; cbn; lia. Qed.
  Lemma made_ok : f_geom f = fgeom_of g /\ f_nspecies f = m /\
    (forall i j k, f_ts f i j k = kre (real t *c (kb (fg_adj (fgeom_of g) i j) *c fg_phase (fgeom_of g) i j))) /\
    (forall i, f_us f i = c0) /\ (forall i j k, f_same f i j k = c0) /\
    (forall k, (k < m)%nat -> f_mus f k = real (mu k)) /\ (forall i k, f_pot f i k = c0).
  Proof using made.
    clear - made. unfold fermions_init in made.
    apply bind_ok in made as (ts & E1 & M1). apply bind_ok in M1 as (us & E2 & M2). apply bind_ok in M2 as (sm & E3 & M3).
    apply bind_ok in M3 as (ms & E4 & M4). apply bind_ok in M4 as (pt & E5 & M5). apply bind_ok in M5 as (pr & E6 & M6).
    injection M6 as <-. cbn [f_geom f_nspecies f_ts f_us f_same f_mus f_pot].
    unfold init_ts in E1. change (nd_size (number t)) with 1%nat in E1. rewrite orb_true_r in E1. unfold hopping_mat in E1.
    destruct (forallb _ (seq 0 m)) in E1; [|discriminate]. injection E1 as <-.
    cbn in E2. injection E2 as <-. cbn in E3. injection E3 as <-. cbn in E5. injection E5 as <-.
    repeat split; try reflexivity.
    - intros i j k. unfold samespecies_int_mat. cbn. apply injective_projections; cbn; ring.
    - intros k Hk. unfold init_mus in E4. unfold nd_size, numbers in E4; cbn [ModelFermions.shape fold_right] in E4.
      destruct (Nat.eqb_spec (m * 1) 1) as [X|X]; [injection E4 as <-; replace k with 0%nat by lia; reflexivity|].
      rewrite Nat.mul_1_r, Nat.eqb_refl in E4. injection E4 as <-. reflexivity.
  Qed.

  Lemma g_sites : g_n g = (n * c)%nat.
  Proof using lattice size small.
    pose proof c_le. destruct (square_neighbours phase_matrix valid_phases (Z.of_nat n) (Z.of_nat c) 0 0 false (flat_shape s) g ltac:(lia) ltac:(lia) ltac:(lia) ltac:(lia) lattice) as (G & _).
    rewrite G. lia.
  Qed.
  Lemma stepb_spec d : stepb n d = true <-> one_step false (Z.of_nat n) d.
  Proof using. unfold stepb, one_step. rewrite orb_true_iff, !Z.eqb_eq. reflexivity. Qed.
  Lemma adj_next i j : (i < n * c)%nat -> (j < n * c)%nat ->
    fg_adj (fgeom_of g) i j = nextb s n (place s n i) (place s n j) /\
    (fg_adj (fgeom_of g) i j = true -> Qabs (fg_xdist (fgeom_of g) i j) + Qabs (fg_ydist (fgeom_of g) i j) == 1)%Q.
  Proof using lattice size small.
    intros Hi Hj. pose proof c_le as CL. rewrite <- g_sites in Hi, Hj.
    destruct (square_neighbours phase_matrix valid_phases (Z.of_nat n) (Z.of_nat c) 0 0 false (flat_shape s) g ltac:(lia) ltac:(lia) ltac:(lia) ltac:(lia) lattice)
      as (_ & _ & _ & _ & _ & _ & NB).
    destruct (NB i j Hi Hj) as (B01 & _ & _ & ST).
    destruct (square_displacements phase_matrix valid_phases (Z.of_nat n) (Z.of_nat c) 0 0 false (flat_shape s) g ltac:(lia) ltac:(lia) ltac:(lia) ltac:(lia) lattice i j Hi Hj)
      as (a & b & X & Y & _ & _ & _ & _ & AE).
    cbn [fgeom_of fg_adj fg_xdist fg_ydist].
    split.
    - pose proof (site_place s n i) as Pi. pose proof (site_place s n j) as Pj. rewrite <- Pi, <- Pj.
      assert (BB : negb (Qeq_bool (ent (g_adj g) i j) 0) = true <-> ent (g_adj g) i j = 1%Q).
      { destruct B01 as [-> | ->]; cbn; split; intros; try reflexivity; discriminate. }
      apply Bool.eq_true_iff_eq. rewrite BB, ST. unfold nextb. destruct s; cbn [depth flat_shape fst snd] in *.
      + rewrite stepb_spec. change (Z.of_nat 1) with 1%Z. unfold site_y. rewrite !Z.mod_1_r. cbn. split; [intros [[? _]|[_ [?|?]]]; [assumption|discriminate|discriminate] | intros; left; split; [assumption|reflexivity]].
      + rewrite orb_true_iff, !andb_true_iff, !stepb_spec, !Z.eqb_eq. reflexivity.
    - intros A1. rewrite X, Y. rewrite AE in A1. destruct (Z.eqb_spec (a * a + b * b) 1) as [E|E]; [|discriminate].
      assert (A2 : (a = -1 \/ a = 0 \/ a = 1)%Z) by nia. assert (B2 : (b = -1 \/ b = 0 \/ b = 1)%Z) by nia.
      destruct A2 as [-> | [-> | ->] ], B2 as [-> | [-> | ->] ]; try discriminate E; reflexivity.
  Qed.

  Lemma matrix_ok k : (k < m)%nat -> forall i j, (i < n * c)%nat -> (j < n * c)%nat ->
    ent (particle_matrix f k) i j = (if (i =? j)%nat then real (- mu k) else c0) +c real (- t) *c kb (nextb s n (place s n i) (place s n j)).
  Proof using lattice made size small.
    intros Hk i j Hi Hj. destruct made_ok as (FG & FS & FT & _ & _ & FM & FP).
    assert (TE : forall i j, (i < n * c)%nat -> (j < n * c)%nat ->
      kmul (f_ts f i j k) (kQ (Qabs (fg_xdist (f_geom f) i j) + Qabs (fg_ydist (f_geom f) i j))) = real t *c kb (nextb s n (place s n i) (place s n j))).
    { clear i j Hi Hj. intros i j Hi Hj. destruct (adj_next i j Hi Hj) as [A B]. rewrite FT, FG.
      assert (PH : fg_phase (fgeom_of g) i j = c1).
      { rewrite <- g_sites in Hi, Hj. cbn [fgeom_of fg_phase].
        pose proof lattice as LG. unfold c_square_geometry, square_geometry in LG.
        destruct (_ && _) in LG; [discriminate|]. destruct (_ && _) in LG; [discriminate|].
        pose proof c_le.
        destruct (phases_hermitian _ _ _ _ _ _ _ _ _ g LG (or_intror (px_long (Z.of_nat n) ltac:(lia))) (or_intror (py_long (Z.of_nat c) ltac:(lia)))) as (_ & _ & PP).
        destruct (PP i j Hi Hj) as (_ & _ & P1). apply P1; reflexivity. }
      rewrite PH, <- A. destruct (fg_adj (fgeom_of g) i j); cbn [kb].
      - specialize (B eq_refl). apply Qeq_eqR in B.
        replace (real t *c (c1 *c c1)) with (real t) by ring. rewrite kre_real. f_equal.
        change (real (Q2R (Qabs (fg_xdist (fgeom_of g) i j) + Qabs (fg_ydist (fgeom_of g) i j))) = c1). rewrite B.
        apply injective_projections; cbn; unfold Q2R; cbn; field.
      - replace (real t *c (c0 *c c1)) with (real 0) by (apply injective_projections; cbn; ring). rewrite kre_real. change (real 0) with c0. ring. }
    assert (NS : forall i j, (i < n * c)%nat -> (j < n * c)%nat -> nextb s n (place s n i) (place s n j) = nextb s n (place s n j) (place s n i)).
    { clear. intros i j _ _. assert (SS : forall d, stepb n (- d) = stepb n d).
      { intros d. apply Bool.eq_true_iff_eq. unfold stepb. rewrite !orb_true_iff, !Z.eqb_eq.
        assert (O : forall x, ((- x) mod Z.of_nat n = 0)%Z <-> (x mod Z.of_nat n = 0)%Z).
        { intros x. destruct (Nat.eq_dec n 0) as [->|]; [rewrite !Zmod_0_r; lia|]. rewrite !Z.mod_divide by lia. apply Z.divide_opp_r. }
        rewrite <- (O (- d - 1)%Z), <- (O (- d + 1)%Z). replace (- (- d - 1))%Z with (d + 1)%Z by lia. replace (- (- d + 1))%Z with (d - 1)%Z by lia. tauto. }
      assert (S2 : forall x y, stepb n (x - y) = stepb n (y - x)) by (intros; rewrite <- SS; f_equal; lia).
      unfold nextb. destruct (place s n i) as [a b], (place s n j) as [a' b']. destruct s; cbn [fst snd]; [apply S2|].
      rewrite (S2 a a'), (S2 b b'), (Z.eqb_sym a a'), (Z.eqb_sym b b'). reflexivity. }
    unfold particle_matrix, one_particle. cbn [ent].
    destruct (Nat.eqb_spec i j) as [->|Ne].
    - rewrite FP, FM by exact Hk.
      assert (nextb s n (place s n j) (place s n j) = false) as ->.
      { unfold nextb. rewrite !Z.sub_diag, (stepb_0 n size), andb_false_r. destruct s; reflexivity. }
      cbn [kb]. apply injective_projections; cbn; ring.
    - destruct (Nat.ltb_spec j i).
      + rewrite TE by assumption. apply injective_projections; cbn; ring.
      + rewrite TE by assumption. rewrite (NS j i) by assumption. apply injective_projections; cbn; ring.
  Qed.
  Lemma sites_f : fg_nsites (f_geom f) = (n * c)%nat.
  Proof using lattice made size small. destruct made_ok as (-> & _). apply g_sites. Qed.
  Lemma waves_ok k : (k < m)%nat -> eigenbasis (particle_matrix f k) (waves s n) (band s n t (mu k)).
  Proof using lattice made size small.
    intros Hk. apply waves_eigen; try lia; try apply sites_f. exact (matrix_ok k Hk).
  Qed.
  Lemma free_f : non_interacting f.
  Proof using made. destruct made_ok as (_ & _ & _ & A & B & _). split; auto. Qed.

  Lemma place_displacement i j : displacement s n i j = (fst (place s n j) - fst (place s n i), snd (place s n j) - snd (place s n i))%Z.
  Proof using. rewrite <- !site_place. reflexivity. Qed.
  Lemma filled_ok T k i j : T <> 0 -> t <> 0 -> (i < n * c)%nat -> (j < n * c)%nat ->
    filled T (waves s n) (band s n t (mu k)) i j =
    c_mean (fun p => plane s n (displacement s n i j) p *c real (occupation (t / T) (mu k / t) (level_of s n p))) (modes s n).
  Proof using size. intros. rewrite place_displacement. apply waves_filled; try assumption. lia. Qed.

  (** Comparison. *)
  Variables (H V : mat CR) (E : list R) (T : R).
  Hypothesis ham : createH f None = Ok H.
  Hypothesis basis : eigenbasis H V E.
  Hypothesis T0 : T <> 0.
  Hypothesis t0 : t <> 0.
  Hypothesis good : good_size s n.
  Notation G k := (filled T (waves s n) (band s n t (mu k))).

  Lemma site_f i : (i < n * c)%nat <-> (i < fg_nsites (f_geom f))%nat.
  Proof using lattice made size small. rewrite sites_f. reflexivity. Qed.
  Lemma nsp : f_nspecies f = m. Proof using made. apply made_ok. Qed.

  Lemma G_gval k i j : (i < n * c)%nat -> (j < n * c)%nat ->
    gval s n (Beta (t / T)) (mu k / t) (displacement s n i j) 0 Lesser = c_i *c G k i j.
  Proof using size T0 t0.
    intros Hi Hj. rewrite filled_ok by assumption. rewrite lesser_ftr. f_equal. unfold c_mean, ftr. f_equal.
    apply klsum_ext. intros p _. rewrite fermi_occupation. reflexivity.
  Qed.
  Lemma displacement_0 i : displacement s n i i = (0, 0)%Z.
  Proof using. unfold displacement. rewrite !Z.sub_diag. reflexivity. Qed.
  Lemma G_density k i : (i < n * c)%nat -> fg_density (Beta (t / T)) (mu k / t) n (dim_of s) = Ok (fst (G k i i)) /\ 0 < fst (G k i i).
  Proof using size T0 t0 good.
    intros Hi. destruct (density_ok s n (t / T) good) as (N & E1 & E2 & E3 & _).
    assert (X : fst (G k i i) = N (mu k / t)); [|rewrite X; split; [apply E1 | apply E3]].
    rewrite filled_ok, displacement_0, c_mean_pair by assumption. cbn [fst]. rewrite E2. unfold mean. f_equal. apply total_ext. intros p _.
    rewrite plane_0. cbn. ring.
  Qed.
  Lemma lattice_density k i A : (k < m)%nat -> (i < n * c)%nat -> single_site_op (f_sys f) i k n_op Boson = Ok A ->
    exp_vals_thermal V A E T = fg_density (Beta (t / T)) (mu k / t) n (dim_of s).
  Proof using All.
    intros Hk Hi EA. rewrite (proj1 (G_density k i Hi)). apply (density_avg f free_f H V E T ham basis T0 k _ _); try assumption.
    - rewrite nsp. exact Hk.
    - apply waves_ok. exact Hk.
    - apply site_f. exact Hi.
  Qed.
  Lemma place_inj i j : place s n i = place s n j -> i = j.
  Proof using size.
    pose proof c_le. unfold place, spot. cbn [fst snd]. intros X. injection X as X1 X2. apply Nat2Z.inj in X1, X2.
    rewrite (Nat.div_mod i c), (Nat.div_mod j c) by lia. congruence.
  Qed.
  Lemma lattice_corr k i j A x : (k < m)%nat -> (i < n * c)%nat -> (j < n * c)%nat -> two_site_op (f_sys f) i k j k n_op n_op Boson = Ok A ->
    exp_vals_thermal V A E T = Ok x -> exists d cc,
      fg_density (Beta (t / T)) (mu k / t) n (dim_of s) = Ok d /\
      fg_corr (Beta (t / T)) (mu k / t) (displacement s n i j) n (dim_of s) = Ok cc /\ x = d * d + cc.
  Proof using All.
    intros Hk Hi Hj EA EX.
    rewrite (pair_avg f free_f H V E T ham basis T0 k _ _ ltac:(rewrite nsp; exact Hk) (waves_ok k Hk) i j A (proj1 (site_f i) Hi) (proj1 (site_f j) Hj) EA) in EX.
    injection EX as <-. destruct (G_density k i Hi) as [Di Pi]. destruct (G_density k j Hj) as [Dj _]. rewrite Di in Dj. injection Dj as Dj.
    exists (fst (G k i i)). eexists. split; [exact Di|]. split; [apply corr_eq; exact good|].
    unfold cval. rewrite G_gval by assumption. rewrite <- Dj.
    assert (NG : nsq (c_i *c G k i j) = abs2 (G k i j)) by (rewrite nsq_mul; replace (nsq c_i) with 1 by (unfold nsq, c_i; cbn; ring); unfold nsq, abs2; ring).
    rewrite NG. destruct (Nat.eqb_spec i j) as [<-|Ne].
    - rewrite displacement_0. rewrite (filled_real T (waves s n)), modulus_i by (cbn; lra). cbn [fst real].
      change (no_shift (0, 0)%Z) with 1. ring.
    - assert (NZ : no_shift (displacement s n i j) = 0).
      { rewrite place_displacement. unfold no_shift. cbn [fst snd].
        destruct (Z.eqb_spec (fst (place s n j) - fst (place s n i)) 0) as [A1|]; [|reflexivity].
        destruct (Z.eqb_spec (snd (place s n j) - snd (place s n i)) 0) as [A2|]; [|reflexivity].
        exfalso. apply Ne, place_inj. apply injective_projections; lia. }
      rewrite NZ. ring.
  Qed.
  Lemma lattice_bond k i j A x : (k < m)%nat -> (i < n * c)%nat -> (j < n * c)%nat -> two_site_op (f_sys f) i k j k cdag_op c_op Fermion = Ok A ->
    exp_vals_thermal V A E T = Ok x -> exists z,
      realspace_gfn (Beta (t / T)) (mu k / t) (displacement s n i j) 0 n (dim_of s) Lesser = Ok z /\ x = snd z.
  Proof using All.
    intros Hk Hi Hj EA EX.
    rewrite (bond_avg f free_f H V E T ham basis T0 k _ _ ltac:(rewrite nsp; exact Hk) (waves_ok k Hk) i j k A (proj1 (site_f i) Hi) (proj1 (site_f j) Hj) ltac:(rewrite nsp; exact Hk) EA) in EX.
    rewrite Nat.eqb_refl in EX. injection EX as <-.
    eexists. split; [apply gval_ok; [exact good | discriminate]|]. rewrite G_gval by assumption. cbn. ring.
  Qed.
  Lemma lattice_doubles i A : m = 2%nat -> (i < n * c)%nat -> two_site_op (f_sys f) i 0 i 1 n_op n_op Boson = Ok A ->
    exp_vals_thermal V A E T = fg_doubles (Beta (t / T)) (mu 0%nat / t) (mu 1%nat / t) n (dim_of s).
  Proof using All.
    intros Hm Hi EA.
    rewrite (species_avg f free_f H V E T ham basis T0 (fun _ => waves s n) (fun k => band s n t (mu k))
      ltac:(intros k Hk; apply waves_ok; rewrite nsp in Hk; exact Hk) 0 1 i i A ltac:(rewrite nsp; lia) ltac:(rewrite nsp; lia) ltac:(lia) (proj1 (site_f i) Hi) (proj1 (site_f i) Hi) EA).
    unfold fg_doubles. rewrite (proj1 (G_density 0 i Hi)), (proj1 (G_density 1 i Hi)). reflexivity.
  Qed.
End Lattice.
