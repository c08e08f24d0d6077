(** Periodic lattices without interactions at zero temperature and the formulas for
    the Fermi gas: proofs. *)
From Coq Require Import List Arith Lia Reals Lra ZArith QArith Bool Permutation.
From Verif Require Import Scalars Res Sums Matrix ModelBase ModelFermions ModelGeometry ModelPhase ModelSymmetry SymBase GeoSquare GeoApi SpecGeometry
  ModelThermal SpecThermal ThermalBase ThermalBasis ThermalResponse
  SpecFermiGas ModelFermiGas FermiBase FermiGrid FermiModes FermiGas FermiGreen FermiCorr SpecFree ModelFreeLattice SpecFreeLattice PlaneWaves FreeThermal FreeLattice SpecZero FreeZero.
From Verif Require FreeExist ThermalDiag HamProofs FermiOps FreeSpectrum.
Import ListNotations.
Local Open Scope R_scope.

Lemma fermi_limit t m x : 0 < t -> x <> m -> tends_at_0 (fun T => fermi (Beta (t / T)) m x) (fermi BetaInf m x).
Proof.
  intros Ht Ne. pose proof (weight_limit (t * (x - m))) as W.
  replace (fermi BetaInf m x) with (step_weight (t * (x - m))).
  - apply (tends_ext (fun T => fermi_weight T (t * (x - m)))); [|exact W]. intros T HT. rewrite fermi_occupation. unfold fermi_weight, occupation.
    replace (- (1 / T) * (t * (x - m) - 0)) with (- (t / T) * (x - m)) by (field; lra). reflexivity.
  - unfold step_weight, fermi, rle_b. destruct (Rlt_dec (t * (x - m)) 0) as [A|A], (Rle_dec (x - m) 0) as [B|B]; try reflexivity.
    + exfalso. nra.
    + destruct (Req_EM_T (t * (x - m)) 0) as [C|C]; [exfalso; apply Rmult_integral in C; lra|]. exfalso. nra.
    + destruct (Req_EM_T (t * (x - m)) 0) as [C|C]; [exfalso; apply Rmult_integral in C; lra|]. reflexivity.
Qed.
Lemma ctends_ext F G z : (forall T, 0 < T -> F T = G T) -> ctends F z -> ctends G z.
Proof. intros X (A & B). split; [apply (tends_ext (fun T => fst (F T))) | apply (tends_ext (fun T => snd (F T)))]; try assumption; intros T HT; rewrite X by exact HT; reflexivity. Qed.
Lemma ctends_unique F y z : ctends F y -> ctends F z -> y = z.
Proof. intros (A & B) (C & D). apply injective_projections; [apply (tends_unique _ _ _ A C) | apply (tends_unique _ _ _ B D)]. Qed.
Lemma ctends_mul c F z : ctends F z -> ctends (fun T => c *c F T) (c *c z).
Proof.
  intros (A & B). split.
  - apply (tends_minus (fun T => fst c * fst (F T)) (fun T => snd c * snd (F T))); apply tends_mul; assumption || apply tends_const.
  - apply (tends_plus (fun T => fst c * snd (F T)) (fun T => snd c * fst (F T))); apply tends_mul; assumption || apply tends_const.
Qed.
Lemma ctends_klsum {A} (l : list A) (F : R -> A -> CR) (G : A -> CR) : (forall a, In a l -> ctends (fun T => F T a) (G a)) -> ctends (fun T => klsum l (F T)) (klsum l G).
Proof.
  induction l as [|a l IH]; intros HF; [split; apply (tends_const 0)|]. destruct (IH ltac:(intros; apply HF; right; assumption)) as (I1 & I2). destruct (HF a ltac:(left; reflexivity)) as (J1 & J2).
  split; [apply (tends_plus (fun T => fst (F T a)) (fun T => fst (klsum l (F T)))) | apply (tends_plus (fun T => snd (F T a)) (fun T => snd (klsum l (F T))))]; assumption.
Qed.

Section Lattice.
  Variables (s : shape) (n : nat).
  Notation c := (depth s n).
  Variables (g : geometry CR) (t : R) (m : nat) (mu : nat -> R) (f : fermions CR).
  Hypothesis size : (3 <= n)%nat.
  Hypothesis small : (2 * Z.of_nat n <= 100000000000000)%Z.
  Hypothesis lattice : c_square_geometry (Z.of_nat n) (Z.of_nat c) 0 0 false (flat_shape s) = Ok g.
  Hypothesis made : fermions_init (fgeom_of g) (number 0) (number t) None (numbers m mu) (number 0) (number 0) m = Ok f.
  Variables (H V : mat CR) (E : list R).
  Hypothesis ham : createH f None = Ok H.
  Hypothesis basis : eigenbasis H V E.
  Hypothesis SE : sorted_list E.
  Hypothesis AE : apart gap13 E.
  Hypothesis t0 : 0 < t.
  Hypothesis good : good_size s n.
  Notation closed k := (forall p, In p (modes s n) -> level_of s n p <> mu k / t).
  Notation G k := (filled_zero (waves s n) (band s n t (mu k))).

  Lemma gval_zero k i j : closed k -> (i < n * c)%nat -> (j < n * c)%nat ->
    gval s n BetaInf (mu k / t) (displacement s n i j) 0 Lesser = c_i *c G k i j.
  Proof using size t0.
    intros CL Hi Hj. apply (ctends_unique (fun T => gval s n (Beta (t / T)) (mu k / t) (displacement s n i j) 0 Lesser)).
    - rewrite lesser_ftr. apply (ctends_ext (fun T => c_i *c (real (1 / INR (length (modes s n))) *c ftr s n (fun p => fermi (Beta (t / T)) (mu k / t) (level_of s n p)) (displacement s n i j)))).
      { intros T HT. rewrite lesser_ftr. reflexivity. }
      do 2 apply ctends_mul. unfold ftr. apply ctends_klsum. intros p Hp. apply ctends_mul.
      apply (ctends_ext (fun T => real (fermi (Beta (t / T)) (mu k / t) (level_of s n p)) *c c1)); [intros; ring|].
      replace (real (fermi BetaInf (mu k / t) (level_of s n p))) with (real (fermi BetaInf (mu k / t) (level_of s n p)) *c c1) by ring.
      apply (ctends_scale (fun T => fermi (Beta (t / T)) (mu k / t) (level_of s n p))). apply fermi_limit; [exact t0 | apply CL, Hp].
    - apply (ctends_ext (fun T => c_i *c filled T (waves s n) (band s n t (mu k)) i j)).
      + intros T HT. symmetry. apply G_gval; try assumption; lra.
      + apply ctends_mul, filled_limit.
  Qed.
  Lemma density_val k i : closed k -> (i < n * c)%nat -> fg_density BetaInf (mu k / t) n (dim_of s) = Ok (fst (G k i i)) /\ G k i i = real (fst (G k i i)) /\ 0 <= fst (G k i i).
  Proof using size t0 good.
    intros CL Hi. pose proof (gval_zero k i i CL Hi Hi) as X. rewrite displacement_0 in X. rewrite density_eq by exact good.
    assert (Y : gval s n BetaInf (mu k / t) (0, 0)%Z 0 Lesser = c_i *c real (mean (fun p => fermi BetaInf (mu k / t) (level_of s n p)) (modes s n))).
    { unfold gval. rewrite (c_mean_ext _ (fun p => c_i *c real (fermi BetaInf (mu k / t) (level_of s n p)))). 2:{ intros p _. rewrite plane_0. unfold kval. rewrite lesser_k. ring. }
      rewrite c_mean_scale, c_mean_real. reflexivity. }
    rewrite Y in X. set (M := mean _ _) in *.
    assert (Q : G k i i = real M).
    { apply (f_equal (fun z => conj c_i *c z)) in X. unfold c_i, real in *. destruct (G k i i) as [a b]. injection X as X1 X2. cbn in X1, X2. apply injective_projections; cbn; lra. }
    rewrite Q. cbn [fst real]. split; [reflexivity|]. split; [reflexivity|]. apply mean_ge0; [lia|]. intros p. apply fermi_ge0.
  Qed.
  Theorem density_closed k i A : closed k -> (k < m)%nat -> (i < n * c)%nat -> single_site_op (f_sys f) i k n_op Boson = Ok A ->
    exp_vals_thermal V A E 0 = fg_density BetaInf (mu k / t) n (dim_of s).
  Proof using All.
    intros CL Hk Hi EA. rewrite (proj1 (density_val k i CL Hi)).
    apply (density_zero f (free_f g t m mu f made) H V E ham basis SE AE k _ _ ltac:(rewrite (nsp g t m mu f made); exact Hk) (waves_ok s n g t m mu f size small lattice made k Hk) i A); [|exact EA].
    apply (site_f s n g t m mu f size small lattice made i), Hi.
  Qed.
  Lemma site_in i : (i < n * c)%nat -> (i < fg_nsites (f_geom f))%nat.
  Proof using size small lattice made. intros Hi. apply (site_f s n g t m mu f size small lattice made i), Hi. Qed.
  Theorem corr_closed k i j A x : closed k -> (k < m)%nat -> (i < n * c)%nat -> (j < n * c)%nat -> two_site_op (f_sys f) i k j k n_op n_op Boson = Ok A ->
    exp_vals_thermal V A E 0 = Ok x -> exists d cc, fg_density BetaInf (mu k / t) n (dim_of s) = Ok d /\
      fg_corr BetaInf (mu k / t) (displacement s n i j) n (dim_of s) = Ok cc /\ x = d * d + cc.
  Proof using All.
    intros CL Hk Hi Hj EA EX.
    rewrite (pair_zero f (free_f g t m mu f made) H V E ham basis SE AE k _ _ ltac:(rewrite (nsp g t m mu f made); exact Hk) (waves_ok s n g t m mu f size small lattice made k Hk) i j A (site_in i Hi) (site_in j Hj) EA) in EX.
    injection EX as <-. destruct (density_val k i CL Hi) as (Di & Ri & Pi). destruct (density_val k j CL Hj) as (Dj & _). rewrite Di in Dj. injection Dj as Dj.
    exists (fst (G k i i)). eexists. split; [exact Di|]. split; [apply corr_eq; exact good|].
    unfold cval. rewrite gval_zero by assumption. rewrite <- Dj.
    assert (NG : nsq (c_i *c G k i j) = abs2 (G k i j)) by (rewrite nsq_mul; replace (nsq c_i) with 1 by (unfold nsq, c_i; cbn; ring); unfold nsq, abs2; ring).
    rewrite NG. destruct (Nat.eqb_spec i j) as [<-|Ne].
    - rewrite displacement_0. assert (MI : modulus (c_i *c G k i i) = fst (G k i i)) by (rewrite Ri at 1; apply modulus_i, Pi). rewrite MI.
      change (no_shift (0, 0)%Z) with 1. ring.
    - assert (NZ : no_shift (displacement s n i j) = 0).
      { rewrite place_displacement. unfold no_shift. cbn [fst snd].
        destruct (Z.eqb_spec (fst (place s n j) - fst (place s n i)) 0) as [A1|]; [|reflexivity].
        destruct (Z.eqb_spec (snd (place s n j) - snd (place s n i)) 0) as [A2|]; [|reflexivity].
        exfalso. apply Ne, (place_inj s n size). apply injective_projections; lia. }
      rewrite NZ. ring.
  Qed.
  Theorem bond_closed k i j A x : closed k -> (k < m)%nat -> (i < n * c)%nat -> (j < n * c)%nat -> two_site_op (f_sys f) i k j k cdag_op c_op Fermion = Ok A ->
    exp_vals_thermal V A E 0 = Ok x -> exists z, realspace_gfn BetaInf (mu k / t) (displacement s n i j) 0 n (dim_of s) Lesser = Ok z /\ x = snd z.
  Proof using All.
    intros CL Hk Hi Hj EA EX.
    rewrite (bond_zero f (free_f g t m mu f made) H V E ham basis SE AE k _ _ ltac:(rewrite (nsp g t m mu f made); exact Hk) (waves_ok s n g t m mu f size small lattice made k Hk) i j k A (site_in i Hi) (site_in j Hj) ltac:(rewrite (nsp g t m mu f made); exact Hk) EA) in EX.
    rewrite Nat.eqb_refl in EX. injection EX as <-.
    eexists. split; [apply gval_ok; [exact good | discriminate]|]. rewrite gval_zero by assumption. cbn. ring.
  Qed.
  Theorem doubles_closed i A : closed 0%nat -> closed 1%nat -> m = 2%nat -> (i < n * c)%nat -> two_site_op (f_sys f) i 0 i 1 n_op n_op Boson = Ok A ->
    exp_vals_thermal V A E 0 = fg_doubles BetaInf (mu 0%nat / t) (mu 1%nat / t) n (dim_of s).
  Proof using All.
    intros C0 C1 Hm Hi EA.
    rewrite (species_zero f (free_f g t m mu f made) H V E ham basis SE AE (fun _ => waves s n) (fun k => band s n t (mu k))
      ltac:(intros k Hk; apply (waves_ok s n g t m mu f size small lattice made); rewrite (nsp g t m mu f made) in Hk; exact Hk) 0 1 i i A ltac:(rewrite (nsp g t m mu f made); lia) ltac:(rewrite (nsp g t m mu f made); lia) ltac:(lia) (site_in i Hi) (site_in i Hi) EA).
    unfold fg_doubles. rewrite (proj1 (density_val 0 i C0 Hi)), (proj1 (density_val 1 i C1 Hi)). reflexivity.
  Qed.
End Lattice.

(** Every eigenbasis can be sorted. *)
Lemma sort_basis H V E : eigenbasis H V E -> exists V' E', eigenbasis H V' E' /\ sorted_list E' /\ Permutation E' E.
Proof.
  intros B. destruct (ThermalDiag.diagH_dense (fun _ => (E, V)) (fun _ _ => (E, V)) H 0%nat B) as (S & B' & P & _). eexists. eexists. split; [exact B'|]. split; assumption.
Qed.

(** ** Four sites with a level at the chemical potential *)
Lemma four_level a : (a < 4)%nat -> level_of Chain 4 (a, 0%nat) = nth a [-2; 0; 2; 0] 0.
Proof.
  intros Ha. unfold level_of, momentum. cbn [fst].
  destruct a as [|[|[|[|a]]]]; [| | | |lia]; cbn [nth].
  - replace (2 * PI * INR 0 / INR 4) with 0 by (cbn; field). rewrite cos_0. ring.
  - replace (2 * PI * INR 1 / INR 4) with (PI / 2) by (cbn; field). rewrite cos_PI2. ring.
  - replace (2 * PI * INR 2 / INR 4) with PI by (cbn; field). rewrite cos_PI. ring.
  - replace (2 * PI * INR 3 / INR 4) with (3 * (PI / 2)) by (cbn; field). rewrite cos_3PI2. ring.
Qed.
Lemma four_band : band Chain 4 1 (-2) = [0; 2; 4; 2].
Proof.
  unfold band. cbn [depth seq map Nat.mul Nat.add].
  change (spot Chain 4 0) with (0%nat, 0%nat). change (spot Chain 4 1) with (1%nat, 0%nat). change (spot Chain 4 2) with (2%nat, 0%nat). change (spot Chain 4 3) with (3%nat, 0%nat).
  rewrite !four_level by lia. cbn [nth]. repeat (f_equal; try ring).
Qed.
Lemma apart_even E : (forall x, In x E -> exists z, x = IZR z) -> apart gap13 E.
Proof.
  intros HZ x y Hx Hy. destruct (HZ x Hx) as (a & ->). destruct (HZ y Hy) as (b & ->). destruct (Z.eq_dec a b) as [->|Ne]; [left; reflexivity|]. right.
  rewrite <- minus_IZR, Rabs_Zabs. apply (Rlt_le_trans _ 1); [|apply (IZR_le 1); lia]. unfold gap13. lra.
Qed.
Lemma bottom_refuted : exists g f H V E A, c_square_geometry 4 1 0 0 false true = Ok g /\
  fermions_init (fgeom_of g) (number 0) (number 1) None (numbers 1 (fun _ => -2)) (number 0) (number 0) 1 = Ok f /\
  createH f None = Ok H /\ eigenbasis H V E /\ sorted_list E /\ apart gap13 E /\
  single_site_op (f_sys f) 0 0 n_op Boson = Ok A /\
  exp_vals_thermal V A E 0 = Ok (1 / 8) /\ fg_density BetaInf (-2) 4 (dim_of Chain) = Ok (1 / 4).
Proof.
  destruct (FreeExist.lattice_exists 4 1 false true 0 1 1 (fun _ => -2) ltac:(lia) ltac:(lia) ltac:(lia) ltac:(lia) ltac:(discriminate) ltac:(intros _; exact eq_refl) ltac:(right; reflexivity)) as (g & f & H & V0 & E0 & LG & MD & EH & EB0).
  destruct (sort_basis H V0 E0 EB0) as (V & E & EB & S & _).
  pose proof (free_f g 1 1 (fun _ => -2) f MD) as FR. pose proof (nsp g 1 1 (fun _ => -2) f MD) as SP.
  pose proof (waves_ok Chain 4 g 1 1 (fun _ => -2) f ltac:(lia) ltac:(cbn; lia) LG MD 0%nat ltac:(lia)) as WB. cbv beta in WB. rewrite four_band in WB.
  pose proof (sites_f Chain 4 g 1 1 (fun _ => -2) f ltac:(lia) ltac:(cbn; lia) LG MD) as NS. cbn [depth Nat.mul Nat.add] in NS.
  pose proof (FreeSpectrum.spectrum_ok f FR H V E EH EB (fun _ => waves Chain 4) (fun _ => [0; 2; 4; 2])) as P. rewrite SP in P.
  specialize (P ltac:(intros k Hk; replace k with 0%nat by lia; exact WB)). cbn [seq flat_map] in P.
  assert (AP : apart gap13 E).
  { apply apart_even. intros x Hx. apply (Permutation_in _ P) in Hx.
    assert (Q : forall l, (forall y, In y l -> exists z, y = IZR z) -> forall y, In y (subset_sums l) -> exists z, y = IZR z).
    { clear. induction l as [|a l IH]; intros HL y Hy; [destruct Hy as [<-|[]]; exists 0%Z; reflexivity|]. change (subset_sums (a :: l)) with (subset_sums l ++ map (Rplus a) (subset_sums l)) in Hy.
      apply in_app_or in Hy as [Hy|Hy]; [apply IH; [intros; apply HL; right; assumption | exact Hy]|].
      apply in_map_iff in Hy as (w & <- & Hw). destruct (IH ltac:(intros; apply HL; right; assumption) w Hw) as (z & ->). destruct (HL a ltac:(left; reflexivity)) as (z' & ->).
      exists (z' + z)%Z. rewrite plus_IZR. reflexivity. }
    apply (Q _) in Hx; [exact Hx|]. intros y Hy. cbn in Hy. destruct Hy as [<-|[<-|[<-|[<-|[]]]]]; [exists 0%Z | exists 2%Z | exists 4%Z | exists 2%Z]; reflexivity. }
  destruct (FermiOps.single_ok (f_sys f) 0 0 n_op Boson (HamProofs.f_two f) ltac:(discriminate) ltac:(change (0 < fg_nsites (f_geom f))%nat; lia) ltac:(change (0 < f_nspecies f)%nat; lia) (sq2 _ _ _ _)) as (A & EA & _).
  exists g, f, H, V, E, A. repeat (split; [assumption|]). split.
  - rewrite (density_zero f FR H V E EH EB S AP 0%nat _ _ ltac:(lia) WB 0%nat A ltac:(lia) EA). f_equal.
    unfold filled_zero. cbn [length].
    assert (W : forall a, (a < 4)%nat -> kconj (ent (waves Chain 4) 0 a) *c ent (waves Chain 4) 0 a = real (1 / 4)).
    { intros a Ha. unfold waves. cbn [ent depth Nat.mul Nat.add]. change (place Chain 4 0) with (0, 0)%Z. rewrite plane_0. 
      replace (kconj (real (/ sqrt (INR 4)) *c c1) *c (real (/ sqrt (INR 4)) *c c1)) with (real (/ sqrt (INR 4) * / sqrt (INR 4))) by (apply injective_projections; cbn; ring).
      rewrite <- Rinv_mult, sqrt_sqrt by (cbn; lra). f_equal. cbn. field. }
    rewrite (ksum_ext 4 _ (fun a => re (step_weight (nth a [0; 2; 4; 2] 0)) *c real (1 / 4))) by (intros a Ha; rewrite W by exact Ha; reflexivity).
    cbn [ksum nth]. unfold step_weight. destruct (Rlt_dec 0 0); [lra|]. destruct (Req_EM_T 0 0); [|lra]. destruct (Rlt_dec 2 0); [lra|]. destruct (Req_EM_T 2 0); [lra|]. destruct (Rlt_dec 4 0); [lra|]. destruct (Req_EM_T 4 0); [lra|]. cbn. field.
  - rewrite density_eq by (split; [lia | cbn; lra]). f_equal. unfold mean, modes. cbn [seq list_prod map app length total fold_right].
    rewrite !four_level by lia. cbn [nth]. unfold fermi, rle_b.
    destruct (Rle_dec (-2 - -2) 0); [|lra]. destruct (Rle_dec (0 - -2) 0); [lra|]. destruct (Rle_dec (2 - -2) 0); [lra|]. cbn. field.
Qed.
