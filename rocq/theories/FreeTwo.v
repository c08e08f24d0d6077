(** A periodic chain of two sites: the two bonds between its sites count once in
    exact diagonalization and twice in the formulas for the Fermi gas. *)
From Coq Require Import List Arith Lia Reals Lra ZArith QArith Qabs Qreals Bool.
From Verif Require Import Scalars Res Sums Matrix ModelBase ModelFermions ModelGeometry ModelPhase ModelSymmetry SymBase GeoSquare GeoApi SpecGeometry
  ModelThermal SpecThermal ThermalBase ThermalBasis
  SpecFermiGas ModelFermiGas FermiBase FermiGrid FermiModes FermiGas FockProofs FermiOps SpecFree ModelFreeLattice SpecFreeLattice FreeLattice FreeThermal FreeExist.
Import ListNotations.
Local Open Scope R_scope.

Definition pair_waves : mat CR := Mat 2 2 (fun i a => real (if ((i =? 1) && (a =? 1))%nat then - / sqrt 2 else / sqrt 2)).
Lemma half : / sqrt 2 * / sqrt 2 = / 2.
Proof. rewrite <- Rinv_mult, sqrt_sqrt by lra. reflexivity. Qed.
Ltac two i := destruct i as [|[|i]]; [| | exfalso; lia].
Lemma pair_basis M : nrow M = 2%nat -> ncol M = 2%nat ->
  (forall i j, (i < 2)%nat -> (j < 2)%nat -> ent M i j = real (-1)) -> eigenbasis M pair_waves [-2; 0].
Proof.
  intros R1 R2 EM. pose proof half as HF. set (r := / sqrt 2) in *.
  split; [|split].
  - unfold eigen. cbn [nrow ncol pair_waves length]. repeat split; try assumption. intros i a Hi Ha. unfold apply. cbn [ksum].
    rewrite !EM by lia. two i; two a; unfold col; cbn [pair_waves ent Nat.eqb andb nth]; fold r; apply injective_projections; cbn; ring.
  - intros a b Ha Hb. cbn [nrow ncol pair_waves] in *. unfold inner, col. cbn [ksum pair_waves ent].
    two a; two b; cbn [Nat.eqb andb kb]; fold r; apply injective_projections; cbn; nra.
  - intros psi i Hi. cbn [nrow ncol pair_waves] in *. unfold inner, col. cbn [ksum pair_waves ent].
    two i; cbn [Nat.eqb andb]; fold r; destruct (psi 0%nat) as [a b], (psi 1%nat) as [c d]; apply injective_projections; cbn; ring_simplify; replace (r ^ 2) with (/ 2) by (rewrite <- HF; ring); field.
Qed.

Lemma two_sites_refuted : exists g f H V E A x y,
  c_square_geometry 2 1 0 0 false true = Ok g /\
  fermions_init (fgeom_of g) (number 0) (number 1) None (numbers 1 (fun _ => 1)) (number 0) (number 0) 1 = Ok f /\
  createH f None = Ok H /\ eigenbasis H V E /\
  single_site_op (f_sys f) 0 0 n_op Boson = Ok A /\
  exp_vals_thermal V A E 1 = Ok x /\ fg_density (Beta 1) 1 2 (dim_of Chain) = Ok y /\ x <> y.
Proof.
  destruct (lattice_exists 2 1 false true 0 1 1 (fun _ => 1) ltac:(lia) ltac:(lia) ltac:(lia) ltac:(lia) ltac:(discriminate) ltac:(intros _; exact eq_refl) ltac:(right; reflexivity)) as (g & f & H & V & E & LG & MD & EH & EB).
  destruct (made_ok g 1 1 (fun _ => 1) f MD) as (FG & FS & FT & FU & FI & FM & FP).
  assert (N2 : g_n g = 2%nat).
  { destruct (square_neighbours phase_matrix valid_phases 2 1 0 0 false true g ltac:(lia) ltac:(lia) ltac:(lia) ltac:(lia) LG) as (G & _). rewrite G. reflexivity. }
  assert (NS : fg_nsites (f_geom f) = 2%nat) by (rewrite FG; exact N2).
  assert (free : non_interacting f) by (split; intros; [apply FU | apply FI]).
  assert (EM : forall i j, (i < 2)%nat -> (j < 2)%nat -> ent (particle_matrix f 0) i j = real (-1)).
  { assert (BOND : kmul (f_ts f 1%nat 0%nat 0%nat) (kQ (Qabs (fg_xdist (f_geom f) 1%nat 0%nat) + Qabs (fg_ydist (f_geom f) 1%nat 0%nat))) = c1).
    { rewrite FT, FG. cbn [fgeom_of fg_adj fg_phase fg_xdist fg_ydist].
      destruct (square_neighbours phase_matrix valid_phases 2 1 0 0 false true g ltac:(lia) ltac:(lia) ltac:(lia) ltac:(lia) LG) as (_ & _ & _ & _ & _ & _ & NB).
      destruct (NB 1%nat 0%nat ltac:(lia) ltac:(lia)) as (_ & _ & _ & ST).
      assert (A1 : ent (g_adj g) 1 0 = 1%Q) by (apply ST; left; split; [left; reflexivity | reflexivity]).
      destruct (square_displacements phase_matrix valid_phases 2 1 0 0 false true g ltac:(lia) ltac:(lia) ltac:(lia) ltac:(lia) LG 1%nat 0%nat ltac:(lia) ltac:(lia))
        as (a & b & X & Y & _ & _ & _ & _ & AE).
      assert (QD : (Qabs (ent (g_xd g) 1 0) + Qabs (ent (g_yd g) 1 0) == 1)%Q).
      { rewrite X, Y. rewrite AE in A1. destruct (Z.eqb_spec (a * a + b * b) 1) as [D|D]; [|discriminate].
        assert (A2 : (a = -1 \/ a = 0 \/ a = 1)%Z) by nia. assert (B2 : (b = -1 \/ b = 0 \/ b = 1)%Z) by nia.
        destruct A2 as [-> | [-> | ->] ], B2 as [-> | [-> | ->] ]; try discriminate D; reflexivity. }
      assert (PH : ent (g_phase g) 1 0 = c1).
      { pose proof LG as LG'. unfold c_square_geometry, square_geometry in LG'.
        cbn [Z.eqb andb Bool.eqb negb] in LG'.
        destruct (phases_hermitian _ _ _ _ _ _ _ _ _ g LG' (or_intror (px_long 2 ltac:(lia))) (or_intror (py_long 1 ltac:(lia)))) as (_ & _ & PP).
        destruct (PP 1%nat 0%nat ltac:(lia) ltac:(lia)) as (_ & _ & P1). apply P1; reflexivity. }
      rewrite A1, PH. change (negb (Qeq_bool 1 0)) with true. cbn [kb].
      replace (real 1 *c (c1 *c c1)) with (real 1) by (apply injective_projections; cbn; ring). rewrite kre_real.
      apply Qeq_eqR in QD.
      change (real 1 *c real (Q2R (Qabs (ent (g_xd g) 1 0) + Qabs (ent (g_yd g) 1 0))) = c1). rewrite QD.
      apply injective_projections; cbn; unfold Q2R; cbn; field. }
    intros i j Hi Hj. unfold particle_matrix, one_particle. cbn [ent].
    two i; two j; cbn [Nat.eqb Nat.ltb Nat.leb]; rewrite ?BOND, ?FP, ?FM by lia; apply injective_projections; cbn; ring. }
  assert (MB : eigenbasis (particle_matrix f 0) pair_waves [-2; 0]) by (apply pair_basis; [exact NS | exact NS | exact EM]).
  destruct (single_ok (f_sys f) 0 0 n_op Boson (HamProofs.f_two f) ltac:(discriminate) ltac:(change (0 < fg_nsites (f_geom f))%nat; lia) ltac:(change (0 < f_nspecies f)%nat; lia) (sq2 _ _ _ _)) as (A & EA & _).
  pose proof (density_avg f free H V E 1 EH EB ltac:(lra) 0 pair_waves [-2; 0] ltac:(lia) MB 0 A ltac:(lia) EA) as EX.
  destruct (density_ok Chain 2 1) as (N & D1 & D2 & _).
  { split; [lia|]. cbn. lra. }
  exists g, f, H, V, E, A. eexists. exists (N 1). repeat (split; [eassumption|]). split; [apply D1|].
  rewrite D2. unfold mean, modes. cbn [seq list_prod map app total fold_right length].
  unfold filled, fermi_weight. cbn [length ksum pair_waves ent Nat.eqb andb nth]. pose proof half as HF. set (r := / sqrt 2) in *.
  unfold level_of, momentum. cbn [fst]. replace (2 * PI * INR 0 / INR 2) with 0 by (cbn; field). replace (2 * PI * INR 1 / INR 2) with PI by (cbn; field).
  rewrite cos_0, cos_PI. unfold occupation.
  replace (exp (- (1) * (-2 * 1 - 1))) with (exp 1 * exp 1 * exp 1) by (rewrite <- !exp_plus; f_equal; ring).
  replace (exp (- (1) * (-2 * -1 - 1))) with (/ exp 1) by (rewrite <- exp_Ropp; f_equal; ring).
  replace (exp (- (1 / 1) * (-2 - 0))) with (exp 1 * exp 1) by (rewrite <- !exp_plus; f_equal; field).
  replace (exp (- (1 / 1) * (0 - 0))) with 1 by (rewrite <- exp_0; f_equal; ring).
  assert (X1 : 1 < exp 1) by (pose proof (exp_ineq1 1 ltac:(lra)); lra). set (X := exp 1) in *.
  set (x := fst _). assert (EX' : x = / 2 * (X * X / (1 + X * X) + / 2)).
  { unfold x. cbn. ring_simplify. replace (r ^ 2) with (/ 2) by (rewrite <- HF; ring). field. nra. }
  rewrite EX'. clear x EX EX'. cbn. intros Q.
  assert (P1 : 0 < 1 + X * X) by nra. assert (P2 : 0 < 1 + X * X * X) by nra.
  assert (D : (X - 1) * ((X * X * X - 1) * (X * X - 1)) = 0).
  { apply (f_equal (fun z => z * (4 * (1 + X) * (1 + X * X) * (1 + X * X * X)))) in Q.
    match type of Q with ?l = ?rr => assert (Q1 : l = (1 + X) * (1 + X * X * X) * (2 * X * X + (1 + X * X))) by (field; lra);
      assert (Q2 : rr = 2 * (1 + X * X) * (X * X * X * (1 + X) + (1 + X * X * X))) by (field; lra) end.
    rewrite Q1, Q2 in Q. lra. }
  assert (0 < (X - 1) * ((X * X * X - 1) * (X * X - 1))); [|lra].
  repeat apply Rmult_lt_0_compat; nra.
Qed.
