(** Concrete cases that meet the hypotheses of C166 to C168. *)
From Coq Require Import List Arith Lia Reals Lra ZArith QArith Bool.
From Verif Require Import Scalars Res Sums Matrix SqMat SpecMat ModelBase ModelSpins SpecSpins ModelFermions OpsProofs FermiOps ModelGeometry ModelPhase ModelSymmetry ModelThermal SpecThermal ThermalBase Spectral
  SpecFermiGas SpecFreeLattice SpecHalf SpecEta SymAverage SpecSigns SpecSectors SymBase SpinAlg SpinOps SpinApi ExamplesConvex ExamplesSigns ExamplesSectors SpecSinglet ExamplesSinglet ExamplesThermo SpecPrecess Precess RefutePrecess PropertiesPrecess.
From Verif Require SpinSym HamProofs SignsSpins PrecessRun.
From Verif Require Import FreeThermal SymBase.
Import ListNotations.
Local Open Scope R_scope.

(** Three spins in a row in a field of strength two along (3/5, 0, 4/5). *)
Definition axis : vec := Vec (3 / 5) 0 (4 / 5).
Definition tilted : spins CR := Spins (sp_geom (row 1)) 1 (fun i j => (chain i j, 0)) (fun i j => (chain i j, 0)) (fun i j => (chain i j, 0)) (fun _ => (6 / 5, 0)) (fun _ => (0, 0)) (fun _ => (8 / 5, 0)).
Lemma tilted_field : in_field tilted chain (scaled 2 axis).
Proof. split; [intros i j _; repeat split; reflexivity|]. intros i _. cbn [tilted sp_hx sp_hy sp_hz scaled axis vx vy vz]. repeat split; apply injective_projections; cbn; lra. Qed.
Lemma tilted_solved : exists F V E, sp_createH root tilted None = Ok F /\ eigenbasis F V E.
Proof.
  assert (R1 : roots_ok (K:=CR) root 1).
  { intros i Hi. replace i with 0%nat by lia. change ((0 + 1) * (1 - 0))%nat with 1%nat. cbv beta. change (INR 1) with 1. rewrite sqrt_1. rewrite kofnat_S, kofnat_0. split; apply injective_projections; cbn; ring. }
  destruct (spin_hermitian root tilted None eq_refl R1) as (H & EH & (S1 & S2) & HM).
  - intros i j _ _. repeat split; apply injective_projections; cbn; ring.
  - intros i _. repeat split; apply injective_projections; cbn; ring.
  - left. reflexivity.
  - assert (HH : hermitian (nrow H) H) by (intros i j Hi Hj; destruct HM as (_ & _ & M); rewrite <- (M i j) by (cbn [madj nrow ncol]; congruence || lia); reflexivity).
    destruct (spectral (nrow H) H HH eq_refl ltac:(congruence)) as (V & E & B). exists H, V, E. auto.
Qed.
(** All spins up, (0, 0, 3/2); after the time pi/2 the total spin has turned by half a turn. *)
Example ex_half_turn : exists F V E X Y Z Ms x y z, sp_createH root tilted None = Ok F /\ eigenbasis F V E /\ total_spin root tilted X Y Z /\
  quench (OneState 8 (fun i => if (i =? 0)%nat then c1 else c0)) V E [PI / 2] = Ok Ms /\
  exp_vals (Columns (nth 0 Ms (mzero 0 0))) X = Ok [x] /\ exp_vals (Columns (nth 0 Ms (mzero 0 0))) Y = Ok [y] /\ exp_vals (Columns (nth 0 Ms (mzero 0 0))) Z = Ok [z] /\
  x = 36 / 25 /\ y = 0 /\ z = 21 / 50.
Proof.
  destruct tilted_solved as (F & V & E & EF & B). destruct (row_spin tilted eq_refl ltac:(discriminate)) as (X & Y & Z & T).
  set (st := OneState 8 (fun i => if (i =? 0)%nat then c1 else c0)).
  pose proof (PrecessRun.rows_field root tilted F V E eq_refl EF B) as RV. change (2 ^ sg_nsites (sp_geom tilted))%nat with 8%nat in RV.
  destruct (ThermalFacts.quench_entries st V E [PI / 2] ltac:(rewrite RV; reflexivity) ltac:(apply B)) as (Ms & EQ & _).
  destruct (PrecessRun.tot_ent root tilted X Y Z eq_refl T) as ((X1 & X2 & VX) & (Y1 & Y2 & VY) & (Z1 & Z2 & VZ)). change (2 ^ sg_nsites (sp_geom tilted))%nat with 8%nat in *. change (sg_nsites (sp_geom tilted)) with 3%nat in *.
  assert (G : forall M, nrow M = 8%nat -> ncol M = 8%nat -> exp_vals st M = Ok [fst (ent M 0 0)]).
  { intros M M1 M2. rewrite (exp_vals_of st M M1 M2). rewrite M1. cbn [as_columns st ncol seq map]. f_equal. f_equal. unfold expect, inner, apply, col. cbn [ksum as_columns st ent Nat.eqb]. cbn. ring. }
  destruct (C166_turning root tilted chain X Y Z F V E axis 2 root_one eq_refl tilted_field ltac:(unfold vdot; cbn; lra) T EF B st [PI / 2] Ms _ _ _ 0%nat EQ ltac:(cbn; lia) (G X X1 X2) (G Y Y1 Y2) (G Z Z1 Z2)) as (x & y & z & EX & EY & EZ & LX & LY & LZ & W).
  specialize (W 0%nat ltac:(cbn; lia)). cbn [nth] in W.
  destruct x as [|x [|]]; try discriminate LX. destruct y as [|y [|]]; try discriminate LY. destruct z as [|z [|]]; try discriminate LZ. cbn [nth] in W.
  assert (AX : ent X 0%nat 0%nat = c0) by (rewrite VX by lia; apply ksum_zero; intros i Hi; unfold site_elem; assert (Q : digit 2 3 i 0 = 0%nat) by (destruct i as [|[|[|]]]; [reflexivity | reflexivity | reflexivity | lia]); rewrite Q, (SignsSpins.sx_val root root_one) by lia; destruct (agree_off 2 3 [i] 0 0); reflexivity).
  assert (AY : ent Y 0%nat 0%nat = c0) by (rewrite VY by lia; apply ksum_zero; intros i Hi; unfold site_elem; assert (Q : digit 2 3 i 0 = 0%nat) by (destruct i as [|[|[|]]]; [reflexivity | reflexivity | reflexivity | lia]); rewrite Q, (SignsSpins.sy_val root root_one) by lia; destruct (agree_off 2 3 [i] 0 0); reflexivity).
  assert (AZ : ent Z 0%nat 0%nat = (3 / 2, 0)).
  { rewrite VZ by lia. rewrite (ksum_ext 3 _ (fun _ => real (1 / 2))); [apply injective_projections; cbn; field|]. intros i Hi. unfold site_elem. assert (Q : digit 2 3 i 0 = 0%nat) by (destruct i as [|[|[|]]]; [reflexivity | reflexivity | reflexivity | lia]).
    assert (Q' : agree_off 2 3 [i] 0 0 = true) by (destruct i as [|[|[|]]]; [reflexivity | reflexivity | reflexivity | lia]). rewrite Q, Q', SignsSpins.sz_val by lia. reflexivity. }
  rewrite AX, AY, AZ in W. replace (2 * (PI / 2)) with PI in W by field. unfold turned, vdot, vcross, axis in W. cbn [vx vy vz fst snd] in W. rewrite cos_PI, sin_PI in W. change (fst c0) with 0 in W. injection W as W1 W2 W3.
  exists F, V, E, X, Y, Z, Ms, x, y, z. repeat (split; [assumption|]). split; [rewrite W1; field|]. split; [rewrite W2; field | rewrite W3; field].
Qed.

(** Particles on an open lattice of two by three sites, with the pair energy two. *)
Definition the_sum (n N : nat) (side : nat -> bool) (A : nat -> mat CR) : mat CR := Mat N N (fun a b => ksum n (fun i => @kmul CR _ ((if side i then 1 else -1), 0) (ent (A i) a b))).
Lemma sum_alternating n N side A : alternating n N side A (the_sum n N side A).
Proof. split; [reflexivity|]. split; [reflexivity|]. intros a b _ _. reflexivity. Qed.
Definition made_of (r : res (mat CR)) : mat CR := match r with Ok A => A | Raise _ => meye 0 end.
(** After the time pi/2 the pair amplitude of every state has changed its sign. *)
Example ex_pairs : exists f H V E O, createH f None = Ok H /\ eigenbasis H V E /\ fg_nsites (f_geom f) = 6%nat /\ shifts (2 ^ nlog (f_sys f)) H O 2 /\
  forall st x0 y0, exp_vals st O = Ok x0 -> exp_vals st (mscale (0, -1) O) = Ok y0 -> (0 < ncol (as_columns st))%nat -> nrow (as_columns st) = nrow V ->
  exists Ms x y, quench st V E [PI / 2] = Ok Ms /\ exp_vals (Columns (nth 0 Ms (mzero 0 0))) O = Ok [x] /\ exp_vals (Columns (nth 0 Ms (mzero 0 0))) (mscale (0, -1) O) = Ok [y] /\ x = - nth 0 x0 0 /\ y = - nth 0 y0 0.
Proof.
  destruct (plaquettes 3) as (g & f & H & V & E & _ & EH & B0 & NE & VR & NS & NP & PS). replace (8 - 2 * 3) with 2 in PS by lra.
  set (A := fun i => made_of (two_site_op (f_sys f) i 0 i 1 (@cdag_op CR _) cdag_op Fermion)).
  assert (EA : forall i, (i < fg_nsites (f_geom f))%nat -> two_site_op (f_sys f) i 0 i 1 cdag_op cdag_op Fermion = Ok (A i)).
  { intros i Hi. two f i 0%nat i 1%nat (@cdag_op CR _) (@cdag_op CR _) X EX. unfold A. rewrite EX. reflexivity. }
  set (O := the_sum (fg_nsites (f_geom f)) (2 ^ nlog (f_sys f)) (chess 3) A).
  pose proof (C167_pairs f (chess 3) 2 H O A PS EH EA (sum_alternating _ _ _ _)) as SH.
  exists f, H, V, E, O. split; [exact EH|]. split; [exact B0|]. split; [exact NS|]. split; [exact SH|]. intros st x0 y0 EX EY Hk Hr.
  destruct (ThermalFacts.quench_entries st V E [PI / 2] (eq_sym Hr) ltac:(apply B0)) as (Ms & EQ & _).
  destruct (C167_operator H V O E _ 2 B0 VR eq_refl eq_refl SH st [PI / 2] Ms x0 y0 0%nat EQ Hk EX EY) as (x & y & QX & QY & LX & LY & W).
  specialize (W 0%nat ltac:(cbn; lia)). cbn [nth] in W. replace (2 * (PI / 2)) with PI in W by field. cbv zeta in W. rewrite cos_PI, sin_PI in W.
  destruct x as [|x [|]]; try discriminate LX. destruct y as [|y [|]]; try discriminate LY. cbn [nth] in W. exists Ms, x, y. repeat (split; [assumption|]). split; lra.
Qed.
(** The response to the pair operator has one line, at the pair energy. *)
Example ex_pair_line : exists f H V E O P A B (u d : nat -> R), createH f None = Ok H /\ eigenbasis H V E /\ fg_nsites (f_geom f) = 6%nat /\ shifts (2 ^ nlog (f_sys f)) H O 2 /\ matrix_elems V O = Ok A /\ matrix_elems V P = Ok B /\
  (forall j, (j < 6)%nat -> exists U D, single_site_op (f_sys f) j 0 n_op Boson = Ok U /\ single_site_op (f_sys f) j 1 n_op Boson = Ok D /\ exp_vals_thermal V U E 1 = Ok (u j) /\ exp_vals_thermal V D E 1 = Ok (d j)) /\
  forall w eta, exists z, response_time_ordered A B E 1 w eta = Ok z /\ fst z = PI * lorentz eta (w - 2) * total (fun j => 1 - u j - d j) (seq 0 6).
Proof.
  destruct (plaquettes 3) as (g & f & H & V & E & _ & EH & B0 & NE & VR & NS & NP & PS). replace (8 - 2 * 3) with 2 in PS by lra.
  set (A := fun i => made_of (two_site_op (f_sys f) i 0 i 1 (@cdag_op CR _) cdag_op Fermion)). set (B := fun i => made_of (two_site_op (f_sys f) i 1 i 0 (@c_op CR _) c_op Fermion)).
  set (U := fun i => made_of (single_site_op (f_sys f) i 0 (@n_op CR _) Boson)). set (D := fun i => made_of (single_site_op (f_sys f) i 1 (@n_op CR _) Boson)).
  assert (EA : forall i, (i < fg_nsites (f_geom f))%nat -> two_site_op (f_sys f) i 0 i 1 cdag_op cdag_op Fermion = Ok (A i)).
  { intros i Hi. two f i 0%nat i 1%nat (@cdag_op CR _) (@cdag_op CR _) X EX. unfold A. rewrite EX. reflexivity. }
  assert (EB : forall i, (i < fg_nsites (f_geom f))%nat -> two_site_op (f_sys f) i 1 i 0 c_op c_op Fermion = Ok (B i)).
  { intros i Hi. two f i 1%nat i 0%nat (@c_op CR _) (@c_op CR _) X EX. unfold B. rewrite EX. reflexivity. }
  assert (EU : forall i, (i < fg_nsites (f_geom f))%nat -> single_site_op (f_sys f) i 0 n_op Boson = Ok (U i) /\ square (2 ^ nlog (f_sys f)) (U i)).
  { intros i Hi. destruct (single_ok (K:=CR) (f_sys f) i 0 n_op Boson (HamProofs.f_two f) ltac:(discriminate) Hi ltac:(change (0 < f_nspecies f)%nat; lia) (sq2 _ _ _ _)) as (X & EX & SX & _). unfold U. rewrite EX. split; [reflexivity | exact SX]. }
  assert (ED : forall i, (i < fg_nsites (f_geom f))%nat -> single_site_op (f_sys f) i 1 n_op Boson = Ok (D i) /\ square (2 ^ nlog (f_sys f)) (D i)).
  { intros i Hi. destruct (single_ok (K:=CR) (f_sys f) i 1 n_op Boson (HamProofs.f_two f) ltac:(discriminate) Hi ltac:(change (1 < f_nspecies f)%nat; lia) (sq2 _ _ _ _)) as (X & EX & SX & _). unfold D. rewrite EX. split; [reflexivity | exact SX]. }
  set (O := the_sum (fg_nsites (f_geom f)) (2 ^ nlog (f_sys f)) (chess 3) A). set (P := the_sum (fg_nsites (f_geom f)) (2 ^ nlog (f_sys f)) (chess 3) B).
  pose proof (C167_pairs f (chess 3) 2 H O A PS EH EA (sum_alternating _ _ _ _)) as SH.
  assert (EM : forall Q, nrow Q = nrow V -> ncol Q = nrow V -> exists M, matrix_elems V Q = Ok M /\ square_size M (length E)).
  { intros Q Q1 Q2. destruct B0 as ((L & _) & _). unfold matrix_elems, cmulv. rewrite Q2, Nat.eqb_refl. cbn [bind madj mmul nrow ncol]. rewrite Q1, Nat.eqb_refl. eexists. split; [reflexivity|]. split; cbn; congruence. }
  destruct (EM O ltac:(rewrite VR; reflexivity) ltac:(rewrite VR; reflexivity)) as (MA & EMA & SA). destruct (EM P ltac:(rewrite VR; reflexivity) ltac:(rewrite VR; reflexivity)) as (MB & EMB & SB).
  assert (FT : forall Q, square (2 ^ nlog (f_sys f)) Q -> exp_vals_thermal V Q E 1 = Ok (boltzmann 1 (levels E V Q))).
  { intros Q (Q1 & Q2). apply thermal_finite; [|lra]. split; [congruence|]. split; [congruence|]. split; [apply B0 | exact NE]. }
  exists f, H, V, E, O, P, MA, MB, (fun j => boltzmann 1 (levels E V (U j))), (fun j => boltzmann 1 (levels E V (D j))).
  split; [exact EH|]. split; [exact B0|]. split; [exact NS|]. split; [exact SH|]. split; [exact EMA|]. split; [exact EMB|]. split.
  - intros j Hj. rewrite <- NS in Hj. exists (U j), (D j). split; [apply EU, Hj|]. split; [apply ED, Hj|]. split; apply FT; [apply EU, Hj | apply ED, Hj].
  - intros w eta. destruct (ThermalResponse.time_ordered_finite MA MB E w eta fst SA SB NE (or_introl eq_refl) 1 R1_neq_R0) as (z & EZ & _). exists z. split; [exact EZ|].
    pose proof (C168_pairs f (chess 3) 2 H O A PS EH EA (sum_alternating _ _ _ _) V P MA MB E B U D 1 w eta EB (sum_alternating _ _ _ _) B0 R1_neq_R0 (fun j Hj => proj1 (EU j Hj)) (fun j Hj => proj1 (ED j Hj)) EMA EMB z
      (fun j => boltzmann 1 (levels E V (U j))) (fun j => boltzmann 1 (levels E V (D j))) EZ (fun j Hj => FT _ (proj2 (EU j Hj))) (fun j Hj => FT _ (proj2 (ED j Hj)))) as W. rewrite NS in W. exact W.
Qed.
(** Two levels: the operator that raises the lower one. *)
Example ex_two_levels : exists A B, matrix_elems (meye 2) up = Ok A /\ matrix_elems (meye 2) down = Ok B /\
  forall w eta r, response_retarded A B [0; 1] 0 BosonFmt w eta = Ok r -> r = - (PI * lorentz eta (w + 1)).
Proof.
  destruct elems_up as (A & EA), elems_down as (B & EB). exists A, B. split; [exact EA|]. split; [exact EB|]. intros w eta r ER.
  rewrite (C168_retarded_cold two_levels (meye 2) up down A B [0; 1] 2 1 w eta two_basis eq_refl ltac:(discriminate) eq_refl eq_refl eq_refl eq_refl EA EB up_shifts BosonFmt r ltac:(discriminate) ER). cbn [ThermalResponse.fmt_sign].
  replace (expect 2 (mmul up down) (col (meye 2) 0)) with 0 by (cbn; ring). replace (expect 2 (mmul down up) (col (meye 2) 0)) with 1 by (cbn; ring). ring.
Qed.
(** At the temperature one the same function has the factor [1 - e]. *)
Example ex_two_levels_hot : exists A B, matrix_elems (meye 2) up = Ok A /\ matrix_elems (meye 2) down = Ok B /\
  forall w eta r x, exp_vals_thermal (meye 2) (mmul down up) [0; 1] 1 = Ok x -> response_retarded A B [0; 1] 1 BosonFmt w eta = Ok r -> r = PI * lorentz eta (w + 1) * (1 - exp 1) * x.
Proof.
  destruct elems_up as (A & EA), elems_down as (B & EB). exists A, B. split; [exact EA|]. split; [exact EB|]. intros w eta r x EX ER.
  rewrite (C168_retarded_hot two_levels (meye 2) up down A B [0; 1] 2 1 w eta two_basis eq_refl ltac:(discriminate) eq_refl eq_refl eq_refl eq_refl EA EB up_shifts BosonFmt 1 r x ltac:(discriminate) R1_neq_R0 EX ER). cbn [ThermalResponse.fmt_sign]. replace (1 / 1) with 1 by field. ring.
Qed.
