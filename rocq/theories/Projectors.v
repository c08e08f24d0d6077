(** Projectors on states of one spin. *)
From Coq Require Import List Arith Lia Reals Lra ZArith QArith Bool.
From Verif Require Import Scalars Res Matrix Sums SqMat SpecMat ModelBase ModelFermions ModelSpins SpecSpins Digits SpinAlg SpinOps HamProofs SpinHam SpinSym SpinApi ModelGeometry ModelPhase
  SpecPrecess Precess SpecRates Rates ModelSymmetry SymBase ModelThermal SpecThermal ThermalBase ThermalBasis ModelProjectors.
From Verif Require Bloch.
Import ListNotations.
Local Open Scope R_scope.

Lemma ent_table rt : rt 1%nat = @k1 CR _ -> forall r c, (r < 2)%nat -> (c < 2)%nat ->
  ent (nr_op (K:=CR)) r c = (if (r =? c)%nat then real (1 / 2) else c0) +c ent (sz_op 1) r c /\ ent ng_op r c = (if (r =? c)%nat then real (1 / 2) else c0) -c ent (sz_op 1) r c /\
  ent nplus_op r c = (if (r =? c)%nat then real (1 / 2) else c0) +c ent (sx_op rt 1) r c /\ ent nminus_op r c = (if (r =? c)%nat then real (1 / 2) else c0) -c ent (sx_op rt 1) r c.
Proof.
  intros R1 r c Hr Hc. destruct r as [|[|r]]; try lia; destruct c as [|[|c]]; try lia; repeat split; unfold nr_op, ng_op, nplus_op, nminus_op, sz_op, sx_op, splus_op, sminus_op, mdiag; cbn [ent mscale madd mlit nth Nat.eqb Nat.add Nat.sub Nat.mul]; rewrite ?R1;
    apply injective_projections; cbn; unfold Q2R; cbn; lra.
Qed.
Lemma expect_site (n i : nat) (A B : mat CR) (sg : R) (M M' : mat CR) psi : (forall r c, (r < 2)%nat -> (c < 2)%nat -> ent A r c = (if (r =? c)%nat then real (1 / 2) else c0) +c real sg *c ent B r c) ->
  (i < n)%nat -> (forall a b, (a < 2 ^ n)%nat -> (b < 2 ^ n)%nat -> ent M a b = site_elem 2 n i (ent A) a b) -> (forall a b, (a < 2 ^ n)%nat -> (b < 2 ^ n)%nat -> ent M' a b = site_elem 2 n i (ent B) a b) ->
  expect (2 ^ n) M psi = fst (inner (2 ^ n) psi psi) / 2 + sg * expect (2 ^ n) M' psi.
Proof.
  intros EA Hi WM WM'. set (N := (2 ^ n)%nat).
  assert (DL : forall p k, (digit 2 n p k < 2)%nat) by (intros p k; apply digit_lt; lia).
  assert (EL : forall a b, (a < N)%nat -> (b < N)%nat -> ent M a b = real (1 / 2) *c ent (meye (K:=CR) N) a b +c real sg *c ent M' a b).
  { intros a b Ha Hb. rewrite WM, WM' by assumption. unfold site_elem. cbn [meye ent]. destruct (agree_off 2 n [i] a b) eqn:G.
    - rewrite EA by apply DL. rewrite agree_off_spec in G. destruct (digit 2 n i a =? digit 2 n i b)%nat eqn:Q.
      + apply Nat.eqb_eq in Q. assert (a = b). { apply (digits_ext 2 ltac:(lia) n); [assumption | assumption|]. intros p Hp. destruct (Nat.eq_dec p i) as [->|NE]; [exact Q|]. apply G; [exact Hp|]. intros [X|[]]. congruence. }
        subst b. rewrite !Nat.eqb_refl. cbn [kb]. ring.
      + apply Nat.eqb_neq in Q. destruct (a =? b)%nat eqn:Z; [apply Nat.eqb_eq in Z; subst b; congruence|]. cbn [kb]. ring.
    - destruct (a =? b)%nat eqn:Z; [|cbn [kb]; ring]. apply Nat.eqb_eq in Z. subst b. assert (agree_off 2 n [i] a a = true) by (apply agree_off_spec; reflexivity). congruence. }
  rewrite (Bloch.expect_plus N M (Mat N N (fun a b => real (1 / 2) *c ent (meye (K:=CR) N) a b)) (Mat N N (fun a b => real sg *c ent M' a b)) psi) by (intros a b Ha Hb; cbn [ent]; apply EL; assumption).
  rewrite (Bloch.expect_times N (Mat N N (fun a b => real (1 / 2) *c ent (meye (K:=CR) N) a b)) (meye N) (1 / 2) psi) by reflexivity. rewrite (Bloch.expect_times N (Mat N N (fun a b => real sg *c ent M' a b)) M' sg psi) by reflexivity.
  assert (I : expect N (meye N) psi = fst (inner N psi psi)).
  { unfold expect. f_equal. unfold inner. apply ksum_ext. intros a Ha. f_equal. unfold apply. rewrite (ksum_single N a); [|exact Ha|].
    - cbn [meye ent]. rewrite Nat.eqb_refl. cbn [kb]. ring.
    - intros b Hb NE. cbn [meye ent]. destruct (a =? b)%nat eqn:Z; [apply Nat.eqb_eq in Z; congruence|]. cbn [kb]. ring. }
  rewrite I. lra.
Qed.
Theorem projectors rt (s : spins CR) i (Nr Ng Np Nm X Z : mat CR) st vr vg vp vm vx vz k : rt 1%nat = k1 -> sp_two s = 1%nat -> (i < sg_nsites (sp_geom s))%nat ->
  single_site_op (sp_sys s) i 0 nr_op Boson = Ok Nr -> single_site_op (sp_sys s) i 0 ng_op Boson = Ok Ng -> single_site_op (sp_sys s) i 0 nplus_op Boson = Ok Np -> single_site_op (sp_sys s) i 0 nminus_op Boson = Ok Nm ->
  single_site_op (sp_sys s) i 0 (sx_op rt 1) Boson = Ok X -> single_site_op (sp_sys s) i 0 (sz_op 1) Boson = Ok Z ->
  nrow (as_columns st) = (2 ^ sg_nsites (sp_geom s))%nat -> (k < ncol (as_columns st))%nat ->
  exp_vals st Nr = Ok vr -> exp_vals st Ng = Ok vg -> exp_vals st Np = Ok vp -> exp_vals st Nm = Ok vm -> exp_vals st X = Ok vx -> exp_vals st Z = Ok vz ->
  let norm := fst (inner (2 ^ sg_nsites (sp_geom s)) (col (as_columns st) k) (col (as_columns st) k)) in
  nth k vr 0 = norm / 2 + nth k vz 0 /\ nth k vg 0 = norm / 2 - nth k vz 0 /\ nth k vp 0 = norm / 2 + nth k vx 0 /\ nth k vm 0 = norm / 2 - nth k vx 0.
Proof.
  intros R1 half Hi. rewrite sp_sys_dsys, half. cbn [Nat.add]. set (n := sg_nsites (sp_geom s)) in *. intros ER EG EP EM EX EZ NS Hk VR VG VP VM VX VZ.
  assert (OP : forall A M, square 2 A -> single_site_op (dsys 2 n) i 0 A Boson = Ok M -> nrow M = (2 ^ n)%nat /\ ncol M = (2 ^ n)%nat /\ forall a b, (a < 2 ^ n)%nat -> (b < 2 ^ n)%nat -> ent M a b = site_elem 2 n i (ent A) a b).
  { intros A M SA E. destruct (single_elem 2 ltac:(lia) n i A SA Hi (or_introl eq_refl)) as (M' & E' & (S1 & S2) & W). rewrite E in E'. injection E' as <-. auto. }
  assert (VL : forall M v, nrow M = (2 ^ n)%nat -> ncol M = (2 ^ n)%nat -> exp_vals st M = Ok v -> nth k v 0 = expect (2 ^ n) M (col (as_columns st) k)).
  { intros M v S1 S2 E. rewrite exp_vals_of in E by congruence. assert (E' := f_equal (fun x => match x with Ok y => y | Raise _ => [] end) E). cbv beta iota in E'. rewrite <- E'. rewrite Precess.map_seq_nth by exact Hk. rewrite S1. reflexivity. }
  destruct (OP nr_op Nr ltac:(split; reflexivity) ER) as (R2 & R3 & WR). destruct (OP ng_op Ng ltac:(split; reflexivity) EG) as (G2 & G3 & WG). destruct (OP nplus_op Np ltac:(split; reflexivity) EP) as (P2 & P3 & WP). destruct (OP nminus_op Nm ltac:(split; reflexivity) EM) as (M2 & M3 & WM).
  destruct (OP (sx_op rt 1) X ltac:(split; reflexivity) EX) as (X2 & X3 & WX). destruct (OP (sz_op 1) Z ltac:(split; reflexivity) EZ) as (Z2 & Z3 & WZ).
  rewrite (VL _ _ R2 R3 VR), (VL _ _ G2 G3 VG), (VL _ _ P2 P3 VP), (VL _ _ M2 M3 VM), (VL _ _ X2 X3 VX), (VL _ _ Z2 Z3 VZ).
  assert (SUB : forall x y : CR, x -c y = x +c real (-1) *c y) by (intros x y; apply injective_projections; cbn; ring). assert (ADD : forall x y : CR, x +c y = x +c real 1 *c y) by (intros x y; apply injective_projections; cbn; ring).
  repeat split.
  - rewrite (expect_site n i nr_op (sz_op 1) 1 Nr Z) by (assumption || (intros r c Hr Hc; rewrite <- ADD; apply (ent_table rt R1 r c Hr Hc))). lra.
  - rewrite (expect_site n i ng_op (sz_op 1) (-1) Ng Z) by (assumption || (intros r c Hr Hc; rewrite <- SUB; apply (ent_table rt R1 r c Hr Hc))). lra.
  - rewrite (expect_site n i nplus_op (sx_op rt 1) 1 Np X) by (assumption || (intros r c Hr Hc; rewrite <- ADD; apply (ent_table rt R1 r c Hr Hc))). lra.
  - rewrite (expect_site n i nminus_op (sx_op rt 1) (-1) Nm X) by (assumption || (intros r c Hr Hc; rewrite <- SUB; apply (ent_table rt R1 r c Hr Hc))). lra.
Qed.
(** The exchange of two spins. *)
Theorem swap_pair rt r c r' c' : rt 1%nat = @k1 CR _ -> (r < 2)%nat -> (c < 2)%nat -> (r' < 2)%nat -> (c' < 2)%nat ->
  ent swap_pair_op (2 * r + r')%nat (2 * c + c')%nat = (if ((r =? c') && (r' =? c))%nat then c1 else c0) /\
  ent swap_pair_op (2 * r + r')%nat (2 * c + c')%nat = (if ((r =? c) && (r' =? c'))%nat then real (1 / 2) else c0) +c
    real 2 *c (ent (sx_op rt 1) r c *c ent (sx_op rt 1) r' c' +c ent (sy_op rt 1) r c *c ent (sy_op rt 1) r' c' +c ent (sz_op 1) r c *c ent (sz_op 1) r' c').
Proof.
  intros R1 H1 H2 H3 H4. destruct r as [|[|r]]; try lia; destruct c as [|[|c]]; try lia; destruct r' as [|[|r']]; try lia; destruct c' as [|[|c']]; try lia; split; try reflexivity;
  unfold swap_pair_op, sz_op, sx_op, sy_op, splus_op, sminus_op, mdiag; cbn [ent mscale madd msub mlit nth Nat.eqb Nat.add Nat.sub Nat.mul andb]; rewrite ?R1; apply injective_projections; cbn; unfold Q2R; cbn; lra.
Qed.
