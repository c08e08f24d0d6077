(** A single spin 1/2 lies on the surface of the ball. *)
From Coq Require Import List Arith Lia Reals Lra Psatz ZArith QArith Bool.
From Verif Require Import Scalars Res Matrix Sums SqMat SpecMat ModelBase ModelFermions ModelSpins SpecSpins Digits SpinAlg SpinOps HamProofs SpinHam SpinApi ModelGeometry ModelPhase
  Axes SpecUncertain Uncertain SpecPrecess Precess ModelSymmetry SymBase ModelThermal SpecThermal ThermalBase ThermalBasis.
Import ListNotations.
Local Open Scope R_scope.

Theorem spin_surface rt (s : spins CR) (X Y Z : mat CR) st vx vy vz k : rt 1%nat = k1 -> sp_two s = 1%nat -> sg_nsites (sp_geom s) = 1%nat ->
  single_site_op (sp_sys s) 0 0 (sx_op rt 1) Boson = Ok X -> single_site_op (sp_sys s) 0 0 (sy_op rt 1) Boson = Ok Y -> single_site_op (sp_sys s) 0 0 (sz_op 1) Boson = Ok Z ->
  nrow (as_columns st) = 2%nat -> (k < ncol (as_columns st))%nat -> exp_vals st X = Ok vx -> exp_vals st Y = Ok vy -> exp_vals st Z = Ok vz ->
  nth k vx 0 ^ 2 + nth k vy 0 ^ 2 + nth k vz 0 ^ 2 = (norm2 2 (col (as_columns st) k) / 2) ^ 2.
Proof.
  intros R1 half one. rewrite sp_sys_dsys, half, one. cbn [Nat.add]. intros EX EY EZ NS Hk VX VY VZ.
  assert (OP : forall A M v, square 2 A -> single_site_op (dsys 2 1) 0 0 A Boson = Ok M -> exp_vals st M = Ok v -> nth k v 0 = fst (inner 2 (col (as_columns st) k) (Axes.st 1 0 (ent A) (col (as_columns st) k)))).
  { intros A M v SA E V. destruct (single_elem 2 ltac:(lia) 1 0 A SA ltac:(lia) (or_introl eq_refl)) as (M' & E' & (S1 & S2) & W). rewrite E in E'. injection E' as <-.
    change (2 ^ 1)%nat with 2%nat in *. rewrite exp_vals_of in V by congruence. assert (V' := f_equal (fun x => match x with Ok y => y | Raise _ => [] end) V). cbv beta iota in V'. rewrite <- V'. rewrite Precess.map_seq_nth by exact Hk. rewrite S1. unfold expect. f_equal. apply inner_ext; [reflexivity|]. intros a Ha.
    rewrite <- (site_acts 1 0 (ent A) (col (as_columns st) k) a ltac:(lia) Ha). unfold apply. apply ksum_ext. intros b Hb. rewrite (W a b Ha Hb). reflexivity. }
  rewrite (OP (sx_op rt 1) X vx ltac:(split; reflexivity) EX VX), (OP (sy_op rt 1) Y vy ltac:(split; reflexivity) EY VY), (OP (sz_op 1) Z vz ltac:(split; reflexivity) EZ VZ).
  generalize (col (as_columns st) k). intros psi.
  assert (IN : forall A, inner 2 psi (Axes.st 1 0 A psi) = conj (psi 0%nat) *c (A 0%nat 0%nat *c psi 0%nat +c A 0%nat 1%nat *c psi 1%nat) +c conj (psi 1%nat) *c (A 1%nat 1%nat *c psi 1%nat +c A 1%nat 0%nat *c psi 0%nat)).
  { intros A. unfold inner. cbn [ksum]. change (Axes.st 1 0 A psi 0%nat) with (A 0%nat 0%nat *c psi 0%nat +c A 0%nat 1%nat *c psi 1%nat). change (Axes.st 1 0 A psi 1%nat) with (A 1%nat 1%nat *c psi 1%nat +c A 1%nat 0%nat *c psi 0%nat). ring. }
  rewrite !IN. replace (norm2 2 psi) with (fst (conj (psi 0%nat) *c psi 0%nat +c conj (psi 1%nat) *c psi 1%nat)) by (unfold norm2, inner; cbn [ksum]; f_equal; ring).
  destruct (psi 0%nat) as (a, b), (psi 1%nat) as (c, d). unfold sz_op, sx_op, sy_op, splus_op, sminus_op, mdiag. cbn [ent mscale madd msub Nat.eqb Nat.add Nat.sub Nat.mul]. rewrite ?R1. cbn. unfold Q2R; cbn. field.
Qed.
