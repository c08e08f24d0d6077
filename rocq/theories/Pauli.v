(** The Pauli matrices and the spin operators. *)
From Coq Require Import List Arith Lia Reals Lra ZArith QArith Bool.
From Verif Require Import Scalars Res Matrix Sums SpecMat ModelBase ModelFermions ModelSpins SpecSpins Digits SpinAlg SpinOps HamProofs SpinHam SpinApi ModelGeometry ModelPhase ModelSymmetry SymBase ModelThermal SpecThermal ThermalBase.
Import ListNotations.
Local Open Scope R_scope.

Ltac entry := unfold pauli_x, pauli_y, pauli_z, pauli_plus, pauli_minus, sz_op, sx_op, sy_op, splus_op, sminus_op, mdiag; cbn [ent mscale madd msub mmul mlit ncol ksum nth Nat.eqb Nat.add Nat.sub Nat.mul].
Theorem pauli_algebra : forall r c, (r < 2)%nat -> (c < 2)%nat ->
  ent (mmul pauli_x pauli_y) r c = (0, 1) *c ent pauli_z r c /\ ent (mmul pauli_y pauli_z) r c = (0, 1) *c ent pauli_x r c /\ ent (mmul pauli_z pauli_x) r c = (0, 1) *c ent pauli_y r c /\
  ent (mmul pauli_x pauli_x) r c = ent (meye (K:=CR) 2) r c /\ ent (mmul pauli_y pauli_y) r c = ent (meye (K:=CR) 2) r c /\ ent (mmul pauli_z pauli_z) r c = ent (meye (K:=CR) 2) r c /\
  ent pauli_x r c = ent pauli_plus r c +c ent pauli_minus r c /\ (0, 1) *c ent pauli_y r c = ksub (ent pauli_plus r c) (ent pauli_minus r c).
Proof. intros r c Hr Hc. destruct r as [|[|r]]; try lia; destruct c as [|[|c]]; try lia; repeat split; entry; apply injective_projections; cbn; lra. Qed.
Lemma halves rt r c : rt 1%nat = @k1 CR _ -> (r < 2)%nat -> (c < 2)%nat ->
  ent pauli_x r c = real 2 *c ent (sx_op rt 1) r c /\ ent pauli_y r c = real (-2) *c ent (sy_op rt 1) r c /\ ent pauli_z r c = real 2 *c ent (sz_op 1) r c.
Proof. intros R1 Hr Hc. destruct r as [|[|r]]; try lia; destruct c as [|[|c]]; try lia; repeat split; entry; rewrite ?R1; apply injective_projections; cbn; unfold Q2R; cbn; lra. Qed.
Lemma site_times n i (A B : mat CR) z a b : (forall r c, (r < 2)%nat -> (c < 2)%nat -> ent A r c = z *c ent B r c) -> site_elem 2 n i (ent A) a b = z *c site_elem 2 n i (ent B) a b.
Proof. intros X. unfold site_elem. destruct (agree_off 2 n [i] a b); [apply X; apply digit_lt; lia|]. ring. Qed.
Theorem pauli_sites rt (s : spins CR) i (X Y Z SX SY SZ : mat CR) : rt 1%nat = k1 -> sp_two s = 1%nat -> (i < sg_nsites (sp_geom s))%nat ->
  single_site_op (sp_sys s) i 0 pauli_x Boson = Ok X -> single_site_op (sp_sys s) i 0 pauli_y Boson = Ok Y -> single_site_op (sp_sys s) i 0 pauli_z Boson = Ok Z ->
  single_site_op (sp_sys s) i 0 (sx_op rt 1) Boson = Ok SX -> single_site_op (sp_sys s) i 0 (sy_op rt 1) Boson = Ok SY -> single_site_op (sp_sys s) i 0 (sz_op 1) Boson = Ok SZ ->
  forall a b, (a < 2 ^ sg_nsites (sp_geom s))%nat -> (b < 2 ^ sg_nsites (sp_geom s))%nat -> ent X a b = real 2 *c ent SX a b /\ ent Y a b = real (-2) *c ent SY a b /\ ent Z a b = real 2 *c ent SZ a b.
Proof.
  intros R1 half Hi. rewrite sp_sys_dsys, half. cbn [Nat.add]. set (n := sg_nsites (sp_geom s)) in *. intros E1 E2 E3 E4 E5 E6 a b Ha Hb.
  assert (OP : forall A M, square 2 A -> single_site_op (dsys 2 n) i 0 A Boson = Ok M -> ent M a b = site_elem 2 n i (ent A) a b).
  { intros A M SA E. destruct (single_elem 2 ltac:(lia) n i A SA Hi (or_introl eq_refl)) as (M' & E' & _ & W). rewrite E in E'. injection E' as <-. apply W; assumption. }
  rewrite (OP pauli_x X ltac:(split; reflexivity) E1), (OP pauli_y Y ltac:(split; reflexivity) E2), (OP pauli_z Z ltac:(split; reflexivity) E3), (OP (sx_op rt 1) SX ltac:(split; reflexivity) E4), (OP (sy_op rt 1) SY ltac:(split; reflexivity) E5), (OP (sz_op 1) SZ ltac:(split; reflexivity) E6).
  repeat split; apply site_times; intros r c Hr Hc; apply (halves rt r c R1 Hr Hc).
Qed.
Theorem pauli_y_wrong rt : rt 1%nat = @k1 CR _ -> exists r c, (r < 2)%nat /\ (c < 2)%nat /\ ent pauli_y r c <> real 2 *c ent (sy_op rt 1) r c.
Proof.
  intros R1. exists 0%nat, 1%nat. split; [lia|]. split; [lia|]. intros X. destruct (halves rt 0 1 R1 ltac:(lia) ltac:(lia)) as (_ & Y & _).
  assert (V : snd (ent (pauli_y (K:=CR)) 0 1) = -1) by (cbn; lra). rewrite Y in X. apply (f_equal snd) in X. rewrite Y in V. revert X V. generalize (ent (sy_op rt 1) 0 1). intros (u, w). cbn. lra.
Qed.
