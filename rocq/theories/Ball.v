(** The three components of one spin 1/2 lie in a ball. *)
From Coq Require Import List Arith Lia Reals Lra Psatz ZArith QArith Bool.
From Verif Require Import Scalars Res Matrix Sums SqMat SpecMat ModelBase ModelFermions ModelSpins SpecSpins Digits SpinAlg SpinOps HamProofs SpinHam SpinApi ModelGeometry ModelPhase
  Axes SpecUncertain Uncertain SpecPrecess Precess ModelSymmetry SymBase ModelThermal SpecThermal ThermalBase ThermalBasis.
Import ListNotations.
Local Open Scope R_scope.

Lemma schwarz_re n f g : fst (inner n f g) * fst (inner n f g) <= norm2 n f * norm2 n g.
Proof.
  pose proof (schwarz_im n f (fun i => (0, 1) *c g i)) as X. rewrite inner_scale in X. replace (norm2 n (fun i => (0, 1) *c g i)) with (norm2 n g) in X.
  - destruct (inner n f g) as (u, v). cbn in X |- *. nra.
  - unfold norm2. rewrite inner_scale, inner_scale_l. destruct (inner n g g) as (u, v). cbn. ring.
Qed.
Section Ball.
  Variables (n i : nat) (psi : nat -> CR) (X Y Z : nat -> nat -> CR).
  Notation D := (2 ^ n)%nat.
  Hypothesis Hi : (i < n)%nat.
  Notation e A := (fst (inner D psi (st n i A psi))).
  Notation norm := (norm2 D psi).
  Definition mix (x y z : R) (r c : nat) : CR := real x *c X r c +c real y *c Y r c +c real z *c Z r c.
  Hypothesis square : forall x y z, same2 (two_mul (adj2 (mix x y z)) (mix x y z)) (fun r c => real ((x * x + y * y + z * z) / 4) *c one2 r c).
  Lemma e_mix x y z : e (mix x y z) = x * e X + y * e Y + z * e Z.
  Proof using.
    clear square. assert (L : inner D psi (st n i (mix x y z) psi) = real x *c inner D psi (st n i X psi) +c real y *c inner D psi (st n i Y psi) +c real z *c inner D psi (st n i Z psi)).
    { unfold inner. rewrite <- !ksum_mul_l, <- !ksum_add. apply ksum_ext. intros a _. unfold st, mix. ring. }
    rewrite L. destruct (inner D psi (st n i X psi)), (inner D psi (st n i Y psi)), (inner D psi (st n i Z psi)). cbn. ring.
  Qed.
  Lemma norm_mix x y z : norm2 D (st n i (mix x y z) psi) = (x * x + y * y + z * z) / 4 * norm.
  Proof using Hi square.
    unfold norm2 at 1. rewrite (inner_st n i (mix x y z) (st n i (mix x y z) psi) psi Hi).
    rewrite (inner_ext D _ (fun a => real ((x * x + y * y + z * z) / 4) *c psi a) psi psi); [|intros a Ha|reflexivity].
    - rewrite inner_scale_l, inner_self. cbn. ring.
    - rewrite st_mul by assumption. rewrite (st_same n i _ _ psi a (square x y z)). unfold st. transitivity (real ((x * x + y * y + z * z) / 4) *c st n i one2 psi a); [unfold st; ring | rewrite st_one; reflexivity].
  Qed.
  Theorem in_ball : e X * e X + e Y * e Y + e Z * e Z <= norm * norm / 4.
  Proof using Hi square.
    pose proof (schwarz_re D psi (st n i (mix (e X) (e Y) (e Z)) psi)) as C. rewrite norm_mix, e_mix in C. pose proof (norm_ge0 D psi) as P.
    set (u := e X) in *. set (v := e Y) in *. set (w := e Z) in *. set (q := u * u + v * v + w * w) in *. set (m := norm2 D psi) in *. clearbody m. assert (Q : 0 <= q) by (unfold q; nra). clearbody q.
    destruct (Req_dec q 0) as [->|NZ]; [nra|]. apply (Rmult_le_reg_l q); [lra|]. nra.
  Qed.
End Ball.
Theorem spin_ball rt (s : spins CR) i (X Y Z : mat CR) st vx vy vz k : rt 1%nat = k1 -> sp_two s = 1%nat -> (i < sg_nsites (sp_geom s))%nat ->
  single_site_op (sp_sys s) i 0 (sx_op rt 1) Boson = Ok X -> single_site_op (sp_sys s) i 0 (sy_op rt 1) Boson = Ok Y -> single_site_op (sp_sys s) i 0 (sz_op 1) Boson = Ok Z ->
  nrow (as_columns st) = (2 ^ sg_nsites (sp_geom s))%nat -> (k < ncol (as_columns st))%nat -> exp_vals st X = Ok vx -> exp_vals st Y = Ok vy -> exp_vals st Z = Ok vz ->
  nth k vx 0 ^ 2 + nth k vy 0 ^ 2 + nth k vz 0 ^ 2 <= (norm2 (2 ^ sg_nsites (sp_geom s)) (col (as_columns st) k) / 2) ^ 2.
Proof.
  intros R1 half Hi. rewrite sp_sys_dsys, half. cbn [Nat.add]. set (n := sg_nsites (sp_geom s)) in *. intros EX EY EZ NS Hk VX VY VZ.
  assert (OP : forall A M v, square 2 A -> single_site_op (dsys 2 n) i 0 A Boson = Ok M -> exp_vals st M = Ok v -> nth k v 0 = fst (inner (2 ^ n) (col (as_columns st) k) (Axes.st n i (ent A) (col (as_columns st) k)))).
  { intros A M v SA E V. destruct (single_elem 2 ltac:(lia) n i A SA Hi (or_introl eq_refl)) as (M' & E' & (S1 & S2) & W). rewrite E in E'. injection E' as <-.
    rewrite exp_vals_of in V by congruence. assert (V' := f_equal (fun x => match x with Ok y => y | Raise _ => [] end) V). cbv beta iota in V'. rewrite <- V'. rewrite Precess.map_seq_nth by exact Hk. rewrite S1. unfold expect. f_equal. apply inner_ext; [reflexivity|]. intros a Ha.
    rewrite <- (site_acts n i (ent A) (col (as_columns st) k) a Hi Ha). unfold apply. apply ksum_ext. intros b Hb. rewrite (W a b Ha Hb). reflexivity. }
  rewrite (OP (sx_op rt 1) X vx ltac:(split; reflexivity) EX VX), (OP (sy_op rt 1) Y vy ltac:(split; reflexivity) EY VY), (OP (sz_op 1) Z vz ltac:(split; reflexivity) EZ VZ).
  pose proof (in_ball n i (col (as_columns st) k) (ent (sx_op rt 1)) (ent (sy_op rt 1)) (ent (sz_op 1)) Hi) as B.
  match type of B with ?P -> _ => assert (SQ : P) end.
  { intros x y z r c Hr Hc. destruct r as [|[|r]]; try lia; destruct c as [|[|c]]; try lia; unfold two_mul, adj2, mix, one2, sz_op, sx_op, sy_op, splus_op, sminus_op, mdiag; cbn [ent mscale madd msub Nat.eqb Nat.add Nat.sub Nat.mul]; rewrite ?R1; apply injective_projections; cbn; unfold Q2R; cbn; field. }
  specialize (B SQ). cbn [pow]. lra.
Qed.
