(** The scalar product of two spins 1/2. *)
From Coq Require Import List Arith Lia Reals Lra Psatz ZArith QArith Bool.
From Verif Require Import Scalars Res Matrix Sums SqMat SpecMat ModelBase ModelFermions ModelSpins SpecSpins Digits SpinAlg SpinOps HamProofs SpinHam SpinApi ModelGeometry ModelPhase
  SignsSpins Sectors Ladder Axes SpecUncertain Uncertain SpecPrecess Precess ModelSymmetry SymBase ModelThermal SpecThermal ThermalBase ThermalBasis.
Import ListNotations.
Local Open Scope R_scope.

Section Scalar.
  Variables (rt : nat -> CR) (n i j : nat).
  Notation D := (2 ^ n)%nat.
  Hypotheses (R1 : rt 1%nat = k1) (Hi : (i < n)%nat) (Hj : (j < n)%nat) (N : i <> j).
  Notation X := (ent (sx_op rt 1)).
  Notation Y := (ent (sy_op rt 1)).
  Notation Z := (ent (sz_op (K:=CR) 1)).
  Notation pair A psi := (Axes.st n i A (Axes.st n j A psi)).
  Definition exch (psi : nat -> CR) (a : nat) : CR := real (1 / 2) *c psi a +c real 2 *c (pair X psi a +c pair Y psi a +c pair Z psi a).
  Lemma exch_eq psi a : (a < D)%nat -> exch psi a = if (digit 2 n i a =? digit 2 n j a)%nat then psi a else psi (fl n j (fl n i a)).
  Proof using R1 Hi Hj N.
    intros Ha. pose proof (bit2 n i a) as Bi. pose proof (bit2 n j a) as Bj. unfold exch, Axes.st. rewrite !(dg_other n i a j Hj) by congruence.
    destruct (digit 2 n i a) as [|[|p]]; try lia; destruct (digit 2 n j a) as [|[|q]]; try lia; unfold sz_op, sx_op, sy_op, splus_op, sminus_op, mdiag; cbn [ent mscale madd msub Nat.eqb Nat.add Nat.sub Nat.mul]; rewrite ?R1;
    destruct (psi a) as (x1, y1), (psi (fl n j a)) as (x2, y2), (psi (fl n i a)) as (x3, y3), (psi (fl n j (fl n i a))) as (x4, y4); apply injective_projections; cbn; unfold Q2R; cbn; field.
  Qed.
  Lemma exch_exch psi a : (a < D)%nat -> exch (exch psi) a = psi a.
  Proof using R1 Hi Hj N.
    intros Ha. rewrite exch_eq by exact Ha. rewrite exch_eq by exact Ha. destruct (digit 2 n i a =? digit 2 n j a)%nat eqn:E; [reflexivity|].
    rewrite exch_eq by apply fl_lt. rewrite (dg_other n j (fl n i a) i Hi) by congruence. rewrite (dg_same n i a Hi), (dg_same n j (fl n i a) Hj), (dg_other n i a j Hj) by congruence.
    pose proof (bit2 n i a). pose proof (bit2 n j a). apply Nat.eqb_neq in E. rewrite (proj2 (Nat.eqb_neq _ _)) by lia.
    rewrite (fl_comm n i j _ Hi Hj N). f_equal. rewrite (fl_fl n j) by (assumption || apply fl_lt). apply fl_fl; assumption.
  Qed.
  Lemma pair_adj A phi psi : same2 (adj2 A) A -> inner D phi (pair A psi) = inner D (pair A phi) psi.
  Proof using Hi Hj N.
    intros SA. rewrite (inner_st n i) by assumption. rewrite (inner_st n j) by assumption. apply inner_ext; [|reflexivity]. intros a Ha.
    rewrite (st_same n j _ _ _ a SA). rewrite (st_comm n i j A A) by assumption. apply st_ext; [exact Ha|]. intros b Hb. apply st_same, SA.
  Qed.
  Lemma self_X : same2 (adj2 X) X. Proof using R1. clear Hi Hj N. intros r c Hr Hc. destruct r as [|[|r]]; try lia; destruct c as [|[|c]]; try lia; unfold adj2, sx_op, splus_op, sminus_op; cbn [ent mscale madd msub Nat.eqb Nat.add Nat.sub Nat.mul]; rewrite ?R1; apply injective_projections; cbn; unfold Q2R; cbn; field. Qed.
  Lemma self_Y : same2 (adj2 Y) Y. Proof using R1. clear Hi Hj N. intros r c Hr Hc. destruct r as [|[|r]]; try lia; destruct c as [|[|c]]; try lia; unfold adj2, sy_op, splus_op, sminus_op; cbn [ent mscale madd msub Nat.eqb Nat.add Nat.sub Nat.mul]; rewrite ?R1; apply injective_projections; cbn; unfold Q2R; cbn; field. Qed.
  Lemma self_Z : same2 (adj2 Z) Z. Proof using. clear Hi Hj N. intros r c Hr Hc. destruct r as [|[|r]]; try lia; destruct c as [|[|c]]; try lia; unfold adj2, sz_op, mdiag; cbn [ent mscale madd msub Nat.eqb Nat.add Nat.sub Nat.mul]; apply injective_projections; cbn; unfold Q2R; cbn; field. Qed.
  Notation sp phi psi := (inner D phi (pair X psi) +c inner D phi (pair Y psi) +c inner D phi (pair Z psi)).
  Lemma inner_exch phi psi : inner D phi (exch psi) = real (1 / 2) *c inner D phi psi +c real 2 *c sp phi psi.
  Proof using. unfold inner, exch. rewrite <- !ksum_add, <- !ksum_mul_l, <- ksum_add. apply ksum_ext. intros a _. ring. Qed.
  Lemma exch_adj phi psi : inner D phi (exch psi) = inner D (exch phi) psi.
  Proof using R1 Hi Hj N.
    rewrite inner_exch, (pair_adj X _ _ self_X), (pair_adj Y _ _ self_Y), (pair_adj Z _ _ self_Z). unfold exch. rewrite inner_add_l, inner_scale_l, inner_scale_l, !inner_add_l. rewrite !(fun x => eq_refl : conj (real x) = (x, - 0)). unfold real. rewrite Ropp_0. ring.
  Qed.
  Theorem scalar_bounds psi : - (3 / 4) * norm2 D psi <= fst (sp psi psi) <= 1 / 4 * norm2 D psi.
  Proof using R1 Hi Hj N.
    pose proof (norm_ge0 D (fun a => psi a +c exch psi a)) as P. pose proof (norm_ge0 D (fun a => psi a +c real (-1) *c exch psi a)) as M.
    assert (U : inner D (exch psi) (exch psi) = inner D psi psi) by (rewrite exch_adj; apply inner_ext; [intros a Ha; apply exch_exch, Ha | reflexivity]).
    unfold norm2 in P, M |- *. rewrite inner_add_l, !inner_add_r in P. rewrite inner_add_l, !inner_add_r, inner_scale_l, !inner_scale_l, !inner_scale in M.
    rewrite U, <- exch_adj, inner_exch in P. rewrite U, <- exch_adj, inner_exch in M. 
    destruct (sp psi psi) as (u, v). destruct (inner D psi psi) as (p, q). cbn in P, M |- *. lra.
  Qed.
  Theorem scalar_value psi e : (forall a b, (a < D)%nat -> (b < D)%nat -> (forall p, (p < n)%nat -> digit 2 n p b = digit 2 n (if (p =? i)%nat then j else if (p =? j)%nat then i else p) a) -> psi b = real e *c psi a) ->
    fst (sp psi psi) = (e / 2 - 1 / 4) * norm2 D psi.
  Proof using R1 Hi Hj N.
    intros S. assert (X : inner D psi (exch psi) = real e *c inner D psi psi).
    { rewrite <- inner_scale. apply inner_ext; [reflexivity|]. intros a Ha. rewrite exch_eq by exact Ha. pose proof (bit2 n i a) as Bi. pose proof (bit2 n j a) as Bj. destruct (digit 2 n i a =? digit 2 n j a)%nat eqn:E.
      - apply Nat.eqb_eq in E. apply S; [exact Ha | exact Ha|]. intros p Hp. destruct (Nat.eqb_spec p i) as [->|]; [exact E|]. destruct (Nat.eqb_spec p j) as [->|]; [symmetry; exact E | reflexivity].
      - apply Nat.eqb_neq in E. apply S; [exact Ha | apply fl_lt|]. intros p Hp. destruct (Nat.eqb_spec p i) as [->|NI]; [|destruct (Nat.eqb_spec p j) as [->|NJ]].
        + rewrite (dg_other n j _ i Hi) by congruence. rewrite dg_same by exact Hi. lia.
        + rewrite dg_same, (dg_other n i a j Hj) by (exact Hj || congruence). lia.
        + rewrite !dg_other by assumption. reflexivity. }
    rewrite inner_exch in X. apply (f_equal fst) in X. unfold norm2. destruct (sp psi psi) as (u, v). destruct (inner D psi psi) as (p, q). cbn in X |- *. lra.
  Qed.
End Scalar.

Lemma scalar_expect rt (s : spins CR) i j (X Y Z : mat CR) st vx vy vz k : sp_two s = 1%nat -> (i < sg_nsites (sp_geom s))%nat -> (j < sg_nsites (sp_geom s))%nat -> i <> j ->
  two_site_op (sp_sys s) i 0 j 0 (sx_op rt 1) (sx_op rt 1) Boson = Ok X -> two_site_op (sp_sys s) i 0 j 0 (sy_op rt 1) (sy_op rt 1) Boson = Ok Y -> two_site_op (sp_sys s) i 0 j 0 (sz_op 1) (sz_op 1) Boson = Ok Z ->
  nrow (as_columns st) = (2 ^ sg_nsites (sp_geom s))%nat -> (k < ncol (as_columns st))%nat -> exp_vals st X = Ok vx -> exp_vals st Y = Ok vy -> exp_vals st Z = Ok vz ->
  let n := sg_nsites (sp_geom s) in let psi := col (as_columns st) k in
  nth k vx 0 + nth k vy 0 + nth k vz 0 = fst (inner (2 ^ n) psi (Axes.st n i (ent (sx_op rt 1)) (Axes.st n j (ent (sx_op rt 1)) psi)) +c inner (2 ^ n) psi (Axes.st n i (ent (sy_op rt 1)) (Axes.st n j (ent (sy_op rt 1)) psi)) +c inner (2 ^ n) psi (Axes.st n i (ent (sz_op 1)) (Axes.st n j (ent (sz_op 1)) psi))).
Proof.
  intros half Hi Hj N. rewrite sp_sys_dsys, half. change (1 + 1)%nat with 2%nat. intros EX EY EZ NS Hk VX VY VZ. cbv zeta. set (n := sg_nsites (sp_geom s)) in *. set (psi := col (as_columns st) k).
  assert (OP : forall A M v, square 2 A -> two_site_op (dsys 2 n) i 0 j 0 A A Boson = Ok M -> exp_vals st M = Ok v -> nth k v 0 = fst (inner (2 ^ n) psi (Axes.st n i (ent A) (Axes.st n j (ent A) psi)))).
  { intros A M v SA E V. destruct (two_elem 2 ltac:(lia) n i j A A SA SA Hi Hj N) as (M' & E' & (S1 & S2) & W). rewrite E in E'. injection E' as <-.
    rewrite exp_vals_of in V by congruence. assert (V' := f_equal (fun x => match x with Ok y => y | Raise _ => [] end) V). cbv beta iota in V'. rewrite <- V'. rewrite Precess.map_seq_nth by exact Hk. rewrite S1. unfold expect. f_equal. apply inner_ext; [reflexivity|]. intros a Ha.
    rewrite <- (pair_acts n i j (ent A) (ent A) psi a Hi Hj N Ha). unfold apply. apply ksum_ext. intros b Hb. rewrite (W a b Ha Hb). reflexivity. }
  rewrite (OP (sx_op rt 1) X vx ltac:(split; reflexivity) EX VX), (OP (sy_op rt 1) Y vy ltac:(split; reflexivity) EY VY), (OP (sz_op 1) Z vz ltac:(split; reflexivity) EZ VZ). reflexivity.
Qed.
Theorem spin_scalar rt (s : spins CR) i j (X Y Z : mat CR) st vx vy vz k : rt 1%nat = k1 -> sp_two s = 1%nat -> (i < sg_nsites (sp_geom s))%nat -> (j < sg_nsites (sp_geom s))%nat -> i <> j ->
  two_site_op (sp_sys s) i 0 j 0 (sx_op rt 1) (sx_op rt 1) Boson = Ok X -> two_site_op (sp_sys s) i 0 j 0 (sy_op rt 1) (sy_op rt 1) Boson = Ok Y -> two_site_op (sp_sys s) i 0 j 0 (sz_op 1) (sz_op 1) Boson = Ok Z ->
  nrow (as_columns st) = (2 ^ sg_nsites (sp_geom s))%nat -> (k < ncol (as_columns st))%nat -> exp_vals st X = Ok vx -> exp_vals st Y = Ok vy -> exp_vals st Z = Ok vz ->
  - (3 / 4) * norm2 (2 ^ sg_nsites (sp_geom s)) (col (as_columns st) k) <= nth k vx 0 + nth k vy 0 + nth k vz 0 <= 1 / 4 * norm2 (2 ^ sg_nsites (sp_geom s)) (col (as_columns st) k).
Proof. intros R1 half Hi Hj N EX EY EZ NS Hk VX VY VZ. rewrite (scalar_expect rt s i j X Y Z st vx vy vz k) by assumption. apply scalar_bounds; assumption. Qed.
Theorem spin_scalar_value rt (s : spins CR) i j (X Y Z : mat CR) st vx vy vz k e : rt 1%nat = k1 -> sp_two s = 1%nat -> (i < sg_nsites (sp_geom s))%nat -> (j < sg_nsites (sp_geom s))%nat -> i <> j ->
  two_site_op (sp_sys s) i 0 j 0 (sx_op rt 1) (sx_op rt 1) Boson = Ok X -> two_site_op (sp_sys s) i 0 j 0 (sy_op rt 1) (sy_op rt 1) Boson = Ok Y -> two_site_op (sp_sys s) i 0 j 0 (sz_op 1) (sz_op 1) Boson = Ok Z ->
  nrow (as_columns st) = (2 ^ sg_nsites (sp_geom s))%nat -> (k < ncol (as_columns st))%nat -> exp_vals st X = Ok vx -> exp_vals st Y = Ok vy -> exp_vals st Z = Ok vz ->
  (forall a b, (a < 2 ^ sg_nsites (sp_geom s))%nat -> (b < 2 ^ sg_nsites (sp_geom s))%nat ->
    (forall p, (p < sg_nsites (sp_geom s))%nat -> digit 2 (sg_nsites (sp_geom s)) p b = digit 2 (sg_nsites (sp_geom s)) (if (p =? i)%nat then j else if (p =? j)%nat then i else p) a) ->
    ent (as_columns st) b k = real e *c ent (as_columns st) a k) ->
  nth k vx 0 + nth k vy 0 + nth k vz 0 = (e / 2 - 1 / 4) * norm2 (2 ^ sg_nsites (sp_geom s)) (col (as_columns st) k).
Proof. intros R1 half Hi Hj N EX EY EZ NS Hk VX VY VZ S. rewrite (scalar_expect rt s i j X Y Z st vx vy vz k) by assumption. apply scalar_value; assumption. Qed.
