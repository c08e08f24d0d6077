(** Property theorems C189: projectors on states of one spin.  Theorems only. *)
From Coq Require Import List Arith Reals QArith Bool.
From Verif Require Import Scalars Res Matrix ModelBase ModelFermions ModelSpins ModelGeometry ModelPhase ModelSymmetry ModelThermal SpecThermal SymBase ModelProjectors Projectors.
Import ListNotations.
Local Open Scope R_scope.

(** C189. *)
Theorem C189_projectors : forall rt (s : spins CR) i (Nr Ng Np Nm X Z : mat CR) st vr vg vp vm vx vz k, rt 1%nat = k1 -> sp_two s = 1%nat -> (i < sg_nsites (sp_geom s))%nat ->
  single_site_op (sp_sys s) i 0 nr_op Boson = Ok Nr -> single_site_op (sp_sys s) i 0 ng_op Boson = Ok Ng -> single_site_op (sp_sys s) i 0 nplus_op Boson = Ok Np -> single_site_op (sp_sys s) i 0 nminus_op Boson = Ok Nm ->
  single_site_op (sp_sys s) i 0 (sx_op rt 1) Boson = Ok X -> single_site_op (sp_sys s) i 0 (sz_op 1) Boson = Ok Z ->
  nrow (as_columns st) = (2 ^ sg_nsites (sp_geom s))%nat -> (k < ncol (as_columns st))%nat ->
  exp_vals st Nr = Ok vr -> exp_vals st Ng = Ok vg -> exp_vals st Np = Ok vp -> exp_vals st Nm = Ok vm -> exp_vals st X = Ok vx -> exp_vals st Z = Ok vz ->
  let norm := fst (inner (2 ^ sg_nsites (sp_geom s)) (col (as_columns st) k) (col (as_columns st) k)) in
  nth k vr 0 = norm / 2 + nth k vz 0 /\ nth k vg 0 = norm / 2 - nth k vz 0 /\ nth k vp 0 = norm / 2 + nth k vx 0 /\ nth k vm 0 = norm / 2 - nth k vx 0.
Proof. exact projectors. Qed.
Print Assumptions C189_projectors.
(** The exchange of two spins, and its expression by the spin operators. *)
Theorem C189_exchange : forall rt r c r' c', rt 1%nat = @k1 CR _ -> (r < 2)%nat -> (c < 2)%nat -> (r' < 2)%nat -> (c' < 2)%nat ->
  ent swap_pair_op (2 * r + r')%nat (2 * c + c')%nat = (if ((r =? c') && (r' =? c))%nat then c1 else c0) /\
  ent swap_pair_op (2 * r + r')%nat (2 * c + c')%nat = (if ((r =? c) && (r' =? c'))%nat then real (1 / 2) else c0) +c
    real 2 *c (ent (sx_op rt 1) r c *c ent (sx_op rt 1) r' c' +c ent (sy_op rt 1) r c *c ent (sy_op rt 1) r' c' +c ent (sz_op 1) r c *c ent (sz_op 1) r' c').
Proof. exact swap_pair. Qed.
Print Assumptions C189_exchange.
