(** Property theorems C192: the scalar product of two spins 1/2.  Theorems only. *)
From Coq Require Import List Arith Reals QArith Bool.
From Verif Require Import Scalars Res Matrix SpecSpins ModelBase ModelFermions ModelSpins ModelGeometry ModelPhase ModelSymmetry SymBase ModelThermal SpecThermal SpecUncertain Scalar.
Import ListNotations.
Local Open Scope R_scope.

(** C192. *)
Theorem C192_bounds : forall rt (s : spins CR) i j (X Y Z : mat CR) st vx vy vz k, rt 1%nat = k1 -> sp_two s = 1%nat -> (i < sg_nsites (sp_geom s))%nat -> (j < sg_nsites (sp_geom s))%nat -> i <> j ->
  two_site_op (sp_sys s) i 0 j 0 (sx_op rt 1) (sx_op rt 1) Boson = Ok X -> two_site_op (sp_sys s) i 0 j 0 (sy_op rt 1) (sy_op rt 1) Boson = Ok Y -> two_site_op (sp_sys s) i 0 j 0 (sz_op 1) (sz_op 1) Boson = Ok Z ->
  nrow (as_columns st) = (2 ^ sg_nsites (sp_geom s))%nat -> (k < ncol (as_columns st))%nat -> exp_vals st X = Ok vx -> exp_vals st Y = Ok vy -> exp_vals st Z = Ok vz ->
  - (3 / 4) * norm2 (2 ^ sg_nsites (sp_geom s)) (col (as_columns st) k) <= nth k vx 0 + nth k vy 0 + nth k vz 0 <= 1 / 4 * norm2 (2 ^ sg_nsites (sp_geom s)) (col (as_columns st) k).
Proof. exact spin_scalar. Qed.
Print Assumptions C192_bounds.
(** States that keep ([e = 1]) or change ([e = -1]) their sign when the two spins are exchanged reach the bounds. *)
Theorem C192_values : forall rt (s : spins CR) i j (X Y Z : mat CR) st vx vy vz k e, rt 1%nat = k1 -> sp_two s = 1%nat -> (i < sg_nsites (sp_geom s))%nat -> (j < sg_nsites (sp_geom s))%nat -> i <> j ->
  two_site_op (sp_sys s) i 0 j 0 (sx_op rt 1) (sx_op rt 1) Boson = Ok X -> two_site_op (sp_sys s) i 0 j 0 (sy_op rt 1) (sy_op rt 1) Boson = Ok Y -> two_site_op (sp_sys s) i 0 j 0 (sz_op 1) (sz_op 1) Boson = Ok Z ->
  nrow (as_columns st) = (2 ^ sg_nsites (sp_geom s))%nat -> (k < ncol (as_columns st))%nat -> exp_vals st X = Ok vx -> exp_vals st Y = Ok vy -> exp_vals st Z = Ok vz ->
  (forall a b, (a < 2 ^ sg_nsites (sp_geom s))%nat -> (b < 2 ^ sg_nsites (sp_geom s))%nat ->
    (forall p, (p < sg_nsites (sp_geom s))%nat -> digit 2 (sg_nsites (sp_geom s)) p b = digit 2 (sg_nsites (sp_geom s)) (if (p =? i)%nat then j else if (p =? j)%nat then i else p) a) ->
    ent (as_columns st) b k = real e *c ent (as_columns st) a k) ->
  nth k vx 0 + nth k vy 0 + nth k vz 0 = (e / 2 - 1 / 4) * norm2 (2 ^ sg_nsites (sp_geom s)) (col (as_columns st) k).
Proof. exact spin_scalar_value. Qed.
Print Assumptions C192_values.
