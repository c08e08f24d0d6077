(** Property theorem C191: the three components of one spin 1/2.  Theorems only. *)
From Coq Require Import List Arith Reals QArith Bool.
From Verif Require Import Scalars Res Matrix ModelBase ModelFermions ModelSpins ModelGeometry ModelPhase ModelSymmetry SymBase ModelThermal SpecThermal SpecUncertain Ball BallOne.
Import ListNotations.
Local Open Scope R_scope.

(** C191. *)
Theorem C191_ball : forall rt (s : spins CR) i (X Y Z : mat CR) st vx vy vz k, rt 1%nat = k1 -> sp_two s = 1%nat -> (i < sg_nsites (sp_geom s))%nat ->
  single_site_op (sp_sys s) i 0 (sx_op rt 1) Boson = Ok X -> single_site_op (sp_sys s) i 0 (sy_op rt 1) Boson = Ok Y -> single_site_op (sp_sys s) i 0 (sz_op 1) Boson = Ok Z ->
  nrow (as_columns st) = (2 ^ sg_nsites (sp_geom s))%nat -> (k < ncol (as_columns st))%nat -> exp_vals st X = Ok vx -> exp_vals st Y = Ok vy -> exp_vals st Z = Ok vz ->
  nth k vx 0 ^ 2 + nth k vy 0 ^ 2 + nth k vz 0 ^ 2 <= (norm2 (2 ^ sg_nsites (sp_geom s)) (col (as_columns st) k) / 2) ^ 2.
Proof. exact spin_ball. Qed.
Print Assumptions C191_ball.
(** A single spin is on the surface, so the bound cannot be improved. *)
Theorem C191_single : forall rt (s : spins CR) (X Y Z : mat CR) st vx vy vz k, rt 1%nat = k1 -> sp_two s = 1%nat -> sg_nsites (sp_geom s) = 1%nat ->
  single_site_op (sp_sys s) 0 0 (sx_op rt 1) Boson = Ok X -> single_site_op (sp_sys s) 0 0 (sy_op rt 1) Boson = Ok Y -> single_site_op (sp_sys s) 0 0 (sz_op 1) Boson = Ok Z ->
  nrow (as_columns st) = 2%nat -> (k < ncol (as_columns st))%nat -> exp_vals st X = Ok vx -> exp_vals st Y = Ok vy -> exp_vals st Z = Ok vz ->
  nth k vx 0 ^ 2 + nth k vy 0 ^ 2 + nth k vz 0 ^ 2 = (norm2 2 (col (as_columns st) k) / 2) ^ 2.
Proof. exact spin_surface. Qed.
Print Assumptions C191_single.
