(** Property theorems C190: the Pauli matrices and the spin operators.  Theorems only. *)
From Coq Require Import List Arith Reals QArith Bool.
From Verif Require Import Scalars Res Matrix ModelBase ModelFermions ModelSpins ModelGeometry ModelPhase ModelSymmetry SymBase ModelThermal SpecThermal ThermalBase Pauli.
Import ListNotations.
Local Open Scope R_scope.

(** C190 asks for spin operators of spin 1/2 that are half of the Pauli matrices.  The y component has the opposite sign. *)
Theorem C190_halves_refuted : forall rt, rt 1%nat = @k1 CR _ -> exists r c, (r < 2)%nat /\ (c < 2)%nat /\ ent pauli_y r c <> real 2 *c ent (sy_op rt 1) r c.
Proof. exact pauli_y_wrong. Qed.
Print Assumptions C190_halves_refuted.
(** What holds on every site: the factor is 2 for x and z, and -2 for y. *)
Theorem C190_halves_partial : forall rt (s : spins CR) i (X Y Z SX SY SZ : mat CR), rt 1%nat = k1 -> sp_two s = 1%nat -> (i < sg_nsites (sp_geom s))%nat ->
  single_site_op (sp_sys s) i 0 pauli_x Boson = Ok X -> single_site_op (sp_sys s) i 0 pauli_y Boson = Ok Y -> single_site_op (sp_sys s) i 0 pauli_z Boson = Ok Z ->
  single_site_op (sp_sys s) i 0 (sx_op rt 1) Boson = Ok SX -> single_site_op (sp_sys s) i 0 (sy_op rt 1) Boson = Ok SY -> single_site_op (sp_sys s) i 0 (sz_op 1) Boson = Ok SZ ->
  forall a b, (a < 2 ^ sg_nsites (sp_geom s))%nat -> (b < 2 ^ sg_nsites (sp_geom s))%nat -> ent X a b = real 2 *c ent SX a b /\ ent Y a b = real (-2) *c ent SY a b /\ ent Z a b = real 2 *c ent SZ a b.
Proof. exact pauli_sites. Qed.
Print Assumptions C190_halves_partial.
(** The Pauli matrices themselves have the usual algebra. *)
Theorem C190_algebra_partial : forall r c, (r < 2)%nat -> (c < 2)%nat ->
  ent (mmul pauli_x pauli_y) r c = (0, 1) *c ent pauli_z r c /\ ent (mmul pauli_y pauli_z) r c = (0, 1) *c ent pauli_x r c /\ ent (mmul pauli_z pauli_x) r c = (0, 1) *c ent pauli_y r c /\
  ent (mmul pauli_x pauli_x) r c = ent (meye (K:=CR) 2) r c /\ ent (mmul pauli_y pauli_y) r c = ent (meye (K:=CR) 2) r c /\ ent (mmul pauli_z pauli_z) r c = ent (meye (K:=CR) 2) r c /\
  ent pauli_x r c = ent pauli_plus r c +c ent pauli_minus r c /\ (0, 1) *c ent pauli_y r c = ksub (ent pauli_plus r c) (ent pauli_minus r c).
Proof. exact pauli_algebra. Qed.
Print Assumptions C190_algebra_partial.
