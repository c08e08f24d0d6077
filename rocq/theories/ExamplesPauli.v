(** Concrete cases that meet the hypotheses of C190. *)
From Coq Require Import List Arith Lia Reals Lra QArith ZArith Bool.
From Verif Require Import Scalars Res Matrix SpecMat ModelBase ModelFermions ModelSpins ModelGeometry ModelPhase ModelSymmetry SymBase ModelThermal SpecThermal ThermalBase SpecParts PropertiesParts ExamplesParts PropertiesPauli.
Import ListNotations.
Local Open Scope R_scope.

(** The y components of the first of three spins. *)
Example ex_pauli : exists Y SY, single_site_op (sp_sys (trio 1)) 0 0 pauli_y Boson = Ok Y /\ single_site_op (sp_sys (trio 1)) 0 0 (sy_op root 1) Boson = Ok SY /\ ent Y 0 4 = real (-2) *c ent SY 0 4.
Proof.
  assert (OP : forall A, square 2 A -> exists M, single_site_op (sp_sys (trio 1)) 0 0 A Boson = Ok M).
  { intros A SA. destruct (C188_operators (trio 1) (fun _ => true) 0 1 A A eq_refl ltac:(cbn; lia) ltac:(cbn; lia) ltac:(lia) eq_refl eq_refl SA SA) as (M & _ & E & _). exists M. exact E. }
  destruct (OP pauli_x ltac:(split; reflexivity)) as (X & E1). destruct (OP pauli_y ltac:(split; reflexivity)) as (Y & E2). destruct (OP pauli_z ltac:(split; reflexivity)) as (Z & E3).
  destruct (OP (sx_op root 1) ltac:(split; reflexivity)) as (X' & E4). destruct (OP (sy_op root 1) ltac:(split; reflexivity)) as (Y' & E5). destruct (OP (sz_op 1) ltac:(split; reflexivity)) as (Z' & E6).
  exists Y, Y'. split; [exact E2|]. split; [exact E5|]. destruct (C190_halves_partial root (trio 1) 0%nat X Y Z X' Y' Z' root_1 eq_refl ltac:(cbn; lia) E1 E2 E3 E4 E5 E6 0%nat 4%nat ltac:(change (0 < 8)%nat; lia) ltac:(change (4 < 8)%nat; lia)) as (_ & W & _). exact W.
Qed.
