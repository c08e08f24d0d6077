(** Concrete cases that meet the hypotheses of C191. *)
From Coq Require Import List Arith Lia Reals Lra QArith ZArith Bool.
From Verif Require Import Scalars Res Matrix SpecMat ModelBase ModelFermions ModelSpins SpinOps SpinHam Precess ModelGeometry ModelPhase ModelSymmetry SymBase ModelThermal SpecThermal SpecUncertain SpecParts PropertiesParts ExamplesParts PropertiesBall.
Import ListNotations.
Local Open Scope R_scope.

(** Any spin of three: no component is larger than one half in a normalised state. *)
Example ex_ball : forall st i k, nrow (as_columns st) = 8%nat -> (i < 3)%nat -> (k < ncol (as_columns st))%nat -> norm2 8 (col (as_columns st) k) = 1 ->
  exists X Y Z vx vy vz, single_site_op (sp_sys (trio 1)) i 0 (sx_op root 1) Boson = Ok X /\ single_site_op (sp_sys (trio 1)) i 0 (sy_op root 1) Boson = Ok Y /\ single_site_op (sp_sys (trio 1)) i 0 (sz_op 1) Boson = Ok Z /\
    exp_vals st X = Ok vx /\ exp_vals st Y = Ok vy /\ exp_vals st Z = Ok vz /\ nth k vx 0 ^ 2 + nth k vy 0 ^ 2 + nth k vz 0 ^ 2 <= 1 / 4 /\ Rabs (nth k vz 0) <= 1 / 2.
Proof.
  intros st i k NS Hi Hk U.
  assert (OP : forall A, square 2 A -> exists M v, single_site_op (sp_sys (trio 1)) i 0 A Boson = Ok M /\ exp_vals st M = Ok v).
  { intros A SA. destruct (C188_operators (trio 1) (fun _ => true) i (if (i =? 0)%nat then 1 else 0) A A eq_refl ltac:(cbn; lia) ltac:(cbn; destruct (i =? 0)%nat; lia) ltac:(destruct (Nat.eqb_spec i 0); lia) eq_refl eq_refl SA SA) as (M & _ & E & (S1 & S2) & _).
    exists M. change (nrow M = 8%nat) in S1; change (ncol M = 8%nat) in S2. rewrite exp_vals_of by (rewrite NS; assumption). eexists. split; [exact E | reflexivity]. }
  destruct (OP (sx_op root 1) ltac:(split; reflexivity)) as (X & vx & E1 & V1). destruct (OP (sy_op root 1) ltac:(split; reflexivity)) as (Y & vy & E2 & V2). destruct (OP (sz_op 1) ltac:(split; reflexivity)) as (Z & vz & E3 & V3).
  exists X, Y, Z, vx, vy, vz. do 6 (split; [assumption|]).
  pose proof (C191_ball root (trio 1) i X Y Z st vx vy vz k root_1 eq_refl Hi E1 E2 E3 NS Hk V1 V2 V3) as B. change (2 ^ sg_nsites (sp_geom (trio 1)))%nat with 8%nat in B. rewrite U in B.
  split; [lra|]. rewrite <- (Rabs_right (1 / 2)) by lra. apply Rsqr_le_abs_0. unfold Rsqr. cbn [pow] in B. nra.
Qed.
(** One spin in a field. *)
Definition lone : spins CR := Spins (SGeom 1 (fun _ _ => false) (fun _ _ => c1)) 1 (fun _ _ => c0) (fun _ _ => c0) (fun _ _ => c0) (fun _ => c1) (fun _ => c0) (fun _ => c0).
Example ex_single : forall st k, nrow (as_columns st) = 2%nat -> (k < ncol (as_columns st))%nat -> norm2 2 (col (as_columns st) k) = 1 ->
  exists X Y Z vx vy vz, single_site_op (sp_sys lone) 0 0 (sx_op root 1) Boson = Ok X /\ single_site_op (sp_sys lone) 0 0 (sy_op root 1) Boson = Ok Y /\ single_site_op (sp_sys lone) 0 0 (sz_op 1) Boson = Ok Z /\
    exp_vals st X = Ok vx /\ exp_vals st Y = Ok vy /\ exp_vals st Z = Ok vz /\ nth k vx 0 ^ 2 + nth k vy 0 ^ 2 + nth k vz 0 ^ 2 = 1 / 4.
Proof.
  intros st k NS Hk U.
  assert (OP : forall A, square 2 A -> exists M v, single_site_op (sp_sys lone) 0 0 A Boson = Ok M /\ exp_vals st M = Ok v).
  { intros A SA. destruct (single_elem 2 ltac:(lia) 1 0 A SA ltac:(lia) (or_introl eq_refl)) as (M & E & (S1 & S2) & _). exists M. change (nrow M = 2%nat) in S1; change (ncol M = 2%nat) in S2.
    rewrite exp_vals_of by (rewrite NS; assumption). eexists. split; [rewrite sp_sys_dsys; exact E | reflexivity]. }
  destruct (OP (sx_op root 1) ltac:(split; reflexivity)) as (X & vx & E1 & V1). destruct (OP (sy_op root 1) ltac:(split; reflexivity)) as (Y & vy & E2 & V2). destruct (OP (sz_op 1) ltac:(split; reflexivity)) as (Z & vz & E3 & V3).
  exists X, Y, Z, vx, vy, vz. do 6 (split; [assumption|]).
  pose proof (C191_single root lone X Y Z st vx vy vz k root_1 eq_refl eq_refl E1 E2 E3 NS Hk V1 V2 V3) as B. rewrite U in B. lra.
Qed.
