(** Concrete cases that meet the hypotheses of C192. *)
From Coq Require Import List Arith Lia Reals Lra QArith ZArith Bool.
From Verif Require Import Scalars Res Matrix SpecMat SpecSpins ModelBase ModelFermions ModelSpins Precess ModelGeometry ModelPhase ModelSymmetry SymBase ModelThermal SpecThermal SpecUncertain SpecParts PropertiesParts ExamplesParts PropertiesScalar.
Import ListNotations.
Local Open Scope R_scope.

Lemma pair_known st i j A : nrow (as_columns st) = 8%nat -> (i < 3)%nat -> (j < 3)%nat -> i <> j -> square 2 A -> exists M v, two_site_op (sp_sys (trio 1)) i 0 j 0 A A Boson = Ok M /\ exp_vals st M = Ok v.
Proof.
  intros NS Hi Hj N SA. destruct (C188_operators (trio 1) (fun _ => true) i j A A eq_refl Hi Hj N eq_refl eq_refl SA SA) as (_ & M & _ & _ & _ & E & (S1 & S2) & _).
  exists M. change (nrow M = 8%nat) in S1; change (ncol M = 8%nat) in S2. rewrite exp_vals_of by (rewrite NS; assumption). eexists. split; [exact E | reflexivity].
Qed.
(** Any two of three spins in any normalised state. *)
Example ex_scalar : forall st i j k, nrow (as_columns st) = 8%nat -> (i < 3)%nat -> (j < 3)%nat -> i <> j -> (k < ncol (as_columns st))%nat -> norm2 8 (col (as_columns st) k) = 1 ->
  exists X Y Z vx vy vz, two_site_op (sp_sys (trio 1)) i 0 j 0 (sx_op root 1) (sx_op root 1) Boson = Ok X /\ two_site_op (sp_sys (trio 1)) i 0 j 0 (sy_op root 1) (sy_op root 1) Boson = Ok Y /\ two_site_op (sp_sys (trio 1)) i 0 j 0 (sz_op 1) (sz_op 1) Boson = Ok Z /\
    exp_vals st X = Ok vx /\ exp_vals st Y = Ok vy /\ exp_vals st Z = Ok vz /\ - (3 / 4) <= nth k vx 0 + nth k vy 0 + nth k vz 0 <= 1 / 4.
Proof.
  intros st i j k NS Hi Hj N Hk U.
  destruct (pair_known st i j (sx_op root 1) NS Hi Hj N ltac:(split; reflexivity)) as (X & vx & E1 & V1). destruct (pair_known st i j (sy_op root 1) NS Hi Hj N ltac:(split; reflexivity)) as (Y & vy & E2 & V2). destruct (pair_known st i j (sz_op 1) NS Hi Hj N ltac:(split; reflexivity)) as (Z & vz & E3 & V3).
  exists X, Y, Z, vx, vy, vz. do 6 (split; [assumption|]).
  pose proof (C192_bounds root (trio 1) i j X Y Z st vx vy vz k root_1 eq_refl Hi Hj N E1 E2 E3 NS Hk V1 V2 V3) as B. change (2 ^ sg_nsites (sp_geom (trio 1)))%nat with 8%nat in B. rewrite U in B. lra.
Qed.
(** The singlet of spins 0 and 1, beside spin 2 up: squared norm 2, scalar product -3/2. *)
Definition singlet : states := Columns (Mat 8 1 (fun a _ => if (a =? 2)%nat then c1 else if (a =? 4)%nat then real (-1) else c0)).
Example ex_singlet : exists X Y Z vx vy vz, two_site_op (sp_sys (trio 1)) 0 0 1 0 (sx_op root 1) (sx_op root 1) Boson = Ok X /\ two_site_op (sp_sys (trio 1)) 0 0 1 0 (sy_op root 1) (sy_op root 1) Boson = Ok Y /\ two_site_op (sp_sys (trio 1)) 0 0 1 0 (sz_op 1) (sz_op 1) Boson = Ok Z /\
    exp_vals singlet X = Ok vx /\ exp_vals singlet Y = Ok vy /\ exp_vals singlet Z = Ok vz /\ nth 0 vx 0 + nth 0 vy 0 + nth 0 vz 0 = - (3 / 2).
Proof.
  assert (Hi : (0 < 3)%nat) by lia. assert (Hj : (1 < 3)%nat) by lia. assert (N : 0%nat <> 1%nat) by lia.
  destruct (pair_known singlet 0 1 (sx_op root 1) eq_refl Hi Hj N ltac:(split; reflexivity)) as (X & vx & E1 & V1). destruct (pair_known singlet 0 1 (sy_op root 1) eq_refl Hi Hj N ltac:(split; reflexivity)) as (Y & vy & E2 & V2). destruct (pair_known singlet 0 1 (sz_op 1) eq_refl Hi Hj N ltac:(split; reflexivity)) as (Z & vz & E3 & V3).
  exists X, Y, Z, vx, vy, vz. do 6 (split; [assumption|]).
  rewrite (C192_values root (trio 1) 0 1 X Y Z singlet vx vy vz 0 (-1) root_1 eq_refl Hi Hj N E1 E2 E3 eq_refl ltac:(cbn; lia) V1 V2 V3).
  - change (2 ^ sg_nsites (sp_geom (trio 1)))%nat with 8%nat. unfold norm2, inner. cbn. lra.
  - intros a b Ha Hb G. change (a < 8)%nat in Ha. change (b < 8)%nat in Hb. pose proof (G 0%nat Hi) as G0. pose proof (G 1%nat Hj) as G1. pose proof (G 2%nat ltac:(cbn; lia)) as G2. clear G. change (sg_nsites (sp_geom (trio 1))) with 3%nat in *. cbn [Nat.eqb] in G0, G1, G2. unfold digit in G0, G1, G2.
    do 8 (destruct a as [|a]; [do 8 (destruct b as [|b]; [cbn in G0, G1, G2; try discriminate; apply injective_projections; cbn; ring|]); lia|]). lia.
Qed.
