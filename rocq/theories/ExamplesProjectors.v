(** Concrete cases that meet the hypotheses of C189. *)
From Coq Require Import List Arith Lia Reals Lra QArith ZArith Bool.
From Verif Require Import Scalars Res Matrix SpecMat ModelBase ModelFermions ModelSpins Precess ModelGeometry ModelPhase ModelSymmetry ModelThermal SpecThermal SymBase SpecParts PropertiesParts ExamplesParts ModelProjectors PropertiesProjectors.
Import ListNotations.
Local Open Scope R_scope.

(** The last of three spins: the four projectors are measured in any states. *)
Example ex_projectors : forall st, nrow (as_columns st) = 8%nat -> exists Nr Ng Np Nm vr vg vp vm,
  single_site_op (sp_sys (trio 1)) 2 0 nr_op Boson = Ok Nr /\ single_site_op (sp_sys (trio 1)) 2 0 ng_op Boson = Ok Ng /\ single_site_op (sp_sys (trio 1)) 2 0 nplus_op Boson = Ok Np /\ single_site_op (sp_sys (trio 1)) 2 0 nminus_op Boson = Ok Nm /\
  exp_vals st Nr = Ok vr /\ exp_vals st Ng = Ok vg /\ exp_vals st Np = Ok vp /\ exp_vals st Nm = Ok vm /\
  forall k, (k < ncol (as_columns st))%nat -> nth k vr 0 + nth k vg 0 = fst (inner 8 (col (as_columns st) k) (col (as_columns st) k)) /\ nth k vp 0 + nth k vm 0 = fst (inner 8 (col (as_columns st) k) (col (as_columns st) k)).
Proof.
  intros st NS.
  assert (OP : forall A, square 2 A -> exists M v, single_site_op (sp_sys (trio 1)) 2 0 A Boson = Ok M /\ exp_vals st M = Ok v).
  { intros A SA. destruct (C188_operators (trio 1) (fun _ => true) 2 1 A A eq_refl ltac:(cbn; lia) ltac:(cbn; lia) ltac:(lia) eq_refl eq_refl SA SA) as (M & _ & E & (S1 & S2) & _). exists M. change (nrow M = 8%nat) in S1; change (ncol M = 8%nat) in S2. rewrite exp_vals_of by (rewrite NS; assumption). eexists. split; [exact E | reflexivity]. }
  destruct (OP nr_op ltac:(split; reflexivity)) as (Nr & vr & E1 & V1). destruct (OP ng_op ltac:(split; reflexivity)) as (Ng & vg & E2 & V2). destruct (OP nplus_op ltac:(split; reflexivity)) as (Np & vp & E3 & V3).
  destruct (OP nminus_op ltac:(split; reflexivity)) as (Nm & vm & E4 & V4). destruct (OP (sx_op root 1) ltac:(split; reflexivity)) as (X & vx & E5 & V5). destruct (OP (sz_op 1) ltac:(split; reflexivity)) as (Z & vz & E6 & V6).
  exists Nr, Ng, Np, Nm, vr, vg, vp, vm. do 8 (split; [assumption|]). intros k Hk.
  destruct (C189_projectors root (trio 1) 2%nat Nr Ng Np Nm X Z st vr vg vp vm vx vz k root_1 eq_refl ltac:(cbn; lia) E1 E2 E3 E4 E5 E6 NS Hk V1 V2 V3 V4 V5 V6) as (A & B & C & D).
  cbn [trio sp_geom sg_nsites] in A, B, C, D. change (2 ^ 3)%nat with 8%nat in A, B, C, D. lra.
Qed.
(** Exchanging up-down gives down-up. *)
Example ex_exchange : ent (swap_pair_op (K:=CR)) 1 2 = c1 /\ ent (swap_pair_op (K:=CR)) 1 1 = c0.
Proof. split; [apply (proj1 (C189_exchange root 0 1 1 0 root_1 ltac:(lia) ltac:(lia) ltac:(lia) ltac:(lia))) | apply (proj1 (C189_exchange root 0 0 1 1 root_1 ltac:(lia) ltac:(lia) ltac:(lia) ltac:(lia)))]. Qed.
