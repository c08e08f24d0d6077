(** Concrete cases that meet the hypotheses of C185. *)
From Coq Require Import List Arith Lia Reals Lra QArith ZArith Bool.
From Verif Require Import Scalars Res Matrix SpecMat ModelBase ModelFermions ModelSpins SpecConvex ExamplesConvex ExamplesSigns ModelGeometry ModelPhase ModelSymmetry ModelThermal SpecThermal SymBase SpecBloch PropertiesBloch.
Import ListNotations.
Local Open Scope R_scope.

(** Two coupled spins in fields [h]: the first one moves in its field and next to the second. *)
Example ex_bloch : forall h st, (0 < ncol (as_columns st))%nat -> exists H V E BX BY BZ BYX BXY, sp_createH root (with_fields spin_pair h) None = Ok H /\ eigenbasis H V E /\
  exists z z', (forall t, derivable_pt_lim z t (z' t)) /\
    forall times Ms vx vy vz vyx vxy, quench st V E times = Ok Ms -> exp_vals (Columns (nth 0 Ms (mzero 0 0))) BX = Ok vx -> exp_vals (Columns (nth 0 Ms (mzero 0 0))) BY = Ok vy -> exp_vals (Columns (nth 0 Ms (mzero 0 0))) BZ = Ok vz ->
      exp_vals (Columns (nth 0 Ms (mzero 0 0))) BYX = Ok vyx -> exp_vals (Columns (nth 0 Ms (mzero 0 0))) BXY = Ok vxy ->
      forall a, (a < length times)%nat -> nth a vz 0 = z (nth a times 0) /\ 2 * (nth a vxy 0 - nth a vyx 0) + (h 0%nat 0%nat * nth a vy 0 - h 1%nat 0%nat * nth a vx 0) = z' (nth a times 0).
Proof.
  intros h st Hst. destruct (pair_solved h) as (H & V & E & EH & B & VN). set (s := with_fields spin_pair h) in *.
  assert (EH' : sp_createH root s (Some (meye 4)) = Ok H) by exact EH.
  assert (RA : rows_are 4 (meye (K:=CR) 4) (seq 0 4)).
  { split; [symmetry; apply seq_length|]. split; [reflexivity|]. intros i j Hi Hj. rewrite seq_length in Hi. rewrite seq_nth by exact Hi. cbn. destruct (i =? j)%nat; reflexivity. }
  assert (I4 : forall a, In a (seq 0 4) -> (a < 4)%nat) by (intros a Ha; apply in_seq in Ha; lia).
  assert (RS : real_terms s). { split; [intros i j _; cbn [s with_fields spin_pair sp_jx sp_jy sp_jz]; destruct (i =? j)%nat; repeat split; reflexivity | intros i _; repeat split; reflexivity]. }
  assert (SX : square 2 (sx_op root 1)) by (split; reflexivity). assert (SY : square 2 (sy_op root 1)) by (split; reflexivity). assert (SZ : square 2 (sz_op (K:=CR) 1)) by (split; reflexivity).
  destruct (C185_runs s 0 1 (sx_op root 1) (sy_op root 1) (meye 4) eq_refl ltac:(cbn; lia) ltac:(cbn; lia) ltac:(lia) SX SY eq_refl) as (OX & BX & XY & BXY & E1 & E2 & E3 & E4).
  destruct (C185_runs s 0 1 (sy_op root 1) (sx_op root 1) (meye 4) eq_refl ltac:(cbn; lia) ltac:(cbn; lia) ltac:(lia) SY SX eq_refl) as (OY & BY & YX & BYX & E5 & E6 & E7 & E8).
  destruct (C185_runs s 0 1 (sz_op 1) (sx_op root 1) (meye 4) eq_refl ltac:(cbn; lia) ltac:(cbn; lia) ltac:(lia) SZ SX eq_refl) as (OZ & BZ & _ & _ & E9 & E10 & _ & _).
  exists H, V, E, BX, BY, BZ, BYX, BXY. split; [exact EH|]. split; [exact B|].
  destruct (C185_motion root s root_one eq_refl 0%nat ltac:(cbn; lia) RS (meye 4) (seq 0 4) H V E RA (seq_NoDup 4 0) I4 EH' B OX OY OZ BX BY BZ (fun _ => YX) (fun _ => XY) (fun _ => BYX) (fun _ => BXY) st 0%nat E1 E2 E5 E6 E9 E10) as (z & z' & DZ & W); [|exact Hst|].
  { intros j Hj NE. cbn in Hj. replace j with 1%nat by lia. auto. }
  exists z, z'. split; [exact DZ|]. intros times Ms vx vy vz vyx vxy Q QX QY QZ QYX QXY a Ha.
  destruct (W times Ms vx vy vz (fun _ => vyx) (fun _ => vxy) Q QX QY QZ ltac:(intros; split; assumption) a Ha) as (W1 & W2). split; [exact W1|]. rewrite <- W2. unfold bond_along, total. cbn. ring.
Qed.
