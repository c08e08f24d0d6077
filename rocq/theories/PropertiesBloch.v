(** Property theorems C185: motion of one spin.  Theorems only. *)
From Coq Require Import List Arith Reals QArith Bool.
From Verif Require Import Scalars Res Matrix SpecMat ModelBase ModelFermions ModelSpins ModelGeometry ModelPhase ModelSymmetry ModelThermal SpecThermal SymBase SpecBloch Bloch.
Import ListNotations.
Local Open Scope R_scope.

(** C185. *)
Theorem C185_motion : forall rt (s : spins CR), rt 1%nat = k1 -> sp_two s = 1%nat -> forall i, (i < sg_nsites (sp_geom s))%nat -> real_terms s ->
  forall P idx H V E, rows_are (2 ^ sg_nsites (sp_geom s)) P idx -> NoDup idx -> (forall a, In a idx -> (a < 2 ^ sg_nsites (sp_geom s))%nat) -> sp_createH rt s (Some P) = Ok H -> eigenbasis H V E ->
  forall (OX OY OZ BX BY BZ : mat CR) (YX XY BYX BXY : nat -> mat CR) st k,
  single_site_op (sp_sys s) i 0 (sx_op rt 1) Boson = Ok OX -> sandwich P OX = Ok BX -> single_site_op (sp_sys s) i 0 (sy_op rt 1) Boson = Ok OY -> sandwich P OY = Ok BY ->
  single_site_op (sp_sys s) i 0 (sz_op 1) Boson = Ok OZ -> sandwich P OZ = Ok BZ ->
  (forall j, (j < sg_nsites (sp_geom s))%nat -> j <> i -> two_site_op (sp_sys s) i 0 j 0 (sy_op rt 1) (sx_op rt 1) Boson = Ok (YX j) /\ sandwich P (YX j) = Ok (BYX j) /\
    two_site_op (sp_sys s) i 0 j 0 (sx_op rt 1) (sy_op rt 1) Boson = Ok (XY j) /\ sandwich P (XY j) = Ok (BXY j)) ->
  (k < ncol (as_columns st))%nat ->
  exists z z', (forall t, derivable_pt_lim z t (z' t)) /\
    forall times Ms vx vy vz vyx vxy, quench st V E times = Ok Ms -> exp_vals (Columns (nth k Ms (mzero 0 0))) BX = Ok vx -> exp_vals (Columns (nth k Ms (mzero 0 0))) BY = Ok vy -> exp_vals (Columns (nth k Ms (mzero 0 0))) BZ = Ok vz ->
      (forall j, (j < sg_nsites (sp_geom s))%nat -> j <> i -> exp_vals (Columns (nth k Ms (mzero 0 0))) (BYX j) = Ok (vyx j) /\ exp_vals (Columns (nth k Ms (mzero 0 0))) (BXY j) = Ok (vxy j)) ->
      forall a, (a < length times)%nat -> nth a vz 0 = z (nth a times 0) /\
        total (fun j => if (j =? i)%nat then 0 else 2 * (bond_along (sp_jy s) i j * nth a (vxy j) 0 - bond_along (sp_jx s) i j * nth a (vyx j) 0)) (seq 0 (sg_nsites (sp_geom s)))
          + (fst (sp_hx s i) * nth a vy 0 - fst (sp_hy s i) * nth a vx 0) = z' (nth a times 0).
Proof. exact bloch. Qed.
Print Assumptions C185_motion.
Theorem C185_runs : forall (s : spins CR) i j A B P, sp_two s = 1%nat -> (i < sg_nsites (sp_geom s))%nat -> (j < sg_nsites (sp_geom s))%nat -> i <> j -> square 2 A -> square 2 B -> ncol P = (2 ^ sg_nsites (sp_geom s))%nat ->
  exists O O' T T', single_site_op (sp_sys s) i 0 A Boson = Ok O /\ sandwich P O = Ok O' /\ two_site_op (sp_sys s) i 0 j 0 A B Boson = Ok T /\ sandwich P T = Ok T'.
Proof. exact bloch_runs. Qed.
Print Assumptions C185_runs.
