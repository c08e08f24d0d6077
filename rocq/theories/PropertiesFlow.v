(** Property theorems C183: flow of particles between the sites.  Theorems only. *)
From Coq Require Import List Arith Reals QArith Bool.
From Verif Require Import Scalars Res Matrix SpecMat ModelBase ModelFermions HamProofs FermiApi ModelGeometry ModelPhase ModelSymmetry ModelThermal SpecThermal SymBase
  SpecShells SpecRates SpecFlow Flow.
Import ListNotations.
Local Open Scope R_scope.

(** C183. *)
Theorem C183_continuity : forall (f : fermions CR), us_ok f -> forall i s, (i < fg_nsites (f_geom f))%nat -> (s < f_nspecies f)%nat -> real_hops f ->
  forall P idx H V E, rows_are (nstates (f_sys f)) P idx -> NoDup idx -> (forall a, In a idx -> (a < nstates (f_sys f))%nat) -> createH f (Some P) = Ok H -> eigenbasis H V E ->
  forall O Y (A B A' B' : nat -> mat CR) st k, single_site_op (f_sys f) i s n_op Boson = Ok O -> sandwich P O = Ok Y ->
  (forall j, (j < fg_nsites (f_geom f))%nat -> j <> i -> two_site_op (f_sys f) i s j s cdag_op c_op Fermion = Ok (A j) /\ sandwich P (A j) = Ok (B j) /\
    two_site_op (f_sys f) j s i s cdag_op c_op Fermion = Ok (A' j) /\ sandwich P (A' j) = Ok (B' j)) ->
  (k < ncol (as_columns st))%nat ->
  exists z z', (forall t, derivable_pt_lim z t (z' t)) /\
    forall times Ms v w, quench st V E times = Ok Ms -> exp_vals (Columns (nth k Ms (mzero 0 0))) Y = Ok v ->
      (forall j, (j < fg_nsites (f_geom f))%nat -> j <> i -> exp_vals (Columns (nth k Ms (mzero 0 0))) (flow_op (B j) (B' j)) = Ok (w j)) ->
      forall a, (a < length times)%nat -> nth a v 0 = z (nth a times 0) /\
        total (fun j => if (j =? i)%nat then 0 else strength f i j s * nth a (w j) 0) (seq 0 (fg_nsites (f_geom f))) = z' (nth a times 0).
Proof. exact continuity. Qed.
Print Assumptions C183_continuity.
Theorem C183_runs : forall (f : fermions CR) i j s P, (i < fg_nsites (f_geom f))%nat -> (j < fg_nsites (f_geom f))%nat -> (s < f_nspecies f)%nat -> ncol P = nstates (f_sys f) ->
  exists O Y A B, single_site_op (f_sys f) i s n_op Boson = Ok O /\ sandwich P O = Ok Y /\ two_site_op (f_sys f) i s j s cdag_op c_op Fermion = Ok A /\ sandwich P A = Ok B.
Proof. exact flow_runs. Qed.
Print Assumptions C183_runs.
