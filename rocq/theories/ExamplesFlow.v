(** Concrete cases that meet the hypotheses of C183. *)
From Coq Require Import List Arith Lia Reals Lra QArith Qabs Qreals ZArith Bool.
From Verif Require Import Scalars Res Matrix SpecMat SpecFock ModelBase ModelFermions HamProofs FermiOps FermiApi SpecShells ExamplesShells ModelGeometry ModelPhase ModelSymmetry ModelThermal SpecThermal SymBase
  Precess SpecRates SpecFlow PropertiesFlow.
Import ListNotations.
Local Open Scope R_scope.

Lemma row3_real_hops u : real_hops (row3 u).
Proof.
  intros i j s (L & Hi) Hs. cbn in Hi, Hs. assert (i = 1 /\ j = 0 \/ i = 2 /\ j = 0 \/ i = 2 /\ j = 1)%nat as [(-> & ->)|[(-> & ->)|(-> & ->)]] by lia; cbn; rewrite ?Rmult_0_l, ?Rmult_0_r; ring.
Qed.
(** Three sites in a row, interaction [u], three fermions: both neighbours feed the middle site. *)
Lemma row3_strengths u : strength (row3 u) 1 0 0 = -1 /\ strength (row3 u) 1 2 0 = -1.
Proof. split; unfold strength; cbn; unfold Q2R; cbn; lra. Qed.
Example ex_row3_flow : forall u st, (0 < ncol (as_columns st))%nat -> exists P idx H V E O Y (A B A' B' : nat -> mat CR), createH (row3 u) (Some P) = Ok H /\ eigenbasis H V E /\ rows_are 64 P idx /\ NoDup idx /\
  single_site_op (f_sys (row3 u)) 1 0 n_op Boson = Ok O /\ sandwich P O = Ok Y /\
  (forall j, (j < 3)%nat -> j <> 1%nat -> two_site_op (f_sys (row3 u)) 1 0 j 0 cdag_op c_op Fermion = Ok (A j) /\ sandwich P (A j) = Ok (B j) /\
    two_site_op (f_sys (row3 u)) j 0 1 0 cdag_op c_op Fermion = Ok (A' j) /\ sandwich P (A' j) = Ok (B' j)) /\
  exists z z', (forall t, derivable_pt_lim z t (z' t)) /\
    forall times Ms v w0 w2, quench st V E times = Ok Ms -> exp_vals (Columns (nth 0 Ms (mzero 0 0))) Y = Ok v ->
      exp_vals (Columns (nth 0 Ms (mzero 0 0))) (flow_op (B 0%nat) (B' 0%nat)) = Ok w0 -> exp_vals (Columns (nth 0 Ms (mzero 0 0))) (flow_op (B 2%nat) (B' 2%nat)) = Ok w2 ->
      forall a, (a < length times)%nat -> nth a v 0 = z (nth a times 0) /\ - nth a w0 0 - nth a w2 0 = z' (nth a times 0).
Proof.
  intros u st Hst. destruct (made_basis (row3 u) [2; 1]%nat ltac:(discriminate) eq_refl (row3_us u) (row3_real u)) as (P & idx & H & V & E & EP & SH & EH & B).
  destruct SH as (RA & ND & I). assert (RA' : rows_are (nstates (f_sys (row3 u))) P idx) by exact RA. assert (I' : forall a, In a idx -> (a < nstates (f_sys (row3 u)))%nat) by (intros a Ha; exact (proj1 (proj1 (I a) Ha))).
  assert (CP : ncol P = nstates (f_sys (row3 u))) by apply RA'.
  destruct (C183_runs (row3 u) 1 0 0 P ltac:(cbn; lia) ltac:(cbn; lia) ltac:(cbn; lia) CP) as (O & Y & A0 & B0 & EO & EY & EA0 & EB0).
  destruct (C183_runs (row3 u) 1 2 0 P ltac:(cbn; lia) ltac:(cbn; lia) ltac:(cbn; lia) CP) as (_ & _ & A2 & B2 & _ & _ & EA2 & EB2).
  destruct (C183_runs (row3 u) 0 1 0 P ltac:(cbn; lia) ltac:(cbn; lia) ltac:(cbn; lia) CP) as (_ & _ & A0' & B0' & _ & _ & EA0' & EB0').
  destruct (C183_runs (row3 u) 2 1 0 P ltac:(cbn; lia) ltac:(cbn; lia) ltac:(cbn; lia) CP) as (_ & _ & A2' & B2' & _ & _ & EA2' & EB2').
  set (A := fun j : nat => if (j =? 0)%nat then A0 else A2). set (B1 := fun j : nat => if (j =? 0)%nat then B0 else B2). set (A' := fun j : nat => if (j =? 0)%nat then A0' else A2'). set (B' := fun j : nat => if (j =? 0)%nat then B0' else B2').
  assert (OPS : forall j, (j < 3)%nat -> j <> 1%nat -> two_site_op (f_sys (row3 u)) 1 0 j 0 cdag_op c_op Fermion = Ok (A j) /\ sandwich P (A j) = Ok (B1 j) /\ two_site_op (f_sys (row3 u)) j 0 1 0 cdag_op c_op Fermion = Ok (A' j) /\ sandwich P (A' j) = Ok (B' j)).
  { intros j Hj NE. assert (j = 0 \/ j = 2)%nat as [-> | ->] by lia; cbn [A B1 A' B' Nat.eqb]; auto. }
  exists P, idx, H, V, E, O, Y, A, B1, A', B'. do 7 (split; [assumption|]).
  destruct (C183_continuity (row3 u) (row3_us u) 1 0 ltac:(cbn; lia) ltac:(cbn; lia) (row3_real_hops u) P idx H V E RA' ND I' EH B O Y A B1 A' B' st 0 EO EY OPS Hst) as (z & z' & DZ & W).
  exists z, z'. split; [exact DZ|]. intros times Ms v w0 w2 Q EV E0 E2 a Ha.
  destruct (W times Ms v (fun j => if (j =? 0)%nat then w0 else w2) Q EV) with (a := a) as (X1 & X2); [|exact Ha|].
  { intros j Hj NE. cbn in Hj. assert (j = 0 \/ j = 2)%nat as [-> | ->] by lia; assumption. }
  split; [exact X1|]. rewrite <- X2. destruct (row3_strengths u) as (S1 & S2). cbn [row3 f_geom fg_nsites seq]. unfold total. cbn [map fold_right Nat.eqb]. fold (row3 u).
  change (- nth a w0 0 - nth a w2 0 = strength (row3 u) 1 0 0 * nth a w0 0 + (0 + (strength (row3 u) 1 2 0 * nth a w2 0 + 0))). rewrite S1, S2. ring.
Qed.
