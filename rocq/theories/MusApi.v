(** Chemical potentials: constructors. *)
From Coq Require Import List Arith Lia Reals Lra ZArith QArith Bool Permutation.
From Verif Require Import Scalars Res Matrix SpecMat ModelBase ModelFermions FermiApi ModelGeometry ModelPhase ModelSymmetry ModelThermal SpecThermal SpecFermiGas ModelFreeLattice SpecFreeLattice SpecGauge SpecMus MusRun.
Import ListNotations.
Local Open Scope R_scope.

Theorem motion_same x f f' pr idx H H' V V' E E' : raised x f f' -> us_ok f -> selects f pr idx -> createH f pr = Ok H -> createH f' pr = Ok H' -> eigenbasis H V E -> eigenbasis H' V' E' -> NoDup idx ->
  forall A O c, measured f (fun _ _ => 1) A c -> used pr A O -> forall st k times Ms Ms' v, (k < ncol (as_columns st))%nat -> quench st V E times = Ok Ms -> quench st V' E' times = Ok Ms' ->
    exp_vals (Columns (nth k Ms (mzero 0 0))) O = Ok v -> exp_vals (Columns (nth k Ms' (mzero 0 0))) O = Ok v.
Proof.
  intros RG US SL M M' B B' ND A O c MS UO st k times Ms Ms' v Hk. exact (raised_motion x f f' pr idx H H' V V' E E' RG US SL M M' B B' ND (fun _ _ => 1) A O c MS (fun _ _ _ _ => or_introl eq_refl) UO st k times Ms Ms' v Hk).
Qed.

Lemma mus_of m mu mus' : init_mus (K:=CR) m (numbers m mu) = Ok mus' -> forall k, (k < m)%nat -> mus' k = re (mu k).
Proof.
  unfold init_mus. change (nd_size (numbers m mu)) with (m * 1)%nat. rewrite Nat.mul_1_r, Nat.eqb_refl. intros Q k Hk. destruct (Nat.eqb_spec m 1) as [M|_]; injection Q as <-; [assert (k = 0%nat) as -> by lia|]; reflexivity.
Qed.
Theorem init_raised g us ts ns mu mu' pot same m f f' : fermions_init g us ts ns (numbers m mu) pot same m = Ok f -> fermions_init g us ts ns (numbers m mu') pot same m = Ok f' -> raised (fun k => mu' k - mu k) f f'.
Proof.
  unfold fermions_init. intros E1 E2. apply bind_ok in E1 as (a1 & A1 & E1). apply bind_ok in E1 as (a2 & A2 & E1). apply bind_ok in E1 as (a3 & A3 & E1). apply bind_ok in E1 as (a4 & A4 & E1). apply bind_ok in E1 as (a5 & A5 & E1). apply bind_ok in E1 as (a6 & A6 & E1).
  rewrite A1 in E2. cbn [bind] in E2. rewrite A2 in E2. cbn [bind] in E2. rewrite A3 in E2. cbn [bind] in E2. apply bind_ok in E2 as (b4 & B4 & E2). rewrite A5 in E2. cbn [bind] in E2. rewrite A6 in E2. cbn [bind] in E2.
  injection E1 as <-. injection E2 as <-. unfold raised. cbn. repeat (split; [reflexivity|]). split; [|reflexivity]. intros k Hk. rewrite (mus_of m mu a4 A4 k Hk), (mus_of m mu' b4 B4 k Hk). apply injective_projections; cbn; ring.
Qed.
