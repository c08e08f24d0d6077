(** Concrete cases that meet the hypotheses of C186. *)
From Coq Require Import List Arith Lia Reals Lra QArith Qabs Qreals ZArith Bool.
From Verif Require Import Scalars Res Matrix SpecMat SpecFock ModelBase ModelFermions ModelSpins HamProofs FermiOps FermiApi SpinHam SpinApi SpecShells ExamplesShells ExamplesConvex ExamplesSigns ModelGeometry ModelPhase ModelSymmetry ModelThermal SpecThermal SymBase SpecHeat SpecConvex SpecPinned PropertiesPinned.
Import ListNotations.
Local Open Scope R_scope.

(** Three sites in a row, interaction [u], three fermions. *)
Example ex_row3_hops : forall u, exists P idx H D V E F, createH (row3 u) (Some P) = Ok H /\ createH (without_hops (row3 u)) (Some P) = Ok D /\ rows_are 64 P idx /\ idx <> [] /\
  eigenbasis H V E /\ eigenbasis D (meye (length idx)) F /\ free_energy 1 E <= free_energy 1 F.
Proof.
  intros u. destruct (made_basis (row3 u) [2; 1]%nat ltac:(discriminate) eq_refl (row3_us u) (row3_real u)) as (P & idx & H & V & E & EP & SH & EH & B).
  destruct SH as (RA & ND & I). assert (RA' : rows_are (nstates (f_sys (row3 u))) P idx) by exact RA. assert (I' : forall a, In a idx -> (a < nstates (f_sys (row3 u)))%nat) by (intros a Ha; exact (proj1 (proj1 (I a) Ha))).
  assert (SO : idx <> []).
  { intros Z. subst idx. apply (proj2 (I 49%nat)). split; [apply Nat.ltb_lt; reflexivity|]. intros [|[|s]] Hs; try reflexivity. cbn in Hs. lia. }
  assert (CP : ncol P = nstates (f_sys (without_hops (row3 u)))) by apply RA'.
  destruct (createH_ok (without_hops (row3 u)) (Some P) CP (row3_us u)) as (D & ED & _).
  pose proof (C186_localised (row3 u) P idx H D (row3_us u) RA' ND I' EH ED V E B) as BD.
  exists P, idx, H, D, V, E. eexists. do 5 (split; [assumption|]). split; [exact BD|].
  apply (proj1 (C186_hopping (row3 u) P idx H D (row3_us u) RA' ND I' EH ED V E _ _ B BD) 1); [exact SO | lra].
Qed.
(** The hopping that is removed. *)
Lemma row3_moves u : f_ts (row3 u) 1%nat 0%nat 0%nat = (-1, 0) /\ f_ts (without_hops (row3 u)) 1%nat 0%nat 0%nat = k0.
Proof. split; reflexivity. Qed.
(** Two coupled spins in fields [h]. *)
Example ex_pair_z : forall h, exists H D V E F, sp_createH root (with_fields spin_pair h) (Some (meye 4)) = Ok H /\ sp_createH root (along_z (with_fields spin_pair h)) (Some (meye 4)) = Ok D /\
  eigenbasis H V E /\ eigenbasis D (meye 4) F /\ free_energy 1 E <= free_energy 1 F.
Proof.
  intros h. destruct (pair_solved h) as (H & V & E & EH & B & VN). set (s := with_fields spin_pair h) in *.
  assert (EH' : sp_createH root s (Some (meye 4)) = Ok H) by exact EH.
  assert (RA : rows_are 4 (meye (K:=CR) 4) (seq 0 4)).
  { split; [symmetry; apply seq_length|]. split; [reflexivity|]. intros i j Hi Hj. rewrite seq_length in Hi. rewrite seq_nth by exact Hi. cbn. destruct (i =? j)%nat; reflexivity. }
  assert (I4 : forall a, In a (seq 0 4) -> (a < 4)%nat) by (intros a Ha; apply in_seq in Ha; lia).
  destruct (createH_proj root (along_z s) (meye 4) eq_refl (half_fields (along_z s) eq_refl)) as (D & ED & _).
  pose proof (C186_classical root s (meye 4) (seq 0 4) H D root_one eq_refl RA (seq_NoDup 4 0) I4 EH' ED V E B) as BD.
  exists H, D, V, E. eexists. do 3 (split; [assumption|]). split; [exact BD|].
  apply (proj1 (C186_spins root s (meye 4) (seq 0 4) H D root_one eq_refl RA (seq_NoDup 4 0) I4 EH' ED V E _ _ B BD) 1); [discriminate | lra].
Qed.
