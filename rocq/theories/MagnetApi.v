(** A uniform field along the axis of symmetry: what the package returns. *)
From Coq Require Import List Arith Lia Reals Lra ZArith QArith Bool Permutation.
From Verif Require Import Scalars Res Matrix Sums SqMat SpecMat ModelBase ModelSpins SpecSpins SpinHam SpinSym SpinApi ModelGeometry ModelPhase ModelSymmetry SymBase
  ModelThermal SpecThermal ThermalBase ThermalFacts ThermalBasis Thermo SpecSigns SpecSectors SignsSpins SignsRun Sectors SectorsRun Precess Mus Shift SpecMagnet Magnet.
Import ListNotations.
Local Open Scope R_scope.

Theorem magnet_motion rt s s' x F F' V V' E E' : rt 1%nat = k1 -> sp_two s = 1%nat -> round_axis s -> magnetised x s s' -> sp_createH rt s None = Ok F -> sp_createH rt s' None = Ok F' -> eigenbasis F V E -> eigenbasis F' V' E' ->
  forall O st k times Ms Ms' v, axial rt s O -> (k < ncol (as_columns st))%nat -> quench st V E times = Ok Ms -> quench st V' E' times = Ok Ms' ->
    exp_vals (Columns (nth k Ms (mzero 0 0))) O = Ok v -> exp_vals (Columns (nth k Ms' (mzero 0 0))) O = Ok v.
Proof.
  intros root half round mg EF EF' B B' O st k times Ms Ms' v AX Hk E1 E2 EX.
  destruct (axial_keeps rt s x root half O AX) as (O1 & O2 & OK). destruct (spin_ent rt s F half EF) as (S1 & S2 & W). destruct (spin_ent rt s' F' (half' s s' x half mg) EF') as (S1' & S2' & W'). rewrite (same_n s s' x mg) in *.
  assert (RV : nrow V = (2 ^ sg_nsites (sp_geom s))%nat) by (destruct B as ((_ & X & _) & _); rewrite <- X; exact S1). assert (RV' : nrow V' = (2 ^ sg_nsites (sp_geom s))%nat) by (destruct B' as ((_ & X & _) & _); rewrite <- X; exact S1').
  rewrite (path_of V E st _ Ms k O E1 Hk ltac:(congruence) ltac:(congruence)) in EX. injection EX as <-. rewrite (path_of V' E' st times Ms' k O E2 Hk ltac:(congruence) ltac:(congruence)). f_equal. apply map_ext_in. intros a Ha. rewrite RV, RV'.
  apply (conserved_path (2 ^ sg_nsites (sp_geom s)) F F' V V' E E' (fun p => shift s x (digit_sum 2 (sg_nsites (sp_geom s)) p)) B B' RV RV').
  - intros p q Hp Hq NE. rewrite W by assumption. apply (elem_keeps rt s x root half round); assumption.
  - intros p q Hp Hq. rewrite W, W' by assumption. apply elem_shift; assumption.
  - exact OK.
Qed.

Section Sector.
  Variables (rt : nat -> CR) (s s' : spins CR) (x : R) (m : nat) (P : mat CR) (idx : list nat) (H H' V V' : mat CR) (E E' : list R).
  Hypothesis half : sp_two s = 1%nat.
  Hypothesis mg : magnetised x s s'.
  Hypothesis sec : flipped (sg_nsites (sp_geom s)) m P idx.
  Hypothesis made : sp_createH rt s (Some P) = Ok H.
  Hypothesis made' : sp_createH rt s' (Some P) = Ok H'.
  Hypothesis basis : eigenbasis H V E.
  Hypothesis basis' : eigenbasis H' V' E'.
  Notation N := (length idx).
  Notation n := (sg_nsites (sp_geom s)).
  Lemma sec' : flipped (sg_nsites (sp_geom s')) m P idx. Proof using mg sec. rewrite (same_n s s' x mg). exact sec. Qed.
  Lemma sector_rel : nrow V = N /\ nrow V' = N /\ forall p q, (p < N)%nat -> (q < N)%nat -> ent H' p q = ent H p q +c (if (p =? q)%nat then real (- (x * (INR n / 2 - INR m))) else c0).
  Proof using half mg sec made made' basis basis'.
    destruct (sector_ent rt s m P idx H half sec made) as (R1 & R2 & W). destruct (sector_ent rt s' m P idx H' (half' s s' x half mg) sec' made') as (R1' & R2' & W').
    destruct (full_exists rt s half) as (F & EF). destruct (full_exists rt s' (half' s s' x half mg)) as (F' & EF').
    destruct basis as ((_ & X & _) & _). destruct basis' as ((_ & X' & _) & _). split; [congruence|]. split; [congruence|]. intros p q Hp Hq.
    rewrite (W F p q EF Hp Hq), (W' F' p q EF' Hp Hq). destruct (spin_ent rt s F half EF) as (_ & _ & WF). destruct (spin_ent rt s' F' (half' s s' x half mg) EF') as (_ & _ & WF'). rewrite (same_n s s' x mg) in *.
    destruct (at_lt s m P idx sec p Hp) as (Lp & Dp). destruct (at_lt s m P idx sec q Hq) as (Lq & Dq). rewrite WF, WF' by assumption. rewrite (elem_shift rt s s' x half mg _ _ Lp Lq). unfold shift. rewrite Dp.
    f_equal. assert (Q : (nth p idx 0 =? nth q idx 0)%nat = (p =? q)%nat); [|rewrite Q; reflexivity]. apply eq_true_iff_eq. rewrite !Nat.eqb_eq. split; [apply (at_inj s m P idx sec p q Hp Hq) | congruence].
  Qed.
  Theorem sector_energies : Permutation (map (fun e => e - x * (INR n / 2 - INR m)) E) E'.
  Proof using half mg sec made made' basis basis'. destruct sector_rel as (R1 & R2 & RL). exact (shifted_energies N H H' V V' E E' _ basis basis' R1 R2 RL). Qed.
  Theorem sector_average O T v : T <> 0 \/ (sorted_list E /\ sorted_list E' /\ apart gap13 E) -> exp_vals_thermal V O E T = Ok v -> exp_vals_thermal V' O E' T = Ok v.
  Proof using half mg sec made made' basis basis'. destruct sector_rel as (R1 & R2 & RL). exact (shifted_average N H H' V V' E E' _ basis basis' R1 R2 RL O T v). Qed.
  Theorem sector_motion O st k times Ms Ms' v : (k < ncol (as_columns st))%nat -> nrow O = nrow V -> ncol O = nrow V -> quench st V E times = Ok Ms -> quench st V' E' times = Ok Ms' ->
    exp_vals (Columns (nth k Ms (mzero 0 0))) O = Ok v -> exp_vals (Columns (nth k Ms' (mzero 0 0))) O = Ok v.
  Proof using half mg sec made made' basis basis'.
    intros Hk O1 O2 E1 E2 EX. destruct sector_rel as (RV & RV' & RL).
    rewrite (path_of V E st _ Ms k O E1 Hk ltac:(congruence) ltac:(congruence)) in EX. injection EX as <-. rewrite (path_of V' E' st times Ms' k O E2 Hk ltac:(congruence) ltac:(congruence)). f_equal. apply map_ext_in. intros a Ha. rewrite RV, RV'.
    apply (conserved_path N H H' V V' E E' (fun _ => - (x * (INR n / 2 - INR m))) basis basis' RV RV'); [intros p q _ _ NE; congruence | exact RL | intros p q _ _ NE; congruence].
  Qed.
End Sector.
