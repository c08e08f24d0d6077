(** Level statistics: mean, and models of fermions with related spectra. *)
From Coq Require Import List Arith Lia Reals Lra Bool Permutation.
From Verif Require Import Scalars Res Matrix SpecMat ModelBase ModelFermions FermiApi ModelGeometry ModelPhase ModelSymmetry ModelThermal SpecThermal SpecFermiGas ModelFreeLattice SpecFreeLattice ChainSpectrum SpecHalf SpecGauge GaugeRun GaugeApi SpecMus MusRun MusApi SpecRatios ModelRatios Ratios.
Import ListNotations.
Local Open Scope R_scope.

Lemma fold_fin : forall (f : nat -> R) l, fold_right num_add (Fin 0) (map (fun k => Fin (f k)) l) = Fin (total f l).
Proof. intros f l. induction l as [|x l IH]; [reflexivity|]. cbn [map fold_right]. rewrite IH. reflexivity. Qed.
Lemma mean_spec : forall E, sorted_list E -> (3 <= length E)%nat -> r_mean E = Fin (total (spacing_ratio E) (seq 0 (length E - 2)) / INR (length E - 2)).
Proof.
  intros E SE L. unfold r_mean. rewrite (rn_spec E SE). destruct (length E - 2)%nat as [|n] eqn:D; [lia|].
  pose proof (fold_fin (spacing_ratio E) (seq 0 (S n))) as F. cbn [seq map] in F |- *. rewrite F. cbn [length]. rewrite map_length, seq_length. reflexivity.
Qed.
Lemma total_bounds : forall (f : nat -> R) l, (forall k, In k l -> 0 <= f k <= 1) -> 0 <= total f l <= INR (length l).
Proof.
  intros f l. induction l as [|x l IH]; intros Hf; [cbn; lra|]. pose proof (Hf x (or_introl eq_refl)). specialize (IH (fun k Hk => Hf k (or_intror Hk))). cbn [length]. rewrite S_INR. cbn [total fold_right] in *. unfold total in *. cbn [fold_right] in *. lra.
Qed.
Lemma mean_bounds : forall E, sorted_list E -> (3 <= length E)%nat -> exists m, r_mean E = Fin m /\ 0 <= m <= 1.
Proof.
  intros E SE L. eexists. split; [apply mean_spec; assumption|]. pose proof (total_bounds (spacing_ratio E) (seq 0 (length E - 2))) as B. rewrite seq_length in B.
  specialize (B ltac:(intros k Hk; apply in_seq in Hk; apply ratio_bounds; [exact SE|lia])). assert (P : 0 < INR (length E - 2)) by (apply lt_0_INR; lia).
  split; [apply Rmult_le_pos; [lra|apply Rlt_le, Rinv_0_lt_compat, P]|]. apply Rmult_le_reg_r with (INR (length E - 2)); [exact P|]. unfold Rdiv. rewrite Rmult_assoc, Rinv_l by lra. lra.
Qed.
Lemma mean_few : forall E, (length E < 3)%nat -> r_mean E = NaN.
Proof. intros E L. unfold r_mean. rewrite rn_map. replace (length E - 2)%nat with 0%nat by lia. reflexivity. Qed.
Lemma total_rev : forall (f : nat -> R) l, total f (rev l) = total f l.
Proof. intros f l. induction l as [|x l IH]; [reflexivity|]. cbn [rev]. unfold total in *. rewrite fold_right_app. cbn [fold_right]. rewrite <- IH. generalize (rev l). intros m. induction m as [|y m IHm]; cbn [fold_right]; lra. Qed.
Lemma mean_if : forall E, r_mean E = if Nat.eqb (length (rn E)) 0 then NaN else match fold_right num_add (Fin 0) (rn E) with Fin s => Fin (s / INR (length (rn E))) | x => x end.
Proof. intros E. unfold r_mean. destruct (rn E); reflexivity. Qed.
Lemma mean_reverse : forall E, sorted_list E -> r_mean (rev (map Ropp E)) = r_mean E.
Proof.
  intros E SE. rewrite !mean_if, (rn_reverse E SE), rev_length. rewrite (rn_spec E SE), <- map_rev, !fold_fin, total_rev. reflexivity.
Qed.
Lemma upside_down : forall E E', sorted_list E -> sorted_list E' -> Permutation (map Ropp E) E' -> rn E' = rev (rn E) /\ r_mean E' = r_mean E.
Proof.
  intros E E' SE SE' P. assert (Q : E' = rev (map Ropp E)).
  { apply sorted_same; [exact SE'|apply sorted_reverse, SE|]. etransitivity; [symmetry; exact P|apply Permutation_rev]. }
  rewrite Q. split; [apply rn_reverse, SE|apply mean_reverse, SE].
Qed.
Lemma mirrored_ratios : forall side f f' pr idx H H' V V' E E', two_coloured f side -> opposite_energies f f' -> us_ok f -> selects f pr idx -> createH f pr = Ok H -> createH f' pr = Ok H' -> eigenbasis H V E -> eigenbasis H' V' E' ->
  sorted_list E -> sorted_list E' -> rn E' = rev (rn E) /\ r_mean E' = r_mean E.
Proof. intros. apply upside_down; try assumption. eapply mirrored_energies; eassumption. Qed.
Lemma regauged_ratios : forall r w f f' pr idx H H' V V' E E', regauged r w f f' -> us_ok f -> selects f pr idx -> createH f pr = Ok H -> createH f' pr = Ok H' -> eigenbasis H V E -> eigenbasis H' V' E' ->
  0 < r -> sorted_list E -> sorted_list E' -> rn E' = rn E.
Proof.
  intros r w f f' pr idx H H' V V' E E' A1 A2 A3 A4 A5 A6 A7 Hr SE SE'. rewrite (api_sorted r w f f' pr idx H H' V V' E E' A1 A2 A3 A4 A5 A6 A7 (Rlt_le _ _ Hr) SE SE').
  rewrite <- (rn_affine E r 0 SE Hr). f_equal. apply map_ext. intros e. ring.
Qed.
Lemma raised_ratios : forall x f f' pr idx H H' V V' E E', raised x f f' -> us_ok f -> selects f pr idx -> createH f pr = Ok H -> createH f' pr = Ok H' -> eigenbasis H V E -> eigenbasis H' V' E' -> NoDup idx ->
  forall count, same_numbers f count idx -> sorted_list E -> sorted_list E' -> rn E' = rn E.
Proof.
  intros x f f' pr idx H H' V V' E E' A1 A2 A3 A4 A5 A6 A7 A8 count A9 SE SE'.
  pose proof (raised_energies x f f' pr idx H H' V V' E E' A1 A2 A3 A4 A5 A6 A7 A8 count A9) as P. set (c := total _ _) in P.
  rewrite <- (rn_affine E 1 (- c) SE Rlt_0_1). f_equal. apply sorted_same; [exact SE'|apply sorted_affine; [exact Rlt_0_1|exact SE]|]. symmetry.
  erewrite map_ext; [exact P|]. intros e. cbn. ring.
Qed.
