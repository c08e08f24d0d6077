(** A concrete case that meets the hypotheses of C87_given_pairs. *)
From Coq Require Import List Arith Lia Reals Lra QArith ZArith Bool.
From Verif Require Import Scalars Res Matrix SpecMat ModelBase ModelFermions ModelSpins ModelGeometry ModelPhase ModelSymmetry SymBase ModelThermal SpecThermal ThermalSites SpecParts PropertiesParts ExamplesParts PropertiesGivenPairs.
Import ListNotations.
Local Open Scope R_scope.

(** Correlations of the first of three spins with the second and the third. *)
Example ex_given_pairs : forall st, nrow (as_columns st) = 8%nat -> exists rows,
  corr_sites st 3 (fun i j => two_site_op (sp_sys (trio 1)) i 0 j 0 (sx_op root 1) (sz_op 1) Boson) (Some ([0%nat; 0%nat], [1%nat; 2%nat])) None = Ok (rows, [(0%nat, 1%nat); (0%nat, 2%nat)]) /\ length rows = 2%nat.
Proof.
  intros st N8. destruct (C87_given_pairs st 3 (fun i j => two_site_op (sp_sys (trio 1)) i 0 j 0 (sx_op root 1) (sz_op 1) Boson) [0%nat; 0%nat] [1%nat; 2%nat] None) as [(L & _)|(_ & rows & E & F)].
  - reflexivity.
  - intros i j I. cbn in I. assert (J : i = 0%nat /\ (j = 1 \/ j = 2)%nat) by (destruct I as [I|[I|[]]]; injection I as <- <-; auto).
    destruct J as (-> & J). destruct (C188_operators (trio 1) (fun _ => true) 0 j (sx_op root 1) (sz_op 1) eq_refl ltac:(cbn; lia) ltac:(cbn; lia) ltac:(lia) eq_refl eq_refl ltac:(split; reflexivity) ltac:(split; reflexivity)) as (_ & T & _ & _ & _ & ET & (S1 & S2) & _).
    exists T. split; [exact ET|]. change (nrow T = 8%nat) in S1. change (ncol T = 8%nat) in S2. cbn. rewrite N8. auto.
  - cbn in L. lia.
  - exists rows. split; [exact E|]. cbn [combine] in F. inversion F as [|? ? ? ? _ F1]; subst. inversion F1 as [|? ? ? ? _ F2]; subst. inversion F2. reflexivity.
Qed.
