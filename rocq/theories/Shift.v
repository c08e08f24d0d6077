(** Hamiltonians that differ by a multiple of the identity. *)
From Coq Require Import List Arith Lia Reals Lra Bool Permutation.
From Verif Require Import Scalars Res Matrix Sums ModelBase ModelGeometry ModelPhase ModelSymmetry SymBase ModelThermal SpecThermal ThermalBase ThermalFacts ThermalBasis Thermo.
From Verif Require SymAverage ChainSpectrum.
Import ListNotations.
Local Open Scope R_scope.

Section Shift.
  Variables (n : nat) (H H' V V' : mat CR) (E E' : list R) (s : R).
  Hypothesis basis : eigenbasis H V E.
  Hypothesis basis' : eigenbasis H' V' E'.
  Hypothesis RV : nrow V = n.
  Hypothesis RV' : nrow V' = n.
  Hypothesis RL : forall p q, (p < n)%nat -> (q < n)%nat -> ent H' p q = ent H p q +c (if (p =? q)%nat then real s else c0).
  Lemma shifted_nth k : (k < length E)%nat -> nth k (map (fun e => e + s) E) 0 = nth k E 0 + s.
  Proof using. intros Hk. rewrite (nth_indep _ 0 (0 + s)) by (rewrite map_length; exact Hk). apply (map_nth (fun e => e + s)). Qed.
  Theorem shifted_basis : eigenbasis H' V (map (fun e => e + s) E).
  Proof using basis basis' RV RV' RL.
    destruct basis' as ((_ & R1 & R2 & _) & _). destruct basis as ((LE & _ & _ & EV) & ON & CO). split; [|split; assumption]. split; [rewrite map_length; exact LE|]. split; [congruence|]. split; [congruence|].
    rewrite RV in *. intros p k Hp Hk. rewrite shifted_nth by lia. unfold apply. rewrite (ksum_ext n _ (fun q => ent H p q *c col V k q +c (if (p =? q)%nat then real s *c col V k q else c0))).
    - rewrite ksum_add. specialize (EV p k Hp Hk). unfold apply in EV. etransitivity; [apply f_equal2; [exact EV | apply (ksum_single n p); [exact Hp|]]|].
      + intros q Hq NE. rewrite (proj2 (Nat.eqb_neq p q)) by auto. reflexivity.
      + rewrite Nat.eqb_refl. unfold col. apply injective_projections; cbn; ring.
    - intros q Hq. rewrite RL by assumption. generalize (col V k q), (ent H p q). intros. destruct (p =? q)%nat; apply injective_projections; cbn; ring.
  Qed.
  Theorem shifted_energies : Permutation (map (fun e => e + s) E) E'.
  Proof using basis basis' RV RV' RL.
    apply (ChainSpectrum.energies_perm H' V V'); [apply (SymAverage.eigenbasis_hermitian _ _ _ shifted_basis) | exact shifted_basis | exact basis' | congruence].
  Qed.
  Theorem shifted_average O T v : T <> 0 \/ (sorted_list E /\ sorted_list E' /\ apart gap13 E) -> exp_vals_thermal V O E T = Ok v -> exp_vals_thermal V' O E' T = Ok v.
  Proof using basis basis' RV RV' RL.
    intros HT EX. assert (NE : E <> []). { intros ->. unfold exp_vals_thermal, thermal_weights in EX. cbn in EX. destruct HT as [NT|_]; discriminate EX. }
    pose proof shifted_energies as PE. set (Es := map (fun e => e + s) E).
    assert (NE' : E' <> []). { intros Q. rewrite Q in PE. apply Permutation_sym, Permutation_nil, map_eq_nil in PE. congruence. }
    assert (LE : ncol V = length E) by apply basis.
    assert (SO : nrow O = nrow V /\ ncol O = nrow V).
    { unfold exp_vals_thermal in EX. destruct (thermal_weights true E T) as [(w0, z0)|e]; cbn [bind] in EX; [|discriminate EX]. unfold exp_vals in EX. destruct (is_zero T); cbn [as_columns nrow first_cols] in EX.
      - destruct ((ncol O =? nrow V) && (nrow O =? nrow V))%nat eqn:Q; [|discriminate EX]. apply andb_true_iff in Q as (Q1 & Q2). apply Nat.eqb_eq in Q1, Q2. split; assumption.
      - destruct ((ncol O =? nrow V) && (nrow O =? nrow V))%nat eqn:Q; [|discriminate EX]. apply andb_true_iff in Q as (Q1 & Q2). apply Nat.eqb_eq in Q1, Q2. split; assumption. }
    assert (FV : fits V O E) by (repeat split; try apply SO; assumption).
    assert (FS : fits V O Es) by (repeat split; try apply SO; unfold Es; [rewrite map_length; exact LE | intros Q; apply map_eq_nil in Q; congruence]).
    assert (IS : forall y, In y Es -> exists e, In e E /\ y = e + s) by (intros y Hy; apply in_map_iff in Hy as (e & <- & He); exists e; auto).
    assert (SS : sorted_list E -> sorted_list Es). { intros SL i j Hij. unfold Es in *. rewrite map_length in Hij. rewrite !shifted_nth by lia. specialize (SL i j Hij). lra. }
    assert (AS : apart gap13 E -> apart gap13 Es). { intros AP y z Hy Hz. destruct (IS y Hy) as (e1 & I1 & ->). destruct (IS z Hz) as (e2 & I2 & ->). destruct (AP e1 e2 I1 I2) as [->|Q]; [left; reflexivity | right]. replace (e1 + s - (e2 + s)) with (e1 - e2) by ring. exact Q. }
    rewrite <- (thermal_basis H' V V' O Es E' T (SymAverage.eigenbasis_hermitian _ _ _ shifted_basis) shifted_basis basis' ltac:(congruence) FS NE').
    - rewrite <- EX. destruct (Req_EM_T T 0) as [->|NT]; [|apply thermal_shift; [exact FV | exact NT]]. destruct HT as [X|(S1 & S2 & AP)]; [congruence|]. rewrite (thermal_zero V O E FV S1 AP), (thermal_zero V O Es FS (SS S1) (AS AP)). f_equal.
      assert (LP : (0 < length E)%nat) by (destruct E; [congruence | cbn; lia]).
      unfold average_at, levels. rewrite !total_map. unfold at_energy. cbn [energy value fst snd]. rewrite (map_length _ E : length Es = length E). apply (f_equal2 Rdiv); apply total_ext; intros k Hk; apply in_seq in Hk; unfold Es; rewrite !shifted_nth by lia;
        destruct (Req_EM_T (nth k E 0 + s) (nth 0 E 0 + s)), (Req_EM_T (nth k E 0) (nth 0 E 0)); try reflexivity; exfalso; lra.
    - destruct HT as [X|(S1 & S2 & AP)]; [left; exact X | right]. split; [apply SS, S1|]. split; [exact S2 | apply AS, AP].
  Qed.
End Shift.
