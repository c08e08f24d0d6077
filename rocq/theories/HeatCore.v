(** Thermodynamics of a list of energies: proofs. *)
From Coq Require Import List Arith Lia Reals Lra Bool Permutation.
From Verif Require Import Scalars Res Matrix ModelGeometry ModelPhase ModelSymmetry SymBase ModelBase ModelThermal SpecThermal ThermalBase ThermalBasis SpecHeat Thermo.
From Verif Require FermiGas FermiModes.
Import ListNotations.
Local Open Scope R_scope.

Lemma total_seq (f : R -> R) E : total f E = total (fun k => f (nth k E 0)) (seq 0 (length E)).
Proof. rewrite (list_seq E) at 1. apply total_map. Qed.

Section Heat.
  Variable E : list R.
  Hypothesis ne : E <> [].
  Lemma z_pos T : 0 < zustand T E.
  Proof using ne. apply total_pos; [intros; left; apply exp_pos|]. destruct E as [|e t]; [congruence|]. exists e. split; [left; reflexivity | apply exp_pos]. Qed.
  Lemma chance_pos T e : 0 < chance T E e.
  Proof using ne. apply Rdiv_lt_0_compat; [apply exp_pos | apply z_pos]. Qed.
  Lemma chance_sum T : total (chance T E) E = 1.
  Proof using ne.
    pose proof (z_pos T). unfold chance. rewrite (total_ext _ (fun e => / zustand T E * exp (- e / T))) by (intros; unfold Rdiv; ring).
    rewrite total_scale. fold (zustand T E). field. lra.
  Qed.
  Lemma chance_ln T e : ln (chance T E e) = - e / T - ln (zustand T E).
  Proof using ne. pose proof (z_pos T). unfold chance. unfold Rdiv at 1. rewrite ln_mult by (try apply exp_pos; apply Rinv_0_lt_compat; assumption). rewrite ln_exp, ln_Rinv by assumption. ring. Qed.
  Lemma entropy_val T : entropy T E = ln (zustand T E) + mean_energy T E / T.
  Proof using ne.
    unfold entropy. rewrite (total_ext _ (fun e => (- / T) * (chance T E e * e) + (- ln (zustand T E)) * chance T E e)) by (intros; rewrite chance_ln; unfold Rdiv; ring).
    rewrite total_add, !total_scale, chance_sum. fold (mean_energy T E). unfold Rdiv. ring.
  Qed.
  Lemma heat_val T : heat T E = (total (fun e => chance T E e * e ^ 2) E - mean_energy T E ^ 2) / T ^ 2.
  Proof using ne.
    unfold heat. f_equal. set (m := mean_energy T E).
    rewrite (total_ext _ (fun e => chance T E e * e ^ 2 + ((-2 * m) * (chance T E e * e) + m ^ 2 * chance T E e))) by (intros; ring).
    rewrite !total_add, !total_scale, chance_sum. fold (mean_energy T E). fold m. ring.
  Qed.
  Lemma heat_ge0 T : T <> 0 -> 0 <= heat T E.
  Proof using ne.
    intros T0. unfold heat. apply Rmult_le_pos; [|left; apply Rinv_0_lt_compat; rewrite <- Rsqr_pow2; apply Rlt_0_sqr; exact T0]. apply total_ge0. intros e _.
    apply Rmult_le_pos; [left; apply chance_pos | apply pow2_ge_0].
  Qed.
  Lemma chance_le1 T e : In e E -> chance T E e <= 1.
  Proof using ne.
    intros He. pose proof (z_pos T) as P. unfold chance. apply Rmult_le_reg_r with (zustand T E); [exact P|]. unfold Rdiv. rewrite Rmult_assoc, Rinv_l, Rmult_1_r, Rmult_1_l by lra.
    apply in_split in He as (a & b & ->). unfold zustand. rewrite total_app, total_cons.
    assert (0 <= total (fun e => exp (- e / T)) a) by (apply total_ge0; intros; left; apply exp_pos).
    assert (0 <= total (fun e => exp (- e / T)) b) by (apply total_ge0; intros; left; apply exp_pos). lra.
  Qed.
  Lemma entropy_ge0 T : 0 <= entropy T E.
  Proof using ne.
    unfold entropy.
    assert (X : 0 <= total (fun e => -1 * (chance T E e * ln (chance T E e))) E); [|rewrite total_scale in X; lra].
    apply total_ge0. intros e He. pose proof (chance_pos T e). pose proof (chance_le1 T e He).
    assert (ln (chance T E e) <= 0). { rewrite <- ln_1. destruct (Req_dec (chance T E e) 1) as [->|N]; [lra|]. left. apply ln_increasing; lra. }
    nra.
  Qed.
  Lemma len_pos : 0 < INR (length E).
  Proof using ne. apply lt_0_INR. destruct E; [congruence | cbn; lia]. Qed.
  Lemma entropy_le T : entropy T E <= ln (INR (length E)).
  Proof using ne.
    pose proof len_pos as N. set (n := INR (length E)) in *. unfold entropy.
    assert (X : 0 <= total (fun e => chance T E e * ln (chance T E e) + ln n * chance T E e + (-1 * chance T E e + / n * 1)) E).
    { apply total_ge0. intros e _. pose proof (chance_pos T e) as P. set (p := chance T E e) in *.
      pose proof (exp_ineq1_le (- (ln n + ln p))) as X. rewrite exp_Ropp, exp_plus, !exp_ln in X by assumption.
      assert (Y : p * (1 + - (ln n + ln p)) <= p * / (n * p)) by (apply Rmult_le_compat_l; [lra | exact X]).
      replace (p * / (n * p)) with (/ n) in Y by (field; lra). lra. }
    assert (C : total (fun _ : R => 1) E = n) by (rewrite FermiModes.total_const; unfold n; ring).
    rewrite !total_add, !total_scale, chance_sum, C in X. rewrite Rinv_l in X by lra. lra.
  Qed.

  (** In terms of the averages of Thermo. *)
  Notation l := (seq 0 (length E)).
  Notation en k := (nth k E 0).
  Notation A := (ave l (fun _ => 0) (fun k => - en k)).
  Notation W s := (total (wt (fun _ => 0) (fun k => - en k) s) l).
  Lemma l_ne : l <> []. Proof using ne. destruct E; [congruence | discriminate]. Qed.
  Lemma z_wt T : zustand T E = W (/ T).
  Proof using. unfold zustand. rewrite total_seq. apply total_ext. intros k _. unfold wt. f_equal. unfold Rdiv. ring. Qed.
  Lemma chance_ave (f : R -> R) T : total (fun e => chance T E e * f e) E = A (fun k => f (en k)) (/ T).
  Proof using.
    unfold chance, ave. rewrite (total_ext _ (fun e => / zustand T E * (exp (- e / T) * f e))) by (intros; unfold Rdiv; ring).
    rewrite total_scale, <- z_wt. unfold Rdiv at 2. rewrite Rmult_comm. f_equal. rewrite total_seq. apply total_ext. intros k _. unfold wt. f_equal. f_equal. unfold Rdiv. ring.
  Qed.
  Lemma mean_ave T : mean_energy T E = A (fun k => en k) (/ T).
  Proof using. apply (chance_ave (fun e => e)). Qed.
  Lemma W_deriv s : derivable_pt_lim (fun s => W s) s (total (fun k => wt (fun _ => 0) (fun k => - en k) s k * - en k) l).
  Proof using. apply (FermiGas.total_deriv (fun k s => wt (fun _ => 0) (fun k => - en k) s k)). intros k _. apply wt_deriv. Qed.
  (** The entropy as a function of s = 1 / T. *)
  Definition ent_s (s : R) : R := ln (W s) + s * A (fun k => en k) s.
  Lemma ent_s_val T : entropy T E = ent_s (/ T).
  Proof using ne. rewrite entropy_val, z_wt, mean_ave. unfold ent_s, Rdiv. ring. Qed.
  Definition var_s (s : R) : R := A (fun k => en k * en k) s - A (fun k => en k) s * A (fun k => en k) s.
  Lemma mean_deriv_s s : derivable_pt_lim (A (fun k => en k)) s (- var_s s).
  Proof using ne.
    pose proof (ave_deriv l (fun _ => 0) (fun k => - en k) l_ne (fun k => en k) s) as D. unfold var_s.
    rewrite (ave_ext l _ _ (fun k => - en k * en k) (fun k => -1 * (en k * en k))), (ave_ext l _ _ (fun k => - en k) (fun k => -1 * en k)), !ave_scale in D by (intros; ring).
    match type of D with derivable_pt_lim _ _ ?d => replace (- _) with d by ring end. exact D.
  Qed.
  Lemma ent_deriv_s s : derivable_pt_lim ent_s s (- s * var_s s).
  Proof using ne.
    pose proof (wt_pos l (fun _ => 0) (fun k => - en k) l_ne s) as P.
    pose proof (derivable_pt_lim_comp (fun s => W s) ln s _ _ (W_deriv s) (derivable_pt_lim_ln _ P)) as D1.
    pose proof (derivable_pt_lim_mult (fun s => s) (A (fun k => en k)) s _ _ (derivable_pt_lim_id s) (mean_deriv_s s)) as D2.
    pose proof (derivable_pt_lim_plus _ _ s _ _ D1 D2) as D.
    match type of D with derivable_pt_lim _ _ ?d => replace (- s * var_s s) with d end; [exact D|].
    assert (X : total (fun k => wt (fun _ => 0) (fun k => - en k) s k * - en k) l = - (A (fun k => en k) s * W s)).
    { unfold ave. rewrite (total_ext _ (fun k => -1 * (wt (fun _ => 0) (fun k => - en k) s k * en k))) by (intros; ring). rewrite total_scale. field. lra. }
    rewrite X. field. lra.
  Qed.
  Lemma heat_var T : T <> 0 -> heat T E = var_s (/ T) / T ^ 2.
  Proof using ne.
    intros T0. rewrite heat_val. f_equal. unfold var_s. rewrite mean_ave, (chance_ave (fun e => e ^ 2)).
    rewrite (ave_ext l _ _ (fun k => en k ^ 2) (fun k => en k * en k)) by (intros; ring). ring.
  Qed.
  Lemma inv_deriv T : T <> 0 -> derivable_pt_lim (fun T => / T) T (- / T ^ 2).
  Proof using.
    intros T0. pose proof (derivable_pt_lim_div (fun _ => 1) (fun T => T) T 0 1 (derivable_pt_lim_const 1 T) (derivable_pt_lim_id T) T0) as X.
    replace (- / T ^ 2) with ((0 * T - 1 * 1) / Rsqr T) by (unfold Rsqr; field; exact T0).
    apply (derive_ext (fun T => 1 / T)); [intros; unfold Rdiv; ring | exact X].
  Qed.
  Theorem mean_slope T : T <> 0 -> derivable_pt_lim (fun T => mean_energy T E) T (heat T E).
  Proof using ne.
    intros T0. pose proof (derivable_pt_lim_comp (fun T => / T) _ T _ _ (inv_deriv T T0) (mean_deriv_s (/ T))) as C.
    apply (derive_ext _ (fun T => mean_energy T E)) in C; [|intros t; symmetry; apply mean_ave].
    match type of C with derivable_pt_lim _ _ ?d => replace (heat T E) with d end; [exact C|]. rewrite heat_var by exact T0. field. exact T0.
  Qed.
  Theorem entropy_slope T : T <> 0 -> derivable_pt_lim (fun T => entropy T E) T (heat T E / T).
  Proof using ne.
    intros T0. pose proof (derivable_pt_lim_comp (fun T => / T) _ T _ _ (inv_deriv T T0) (ent_deriv_s (/ T))) as C.
    apply (derive_ext _ (fun T => entropy T E)) in C; [|intros t; symmetry; apply ent_s_val].
    match type of C with derivable_pt_lim _ _ ?d => replace (heat T E / T) with d end; [exact C|]. rewrite heat_var by exact T0. field. exact T0.
  Qed.
  Theorem entropy_hot eps : 0 < eps -> exists T0, 0 < T0 /\ forall T, T0 < T -> Rabs (entropy T E - ln (INR (length E))) < eps.
  Proof using ne.
    intros He. assert (CT : continuity_pt ent_s 0) by (apply derivable_continuous_pt; eexists; apply ent_deriv_s).
    assert (E0 : ent_s 0 = ln (INR (length E))).
    { unfold ent_s. rewrite Rmult_0_l, Rplus_0_r. f_equal. rewrite (total_ext _ (fun _ => 1)) by (intros k _; unfold wt; replace (0 + 0 * - en k) with 0 by ring; apply exp_0).
      rewrite FermiModes.total_const, seq_length. ring. }
    destruct (CT eps He) as (d & Pd & Hd). exists (/ d). split; [apply Rinv_0_lt_compat; exact Pd|].
    intros T HT. assert (TP : 0 < T) by (pose proof (Rinv_0_lt_compat d Pd); lra).
    rewrite ent_s_val, <- E0. apply (Hd (/ T)). split; [split; [exact Logic.I | apply Rlt_not_eq, Rinv_0_lt_compat; exact TP]|].
    cbn. unfold R_dist. rewrite Rminus_0_r, Rabs_right by (left; apply Rinv_0_lt_compat; exact TP).
    rewrite <- (Rinv_inv d). apply Rinv_lt_contravar; [apply Rmult_lt_0_compat; [apply Rinv_0_lt_compat; exact Pd | exact TP] | exact HT].
  Qed.
End Heat.
