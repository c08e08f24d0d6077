(** The Fermi function and its derivatives. *)
From Coq Require Import List Arith Lia Reals Lra ZArith Bool.
From Verif Require Import Scalars Res Sums Matrix ModelPhase ModelSymmetry SpecThermal ThermalBase SpecFermiGas ModelFermiGas.
Import ListNotations.
Local Open Scope R_scope.

Lemma rle_b_true x y : x <= y -> rle_b x y = true.
Proof. intros H. unfold rle_b. destruct Rle_dec; [reflexivity|contradiction]. Qed.
Lemma rle_b_false x y : y < x -> rle_b x y = false.
Proof. intros H. unfold rle_b. destruct Rle_dec; [lra|reflexivity]. Qed.

Definition sigma (x : R) : R := 1 / (exp x + 1).
Lemma sigma_pos x : 0 < sigma x.
Proof. unfold sigma. pose proof (exp_pos x). apply Rdiv_lt_0_compat; lra. Qed.
Lemma sigma_lt1 x : sigma x < 1.
Proof.
  unfold sigma. pose proof (exp_pos x). apply (Rmult_lt_reg_r (exp x + 1)); [lra|].
  unfold Rdiv. rewrite Rmult_assoc, Rinv_l by lra. lra.
Qed.
Lemma sigma_compl x : 1 - sigma x = exp x / (exp x + 1).
Proof. unfold sigma. pose proof (exp_pos x). field. lra. Qed.
Lemma sigma_opp x : sigma x + sigma (- x) = 1.
Proof. unfold sigma. rewrite exp_Ropp. pose proof (exp_pos x). field. lra. Qed.
Lemma sigma_decr x y : x < y -> sigma y < sigma x.
Proof.
  intros H. unfold sigma. apply exp_increasing in H. pose proof (exp_pos x).
  unfold Rdiv. rewrite !Rmult_1_l. apply Rinv_lt_contravar; nra.
Qed.
Lemma sigma_deriv x : derivable_pt_lim sigma x (- (sigma x * (1 - sigma x))).
Proof.
  replace (- (sigma x * (1 - sigma x))) with ((0 * (exp x + 1) - (exp x + 0) * 1) / (Rsqr (exp x + 1))).
  - apply (derivable_pt_lim_div (fun _ => 1) (fun y => exp y + 1) x).
    + apply derivable_pt_lim_const.
    + apply (derivable_pt_lim_plus exp (fun _ => 1)); [apply derivable_pt_lim_exp|apply derivable_pt_lim_const].
    + pose proof (exp_pos x). lra.
  - rewrite sigma_compl. unfold sigma, Rsqr. pose proof (exp_pos x). field. lra.
Qed.
Lemma sigma_affine a c x : derivable_pt_lim (fun y => sigma (a * y + c)) x (a * - (sigma (a * x + c) * (1 - sigma (a * x + c)))).
Proof.
  rewrite Rmult_comm.
  apply (derivable_pt_lim_comp (fun y => a * y + c) sigma x a); [|apply sigma_deriv].
  assert (E : derivable_pt_lim (fun y => a * y + c) x (a * 1 + 0)); [|replace (a * 1 + 0) with a in E by ring; exact E].
  apply (derivable_pt_lim_plus (fun y => a * y) (fun _ => c)); [|apply derivable_pt_lim_const].
  apply (derivable_pt_lim_scal (fun y => y) a x 1). apply derivable_pt_lim_id.
Qed.
Lemma deriv_ext f g x d : (forall y, f y = g y) -> derivable_pt_lim f x d -> derivable_pt_lim g x d.
Proof. intros E H eps He. destruct (H eps He) as (del & Hd). exists del. intros h H1 H2. rewrite <- !E. apply Hd; assumption. Qed.

Lemma sigma_aff f a c x d : (forall y, sigma (a * y + c) = f y) -> d = a * - (f x * (1 - f x)) -> derivable_pt_lim f x d.
Proof. intros E ->. apply (deriv_ext (fun y => sigma (a * y + c))); [exact E|]. rewrite <- E. apply sigma_affine. Qed.

Lemma fermi_sigma b mu e : fermi (Beta b) mu e = sigma (b * (e - mu)).
Proof. reflexivity. Qed.
Lemma fermi_occupation b mu e : fermi (Beta b) mu e = occupation b mu e.
Proof.
  cbn [fermi]. unfold occupation. replace (- b * (e - mu)) with (- (b * (e - mu))) by ring. rewrite exp_Ropp.
  pose proof (exp_pos (b * (e - mu))). field. lra.
Qed.
Lemma occupation_range b mu e : 0 < occupation b mu e < 1.
Proof. rewrite <- fermi_occupation, fermi_sigma. split; [apply sigma_pos|apply sigma_lt1]. Qed.
Lemma occupation_mu b mu mu' e : 0 < b -> mu < mu' -> occupation b mu e < occupation b mu' e.
Proof. intros Hb H. rewrite <- !fermi_occupation, !fermi_sigma. apply sigma_decr. nra. Qed.
Lemma occupation_e b mu e e' : 0 < b -> e < e' -> occupation b mu e' < occupation b mu e.
Proof. intros Hb H. rewrite <- !fermi_occupation, !fermi_sigma. apply sigma_decr. nra. Qed.
Lemma occupation_opp b mu e : occupation b mu e + occupation b (- mu) (- e) = 1.
Proof.
  rewrite <- !fermi_occupation, !fermi_sigma. rewrite <- (sigma_opp (b * (e - mu))). f_equal. f_equal. ring.
Qed.
Lemma occupation_dmu b mu e :
  derivable_pt_lim (fun m => occupation b m e) mu (b * (occupation b mu e * (1 - occupation b mu e))).
Proof.
  apply (sigma_aff _ (- b) (b * e)); [intros y; rewrite <- fermi_occupation, fermi_sigma; f_equal; ring|ring].
Qed.

Lemma derivatives_ok b mu e eta : exists dmu de db,
  fermi_derivatives (Beta b) mu e eta = Ok (dmu, de, db) /\
  derivable_pt_lim (fun m => fermi (Beta b) m e) mu dmu /\
  derivable_pt_lim (fun x => fermi (Beta b) mu x) e de /\
  derivable_pt_lim (fun c => fermi (Beta c) mu e) b db.
Proof.
  unfold fermi_derivatives. eexists; eexists; eexists. split; [reflexivity|]. split; [|split].
  - apply (sigma_aff _ (- b) (b * e)); [intros y; rewrite fermi_sigma; f_equal; ring|ring].
  - apply (sigma_aff _ b (- b * mu)); [intros y; rewrite fermi_sigma; f_equal; ring|ring].
  - apply (sigma_aff _ (e - mu) 0); [intros y; rewrite fermi_sigma; f_equal; ring|ring].
Qed.
Lemma dfdmu_ok b mu e eta : dfdmu (Beta b) mu e eta = Ok (b * (occupation b mu e * (1 - occupation b mu e))).
Proof. unfold dfdmu, fermi_derivatives. cbn [bind fst]. rewrite fermi_occupation. f_equal. ring. Qed.

Lemma fermi_function b mu e :
  0 < fermi (Beta b) mu e < 1 /\
  fermi (Beta b) mu e + fermi (Beta b) (- mu) (- e) = 1 /\
  fermi (Beta b) mu e = occupation b mu e /\
  (forall e', 0 < b -> e < e' -> fermi (Beta b) mu e' < fermi (Beta b) mu e) /\
  (forall mu', 0 < b -> mu < mu' -> fermi (Beta b) mu e < fermi (Beta b) mu' e).
Proof.
  rewrite !fermi_occupation. split; [apply occupation_range|]. split; [apply occupation_opp|]. split; [reflexivity|].
  split; intros; rewrite fermi_occupation; [apply occupation_e|apply occupation_mu]; assumption.
Qed.

(** ** Zero temperature *)
Lemma sigma_small x T : 0 < x -> 0 < T -> 0 < sigma (x / T) <= T / x.
Proof.
  intros Hx HT. split; [apply sigma_pos|].
  apply (Rle_trans _ (exp (- x / T))); [|apply exp_small; assumption].
  unfold sigma. replace (- x / T) with (- (x / T)) by (field; lra). rewrite exp_Ropp.
  unfold Rdiv at 1. rewrite Rmult_1_l. apply Rinv_le_contravar; [apply exp_pos|lra].
Qed.
Lemma fermi_zero_temperature mu e : e <> mu ->
  tends_at_0 (fun T => fermi (Beta (1 / T)) mu e) (fermi BetaInf mu e).
Proof.
  intros Hne eps He.
  assert (C : e < mu \/ mu < e) by lra. destruct C as [C|C].
  - exists (eps * (mu - e)). split; [nra|]. intros T (H0 & H1). unfold fermi at 2. rewrite rle_b_true by lra.
    rewrite fermi_sigma. replace (1 / T * (e - mu)) with (- ((mu - e) / T)) by (field; lra).
    pose proof (sigma_opp ((mu - e) / T)). pose proof (sigma_small (mu - e) T ltac:(lra) H0).
    assert (T / (mu - e) < eps).
    { apply (Rmult_lt_reg_r (mu - e)); [lra|]. unfold Rdiv. rewrite Rmult_assoc, Rinv_l by lra. lra. }
    apply Rabs_def1; lra.
  - exists (eps * (e - mu)). split; [nra|]. intros T (H0 & H1). unfold fermi at 2. rewrite rle_b_false by lra.
    rewrite fermi_sigma. replace (1 / T * (e - mu)) with ((e - mu) / T) by (field; lra).
    pose proof (sigma_small (e - mu) T ltac:(lra) H0).
    assert (T / (e - mu) < eps).
    { apply (Rmult_lt_reg_r (e - mu)); [lra|]. unfold Rdiv. rewrite Rmult_assoc, Rinv_l by lra. lra. }
    apply Rabs_def1; lra.
Qed.
Lemma fermi_at_mu b mu : fermi (Beta b) mu mu = 1 / 2.
Proof. rewrite fermi_sigma. unfold sigma. replace (b * (mu - mu)) with 0 by ring. rewrite exp_0. lra. Qed.
