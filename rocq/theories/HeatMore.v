(** Thermodynamics of a list of energies: shifts, sums of systems, low temperature. *)
From Coq Require Import List Arith Lia Reals Lra Bool Permutation.
From Verif Require Import Scalars Res Matrix ModelGeometry ModelPhase ModelSymmetry SymBase ModelBase ModelThermal SpecThermal ThermalBase ThermalBasis ThermalResponse SpecHeat Thermo HeatCore.
Import ListNotations.
Local Open Scope R_scope.

(** ** The order of the energies *)
Lemma z_perm T E F : Permutation E F -> zustand T E = zustand T F.
Proof. intros P. apply total_perm, P. Qed.
Lemma chance_perm T E F e : Permutation E F -> chance T E e = chance T F e.
Proof. intros P. unfold chance. rewrite (z_perm T E F P). reflexivity. Qed.
Lemma mean_perm T E F : Permutation E F -> mean_energy T E = mean_energy T F.
Proof. intros P. unfold mean_energy. rewrite (total_perm _ _ _ P). apply total_ext. intros e _. rewrite (chance_perm T E F e P). reflexivity. Qed.
Lemma entropy_perm T E F : Permutation E F -> entropy T E = entropy T F.
Proof. intros P. unfold entropy. rewrite (total_perm _ _ _ P). f_equal. apply total_ext. intros e _. rewrite (chance_perm T E F e P). reflexivity. Qed.
Lemma heat_perm T E F : Permutation E F -> heat T E = heat T F.
Proof. intros P. unfold heat. rewrite (total_perm _ _ _ P). f_equal. apply total_ext. intros e _. rewrite (chance_perm T E F e P), (mean_perm T E F P). reflexivity. Qed.

(** ** A constant added to all energies *)
Section Shift.
  Variables (E : list R) (c T : R).
  Hypothesis ne : E <> [].
  Notation F := (map (fun e => e + c) E).
  Lemma shift_ne : F <> []. Proof using ne. destruct E; [congruence | discriminate]. Qed.
  Lemma exp_shift e : exp (- (e + c) / T) = exp (- c / T) * exp (- e / T).
  Proof using. rewrite <- exp_plus. f_equal. unfold Rdiv. ring. Qed.
  Lemma z_shift : zustand T F = exp (- c / T) * zustand T E.
  Proof using. unfold zustand. rewrite total_map, <- total_scale. apply total_ext. intros e _. apply exp_shift. Qed.
  Lemma chance_shift e : chance T F (e + c) = chance T E e.
  Proof using ne. unfold chance. rewrite z_shift, exp_shift. pose proof (z_pos E ne T). pose proof (exp_pos (- c / T)). field. lra. Qed.
  Lemma mean_shift : mean_energy T F = mean_energy T E + c.
  Proof using ne.
    unfold mean_energy. rewrite total_map. rewrite (total_ext _ (fun e => chance T E e * e + c * chance T E e)) by (intros; rewrite chance_shift; ring).
    rewrite total_add, total_scale, chance_sum by exact ne. ring.
  Qed.
  Lemma entropy_shift : entropy T F = entropy T E.
  Proof using ne. unfold entropy. rewrite total_map. f_equal. apply total_ext. intros e _. rewrite chance_shift. reflexivity. Qed.
  Lemma heat_shift : heat T F = heat T E.
  Proof using ne. unfold heat. rewrite total_map. f_equal. apply total_ext. intros e _. rewrite chance_shift, mean_shift. f_equal. ring. Qed.
End Shift.

(** ** Two systems *)
Lemma total_sums (f : R -> R) E F : total f (energy_sums E F) = total (fun e => total (fun x => f (e + x)) F) E.
Proof. induction E as [|e E IH]; [reflexivity|]. unfold energy_sums. cbn [flat_map]. rewrite total_app, total_map, total_cons. f_equal. exact IH. Qed.
Lemma total_prod (f g : R -> R) E F : total (fun e => total (fun x => f e * g x) F) E = total f E * total g F.
Proof. rewrite (total_ext _ (fun e => total g F * f e)) by (intros; rewrite total_scale; ring). rewrite total_scale. ring. Qed.
Section Sums.
  Variables (E F : list R) (T : R).
  Hypotheses (neE : E <> []) (neF : F <> []).
  Lemma sums_ne : energy_sums E F <> [].
  Proof using neE neF. unfold energy_sums. destruct E as [|e E']; [congruence|]. destruct F as [|f F']; [congruence|]. cbn. discriminate. Qed.
  Lemma z_sums : zustand T (energy_sums E F) = zustand T E * zustand T F.
  Proof using.
    unfold zustand. rewrite total_sums, <- total_prod. apply total_ext. intros e _. apply total_ext. intros f _.
    rewrite <- exp_plus. f_equal. unfold Rdiv. ring.
  Qed.
  Lemma chance_sums e f : chance T (energy_sums E F) (e + f) = chance T E e * chance T F f.
  Proof using neE neF.
    unfold chance. rewrite z_sums. replace (- (e + f) / T) with (- e / T + - f / T) by (unfold Rdiv; ring). rewrite exp_plus.
    pose proof (z_pos E neE T). pose proof (z_pos F neF T). field. lra.
  Qed.
  Lemma mean_sums : mean_energy T (energy_sums E F) = mean_energy T E + mean_energy T F.
  Proof using neE neF.
    unfold mean_energy. rewrite total_sums.
    rewrite (total_ext _ (fun e => total (fun f => (chance T E e * e) * chance T F f) F + total (fun f => chance T E e * (chance T F f * f)) F))
      by (intros e _; rewrite <- total_add; apply total_ext; intros f _; rewrite chance_sums; ring).
    rewrite total_add, (total_prod (fun e => chance T E e * e) (chance T F)), (total_prod (chance T E) (fun f => chance T F f * f)).
    rewrite !chance_sum by assumption. ring.
  Qed.
  Lemma entropy_sums : entropy T (energy_sums E F) = entropy T E + entropy T F.
  Proof using neE neF.
    rewrite !entropy_val by (assumption || apply sums_ne). rewrite z_sums, mean_sums, ln_mult by (apply z_pos; assumption). unfold Rdiv. ring.
  Qed.
  Lemma heat_sums : heat T (energy_sums E F) = heat T E + heat T F.
  Proof using neE neF.
    rewrite !heat_val by (assumption || apply sums_ne). rewrite mean_sums, total_sums.
    rewrite (total_ext _ (fun e => total (fun f => (chance T E e * e ^ 2) * chance T F f) F + (total (fun f => (2 * (chance T E e * e)) * (chance T F f * f)) F + total (fun f => chance T E e * (chance T F f * f ^ 2)) F)))
      by (intros e _; rewrite <- !total_add; apply total_ext; intros f _; rewrite chance_sums; ring).
    rewrite !total_add, (total_prod (fun e => chance T E e * e ^ 2) (chance T F)), (total_prod (fun e => 2 * (chance T E e * e)) (fun f => chance T F f * f)), (total_prod (chance T E) (fun f => chance T F f * f ^ 2)).
    rewrite total_scale, !chance_sum by assumption. fold (mean_energy T E) (mean_energy T F). unfold Rdiv. ring.
  Qed.
End Sums.

(** ** Low temperature *)
Lemma tends_comp f g L : continuity_pt g L -> tends_at_0 f L -> tends_at_0 (fun T => g (f T)) (g L).
Proof.
  intros C H eps He. destruct (C eps He) as (d & Pd & Hd). destruct (H d Pd) as (d' & Pd' & Hd'). exists d'. split; [exact Pd'|]. intros T HT.
  destruct (Req_dec (f T) L) as [->|N]; [rewrite Rminus_eq_0, Rabs_R0; exact He|]. apply (Hd (f T)). split; [split; [exact Logic.I | congruence] | apply Hd', HT].
Qed.
Lemma tends_linear f C : (forall T, 0 < T -> Rabs (f T) <= C * T) -> tends_at_0 f 0.
Proof.
  intros B eps He. assert (0 <= C) by (specialize (B 1 ltac:(lra)); pose proof (Rabs_pos (f 1)); lra). exists (eps / (C + 1)). split; [apply Rdiv_lt_0_compat; lra|].
  intros T (T0 & HT). rewrite Rminus_0_r. eapply Rle_lt_trans; [apply B; exact T0|]. apply Rmult_lt_compat_r with (r := C + 1) in HT; [|lra].
  unfold Rdiv in HT. rewrite Rmult_assoc, Rinv_l, Rmult_1_r in HT by lra. nra.
Qed.
Lemma weight_cold x : 0 <= x -> tends_at_0 (fun T => exp (- x / T)) (if Req_EM_T x 0 then 1 else 0).
Proof.
  intros Hx. destruct (Req_EM_T x 0) as [->|N].
  - apply (tends_ext (fun _ => 1)); [|apply tends_const]. intros T _. replace (- 0 / T) with 0 by (unfold Rdiv; ring). symmetry. apply exp_0.
  - apply (tends_linear _ (/ x)). intros T HT. rewrite Rabs_right by (left; apply exp_pos). eapply Rle_trans; [apply exp_small; lra|]. right. unfold Rdiv. ring.
Qed.
Lemma moment_cold x : 0 <= x -> tends_at_0 (fun T => x / T * exp (- x / T)) 0.
Proof.
  intros Hx. destruct (Req_EM_T x 0) as [->|N].
  - apply (tends_ext (fun _ => 0)); [|apply tends_const]. intros T _. unfold Rdiv. ring.
  - apply (tends_linear _ (4 / x)). intros T HT. assert (D : 0 < x / T) by (apply Rdiv_lt_0_compat; lra). pose proof (exp_pos (- x / T)).
    rewrite Rabs_right by (apply Rle_ge, Rmult_le_pos; lra).
    assert (S : exp (- x / T) <= (T / (x / 2)) * (T / (x / 2))).
    { replace (- x / T) with (- (x / 2) / T + - (x / 2) / T) by (unfold Rdiv; field; lra). rewrite exp_plus.
      pose proof (exp_small (x / 2) T ltac:(lra) HT). pose proof (exp_pos (- (x / 2) / T)). apply Rmult_le_compat; lra. }
    apply Rmult_le_compat_l with (r := x / T) in S; [|lra]. eapply Rle_trans; [exact S|]. right. field. lra.
Qed.
Lemma occurs_ge E m : In m E -> 1 <= occurs m E.
Proof.
  intros H. apply in_split in H as (a & b & ->). unfold occurs. rewrite total_app, total_cons.
  assert (P : forall l, 0 <= total (fun e => if Req_EM_T e m then 1 else 0) l) by (intros; apply total_ge0; intros e _; destruct (Req_EM_T e m); lra).
  pose proof (P a). pose proof (P b). destruct (Req_EM_T m m); [lra | congruence].
Qed.
Theorem entropy_cold E m : smallest m E -> tends_at_0 (fun T => entropy T E) (ln (occurs m E)).
Proof.
  intros (IN & LE). assert (ne : E <> []) by (intros ->; destruct IN). pose proof (occurs_ge E m IN) as G.
  set (F := map (fun e => e + - m) E). assert (neF : F <> []) by (apply shift_ne; exact ne).
  apply (tends_ext (fun T => ln (zustand T F) + mean_energy T F / T)); [intros T _; rewrite <- entropy_val by exact neF; apply entropy_shift; exact ne|].
  assert (POS : forall e, In e E -> 0 <= e + - m) by (intros e He; specialize (LE e He); lra).
  assert (Z : tends_at_0 (fun T => zustand T F) (occurs m E)).
  { apply (tends_ext (fun T => total (fun e => exp (- (e + - m) / T)) E)); [intros T _; unfold zustand, F; rewrite total_map; reflexivity|].
    apply (tends_total E (fun e T => exp (- (e + - m) / T))). intros e He. pose proof (weight_cold (e + - m) (POS e He)) as W.
    destruct (Req_EM_T (e + - m) 0), (Req_EM_T e m); try exact W; exfalso; lra. }
  assert (U : tends_at_0 (fun T => mean_energy T F / T) 0).
  { replace 0 with (0 * / occurs m E) by ring.
    apply (tends_ext (fun T => total (fun e => (e + - m) / T * exp (- (e + - m) / T)) E * / zustand T F)).
    - intros T HT. unfold mean_energy, chance. set (z := zustand T F). unfold F. rewrite total_map, Rmult_comm. match goal with |- _ = ?x / T => replace (x / T) with (/ T * x) by (unfold Rdiv; ring) end. rewrite <- !total_scale.
      apply total_ext. intros e _. unfold Rdiv. ring.
    - apply tends_mul; [|apply (tends_comp _ Rinv); [|exact Z]].
      + pose proof (tends_total E (fun e T => (e + - m) / T * exp (- (e + - m) / T)) (fun _ => 0)) as X. rewrite (total_zero (fun _ : R => 0)) in X by reflexivity.
        apply X. intros e He. apply moment_cold, POS, He.
      + apply (continuity_pt_inv (fun x => x)); [apply derivable_continuous_pt, derivable_pt_id | lra]. }
  replace (ln (occurs m E)) with (ln (occurs m E) + 0) by ring. apply tends_plus; [|exact U]. apply (tends_comp _ ln); [|exact Z].
  apply derivable_continuous_pt. eexists. apply derivable_pt_lim_ln. lra.
Qed.
