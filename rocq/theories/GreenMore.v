(** Periodicity of the transform of frequencies, the Lorentzian spectral function and
    linear response. *)
From Coq Require Import List Arith Lia Reals Lra ZArith Bool Ring Ratan.
From Verif Require Import Scalars Res Sums ModelPhase ModelSymmetry SymBase SpecThermal ThermalBase SpecFermiGas ModelFermiGas FermiBase FermiGrid FermiModes FermiGreen
  ModelGreen SpecGreen GreenFrq GreenKernel GreenTime GreenFT.
Import ListNotations.
Local Open Scope R_scope.

(** ** The transform of frequencies *)
Lemma ft_period fmt b ws g : 0 < b -> fmt <> OtherFormat -> length g = length ws -> (forall w, In w ws -> allowed fmt b w) -> exists G,
  (forall taus, imagfrq_ft taus ws g b = Ok (map G taus)) /\ (forall t, G (t - b) = re (match fmt with Fermion => -1 | _ => 1 end) *c G t).
Proof.
  intros Hb Hf HL Ha. exists (fun t => re (1 / b) *c klsum (seq 0 (length ws)) (fun i => nth i g c0 *c wave (- (nth i ws 0 * t)))).
  split; [intros taus; apply ft_ok; [lra|exact HL]|]. intros t.
  transitivity (re (1 / b) *c (re (match fmt with Fermion => -1 | _ => 1 end) *c klsum (seq 0 (length ws)) (fun i => nth i g c0 *c wave (- (nth i ws 0 * t))))); [|ring].
  f_equal. rewrite <- klsum_mul_l. apply klsum_ext. intros i Hi. apply in_seq in Hi.
  replace (- (nth i ws 0 * (t - b))) with (- (nth i ws 0 * t) + nth i ws 0 * b) by ring. rewrite wave_add.
  rewrite (allowed_wave fmt b) by (try assumption; apply Ha, nth_In; lia).
  replace (real (- sign_of fmt)) with (re (match fmt with Fermion => -1 | _ => 1 end)) by (destruct fmt; unfold re, real; cbn; f_equal; ring). ring.
Qed.

Lemma klsum_rev n (f : nat -> CR) : klsum (seq 0 n) f = klsum (seq 0 n) (fun i => f (n - 1 - i)%nat).
Proof.
  induction n as [|n IH]; [reflexivity|]. rewrite seq_S at 1. rewrite klsum_app. cbn [seq]. rewrite <- seq_shift.
  change (klsum (0%nat :: ?l) ?h) with (h 0%nat +c klsum l h). cbn beta. rewrite klsum_map. change (klsum [(0 + n)%nat] f) with (f n +c c0).
  replace (S n - 1 - 0)%nat with n by lia. rewrite IH. rewrite (klsum_ext (seq 0 n) (fun x => f (S n - 1 - S x)%nat) (fun i => f (n - 1 - i)%nat)); [ring|].
  intros i Hi. apply in_seq in Hi. f_equal. lia.
Qed.
Lemma mirror_nth ws i : mirror ws -> (i < length ws)%nat -> nth (length ws - 1 - i) ws 0 = - nth i ws 0.
Proof.
  intros M Hi. unfold mirror in M.
  assert (E : nth i (rev ws) 0 = - nth i ws 0).
  { rewrite M. rewrite (nth_indep _ 0 (- 0)) by (rewrite map_length; exact Hi). apply map_nth. }
  rewrite rev_nth in E by exact Hi. rewrite <- E. f_equal. lia.
Qed.
Lemma conj_symmetric_nth g i : rev g = map (fun z => conj z) g -> (i < length g)%nat -> nth (length g - 1 - i) g c0 = conj (nth i g c0).
Proof.
  intros M Hi. assert (E : nth i (rev g) c0 = conj (nth i g c0)).
  { rewrite M. rewrite (nth_indep _ c0 (conj c0)) by (rewrite map_length; exact Hi). apply (map_nth (fun z => conj z)). }
  rewrite rev_nth in E by exact Hi. rewrite <- E. f_equal. lia.
Qed.
Lemma conj_fix z : conj z = z -> snd z = 0.
Proof. destruct z as [x y]. cbn. intros E. injection E as E. lra. Qed.
Lemma ft_real b ws g : 0 < b -> length g = length ws -> mirror ws -> rev g = map kconj g -> exists G,
  forall taus, imagfrq_ft taus ws g b = Ok (map (fun t => re (G t)) taus).
Proof.
  intros Hb HL M C. pose (H := fun t => re (1 / b) *c klsum (seq 0 (length ws)) (fun i => nth i g c0 *c wave (- (nth i ws 0 * t)))).
  exists (fun t => fst (H t)). intros taus. rewrite ft_ok by (try exact HL; lra). f_equal. apply map_ext. intros t. fold (H t).
  assert (E : snd (H t) = 0).
  { apply conj_fix. unfold H. rewrite kconj_mul. change (conj (re (1 / b))) with (conj (real (1 / b))). rewrite real_conj. f_equal.
    rewrite klsum_conj. symmetry. rewrite klsum_rev. apply klsum_ext. intros i Hi. apply in_seq in Hi.
    rewrite kconj_mul, wave_conj, mirror_nth by (try exact M; lia). rewrite <- HL at 1. rewrite conj_symmetric_nth by (try exact C; lia).
    f_equal. f_equal. ring. }
  destruct (H t) as [x y]. cbn in *. subst y. reflexivity.
Qed.
(** The frequencies of [get_matsubara_frqs] are symmetric. *)
Lemma increasing_rev_opp l : increasing l -> increasing (rev (map Ropp l)).
Proof.
  assert (A : forall l x, increasing l -> (forall y, In y l -> y < x) -> increasing (l ++ [x])).
  { clear. intros l x H. induction H as [|y l H IH F]; intros B; cbn; [repeat constructor|]. constructor; [apply IH; intros; apply B; right; assumption|].
    rewrite Forall_forall in *. intros z Hz. apply in_app_iff in Hz as [Hz|[<-|[]]]; [apply F, Hz|apply B; left; reflexivity]. }
  intros H. induction H as [|x l H IH F]; cbn; [constructor|]. apply A; [exact IH|]. intros y Hy. apply in_rev, in_map_iff in Hy as (z & <- & Hz).
  rewrite Forall_forall in F. specialize (F z Hz). lra.
Qed.
Lemma increasing_eq l : forall m, increasing l -> increasing m -> (forall x, In x l <-> In x m) -> l = m.
Proof.
  induction l as [|x l IH]; intros [|y m] Hl Hm E; [reflexivity|exfalso; apply (E y); left; reflexivity|exfalso; apply (E x); left; reflexivity|].
  inversion Hl as [|? ? Hl' Fl]; subst. inversion Hm as [|? ? Hm' Fm]; subst. rewrite Forall_forall in Fl, Fm.
  assert (x = y).
  { destruct (proj1 (E x) (or_introl eq_refl)) as [|A]; [congruence|]. destruct (proj2 (E y) (or_introl eq_refl)) as [|B]; [congruence|].
    apply Fm in A. apply Fl in B. lra. }
  subst y. f_equal. apply IH; try assumption. intros z. split; intros Hz.
  - destruct (proj1 (E z) (or_intror Hz)) as [<-|]; [|assumption]. apply Fl in Hz. lra.
  - destruct (proj2 (E z) (or_intror Hz)) as [<-|]; [|assumption]. apply Fm in Hz. lra.
Qed.
Lemma matsubara_mirror fmt b m ws : 0 < b -> matsubara_frqs b m fmt = Ok ws -> mirror ws.
Proof.
  intros Hb E. unfold mirror. assert (I : increasing ws).
  { destruct fmt; [destruct (fermion_frqs_ok b m Hb) as (l & E' & I & _)|destruct (boson_frqs_ok b m Hb) as (l & E' & I & _)|].
    - congruence.
    - congruence.
    - unfold matsubara_frqs in E. destruct Req_EM_T; discriminate. }
  rewrite <- (rev_involutive (map Ropp ws)). f_equal. apply increasing_eq; [exact I|apply increasing_rev_opp, I|].
  intros x. rewrite <- in_rev, in_map_iff. destruct (matsubara_cases fmt b m ws Hb E) as (_ & Hf & W).
  assert (S : forall x, In x ws -> In (- x) ws).
  { clear x. intros x Hx. apply W in Hx as (z & -> & H). apply W. destruct fmt; [| |contradiction].
    - exists (- z - 1)%Z. cbn [frq] in *. rewrite Rabs_Ropp. split; [rewrite minus_IZR, opp_IZR; unfold Rdiv; ring|]. destruct H as [H|[H _]]; [left; exact H|discriminate].
    - exists (- z)%Z. cbn [frq] in *. rewrite Rabs_Ropp. split; [rewrite opp_IZR; unfold Rdiv; ring|]. destruct H as [H|[_ H]]; [left; exact H|right; split; [reflexivity|lra]]. }
  split.
  - intros Hx. exists (- x). split; [ring|apply S, Hx].
  - intros (y & <- & Hy). apply S, Hy.
Qed.

(** ** The Lorentzian *)
Lemma atan_scaled eps eta w : 0 < eta ->
  derivable_pt_lim (fun x => 2 * atan ((x - eps) / eta)) w (2 * PI * (eta / PI / (eta ^ 2 + (w - eps) ^ 2))).
Proof.
  intros He. assert (P := PI_RGT_0).
  assert (D : derivable_pt_lim (fun x => (x - eps) / eta) w (/ eta)).
  { apply (deriv_ext (fun x => / eta * x + - eps / eta)); [intros; field; lra|].
    pose proof (derivable_pt_lim_plus (fun x => / eta * x) (fun _ => - eps / eta) w _ _
      (derivable_pt_lim_scal (fun x => x) (/ eta) w 1 (derivable_pt_lim_id w)) (derivable_pt_lim_const (- eps / eta) w)) as H.
    replace (/ eta * 1 + 0) with (/ eta) in H by ring. exact H. }
  pose proof (derivable_pt_lim_comp _ atan w _ _ D (derivable_pt_lim_atan ((w - eps) / eta))) as C.
  pose proof (derivable_pt_lim_scal _ 2 w _ C) as S.
  replace (2 * PI * (eta / PI / (eta ^ 2 + (w - eps) ^ 2))) with (2 * (/ (1 + ((w - eps) / eta) ^ 2) * / eta)); [exact S|].
  assert (Q1 : 0 <= (w - eps) ^ 2) by (simpl; rewrite Rmult_1_r; apply Rle_0_sqr). assert (Q2 : 0 < eta ^ 2) by (apply pow_lt, He).
  field. repeat split; try lra; try (intros Q; simpl in *; lra).
Qed.
Lemma atan_limit : tends_at_infinity atan (PI / 2).
Proof.
  intros e He. assert (P := PI_RGT_0). set (d := Rmin e (PI / 2)). assert (Hd : 0 < d <= PI / 2) by (unfold d; split; [apply Rmin_glb_lt; lra|apply Rmin_r]).
  exists (tan (PI / 2 - d)). intros x Hx. assert (B := atan_bound x).
  assert (A : PI / 2 - d < atan x) by (rewrite <- (atan_tan (PI / 2 - d)) by lra; apply atan_increasing, Hx).
  assert (d <= e) by apply Rmin_l. unfold Rabs. destruct Rcase_abs; lra.
Qed.
Lemma lorentzian eps eta : 0 < eta -> exists A I,
  (forall ws, noninteracting_spectral_fn ws eps eta = Ok (map A ws)) /\ (forall w, 0 < A w <= A eps) /\
  (forall w, A (eps - w) = A (eps + w)) /\ A (eps + eta) = A eps / 2 /\
  (forall a c, integral (fun w => re (A w)) a c (re (I a c))) /\ (forall a c, a < c -> 0 < I a c < 2 * PI) /\
  tends_at_infinity (fun L => I (- L) L) (2 * PI).
Proof.
  intros He. assert (P := PI_RGT_0).
  exists (fun w => 2 * PI * (eta / PI / (eta ^ 2 + (w - eps) ^ 2))), (fun a c => 2 * atan ((c - eps) / eta) - 2 * atan ((a - eps) / eta)).
  assert (D : forall w, 0 < eta ^ 2 + (w - eps) ^ 2) by (intros w; pose proof (pow_lt eta 2 He); pose proof (pow2_ge_0 (w - eps)); lra).
  split; [|split; [|split; [|split; [|split; [|split]]]]].
  - intros ws. unfold noninteracting_spectral_fn. apply rmap_total. intros w _. rewrite r_over_r_test. unfold zero_r.
    destruct Req_EM_T as [E|]; [specialize (D w); lra|]. reflexivity.
  - intros w. assert (0 < eta / PI) by (apply Rdiv_lt_0_compat; lra). split; [apply Rmult_lt_0_compat; [lra|]; apply Rdiv_lt_0_compat; [assumption|apply D]|].
    apply Rmult_le_compat_l; [lra|]. apply Rmult_le_compat_l; [lra|]. apply Rinv_le_contravar; [apply D|]. pose proof (pow2_ge_0 (w - eps)).
    replace ((eps - eps) ^ 2) with 0 by ring. lra.
  - intros w. replace ((eps - w - eps) ^ 2) with ((eps + w - eps) ^ 2) by ring. reflexivity.
  - pose proof (pow_lt eta 2 He). replace ((eps + eta - eps) ^ 2) with (eta ^ 2) by ring. replace ((eps - eps) ^ 2) with 0 by ring. field. repeat split; lra.
  - intros a c. pose proof (integral_antiderivative (fun w => re (2 * PI * (eta / PI / (eta ^ 2 + (w - eps) ^ 2)))) (fun x => real (2 * atan ((x - eps) / eta))) a c) as J.
    replace (re (2 * atan ((c - eps) / eta) - 2 * atan ((a - eps) / eta))) with (c_sub (real (2 * atan ((c - eps) / eta))) (real (2 * atan ((a - eps) / eta)))).
    + apply J. intros t. apply c_deriv_real, atan_scaled, He.
    + unfold c_sub, re, real. apply injective_projections; cbn; ring.
  - intros a c H. assert (B1 := atan_bound ((c - eps) / eta)). assert (B2 := atan_bound ((a - eps) / eta)).
    assert (atan ((a - eps) / eta) < atan ((c - eps) / eta)); [|lra]. apply atan_increasing. apply Rmult_lt_compat_r; [apply Rinv_0_lt_compat, He|lra].
  - intros e Hee. destruct (atan_limit (e / 4)) as (B & HB); [lra|]. exists (eta * Rabs B + Rabs eps). intros L HL.
    assert (A1 : B <= Rabs B) by apply Rle_abs. assert (A2 : eps <= Rabs eps) by apply Rle_abs. assert (A3 : - eps <= Rabs eps) by (rewrite <- Rabs_Ropp; apply Rle_abs).
    assert (X1 : B < (L - eps) / eta).
    { apply (Rmult_lt_reg_r eta); [exact He|]. unfold Rdiv. rewrite Rmult_assoc, Rinv_l by lra. nra. }
    assert (X2 : B < - ((- L - eps) / eta)).
    { replace (- ((- L - eps) / eta)) with ((L + eps) / eta) by (field; lra). apply (Rmult_lt_reg_r eta); [exact He|]. unfold Rdiv. rewrite Rmult_assoc, Rinv_l by lra. nra. }
    apply HB in X1, X2. rewrite atan_opp in X2. apply Rabs_def2 in X1, X2. apply Rabs_def1; lra.
Qed.

(** ** Hydrodynamic susceptibility *)
Definition hydro_den (d : R) (gamma : option R) (w : R) : CR :=
  (match gamma with Some g => 1 - w ^ 2 / (g * d) | None => 1 end, - (w / d)).
Lemma hydro_nonzero d gamma w : d <> 0 -> hydro_den d gamma w <> c0.
Proof.
  intros Hd E. injection E as E1 E2. assert (W : w = 0).
  { apply (Rmult_eq_reg_r (/ d)); [unfold Rdiv in E2; lra|apply Rinv_neq_0_compat, Hd]. }
  subst w. destruct gamma; [|lra]. unfold Rdiv in E1. replace (0 ^ 2 * / (r * d)) with 0 in E1 by ring. lra.
Qed.
Definition chi_val (chi0 d : R) (gamma : option R) (w : R) : CR := over chi0 (hydro_den d gamma w).
Lemma hydro_ok ws k chi0 d0 d2 gamma : d0 * k ^ 2 + d2 * k ^ 4 <> 0 -> gamma <> Some 0 ->
  chi_hydro ws k chi0 d0 d2 gamma = Ok (map (chi_val chi0 (d0 * k ^ 2 + d2 * k ^ 4) gamma) ws).
Proof.
  intros Hd Hg. unfold chi_hydro. destruct Req_EM_T; [contradiction|].
  destruct gamma as [g|]; [destruct (Req_EM_T g 0) as [-> |]; [contradiction|]|].
  - apply rmap_total. intros w _. pose proof (hydro_nonzero _ (Some g) w Hd) as Z. unfold hydro_den in Z.
    rewrite r_over_c_test, zero_den_false by exact Z. reflexivity.
  - apply rmap_total. intros w _. pose proof (hydro_nonzero _ None w Hd) as Z. unfold hydro_den in Z.
    rewrite r_over_c_test, zero_den_false by exact Z. reflexivity.
Qed.
Lemma hydro_opp chi0 d gamma w : chi_val chi0 d gamma (- w) = conj (chi_val chi0 d gamma w).
Proof.
  unfold chi_val, over, quotient, hydro_den. cbn [fst snd].
  assert (E : match gamma with Some g => 1 - (- w) ^ 2 / (g * d) | None => 1 end = match gamma with Some g => 1 - w ^ 2 / (g * d) | None => 1 end).
  { destruct gamma; [|reflexivity]. replace ((- w) ^ 2) with (w ^ 2) by ring. reflexivity. }
  rewrite E. generalize (match gamma with Some g => 1 - w ^ 2 / (g * d) | None => 1 end). intros x.
  replace (- w / d) with (- (w / d)) by (unfold Rdiv; ring). generalize (w / d). intros y.
  apply injective_projections; cbn; [do 2 f_equal; ring|]. replace (x * x + - - y * - - y) with (x * x + - y * - y) by ring. unfold Rdiv. ring.
Qed.
Lemma tends_inv c : tends_at_infinity (fun g => c / g) 0.
Proof.
  intros e He. exists (Rabs c / e + 1). intros g Hg. assert (0 <= Rabs c) by apply Rabs_pos. assert (0 <= Rabs c / e) by (apply Rmult_le_pos; [lra|apply Rlt_le, Rinv_0_lt_compat, He]).
  rewrite Rminus_0_r. unfold Rdiv. rewrite Rabs_mult, Rabs_inv, (Rabs_right g) by lra.
  apply (Rmult_lt_reg_r g); [lra|]. rewrite Rmult_assoc, Rinv_l by lra.
  assert (Rabs c < e * g); [|lra]. replace (Rabs c) with (e * (Rabs c / e)) by (field; lra). apply Rmult_lt_compat_l; lra.
Qed.
Lemma tends_continuous f g L : continuity_pt g L -> tends_at_infinity f L -> tends_at_infinity (fun x => g (f x)) (g L).
Proof.
  intros C H e He. destruct (C e He) as (d & Hd & D). destruct (H d Hd) as (B & HB). exists B. intros x Hx.
  destruct (Req_dec L (f x)) as [<-|N]; [rewrite Rminus_diag_eq, Rabs_R0 by reflexivity; exact He|].
  apply D. split; [split; [exact I|exact N]|]. apply HB, Hx.
Qed.
Lemma hydro_limit chi0 d w : d <> 0 -> c_tends_at_infinity (fun g => chi_val chi0 d (Some g) w) (chi_val chi0 d None w).
Proof.
  intros Hd. set (y := - (w / d)).
  assert (X : tends_at_infinity (fun g => - (w ^ 2 / d) / g) 0) by apply tends_inv.
  destruct (Req_dec y 0) as [Y|Y].
  - assert (W : w = 0) by (unfold y in Y; apply (Rmult_eq_reg_r (/ d)); [unfold Rdiv in Y; lra|apply Rinv_neq_0_compat, Hd]).
    assert (E : forall g, chi_val chi0 d (Some g) w = chi_val chi0 d None w).
    { intros g. unfold chi_val, hydro_den. do 2 f_equal. rewrite W. unfold Rdiv. ring. }
    split; intros e He; exists 0; intros x _; rewrite E, Rminus_diag_eq, Rabs_R0 by reflexivity; exact He.
  - assert (F : forall h, continuity_pt (fun u => h (1 + u)) 0 -> tends_at_infinity (fun g => h (1 - w ^ 2 / (g * d))) (h 1)).
    { intros h Hh. pose proof (tends_continuous _ _ _ Hh X) as T. cbn beta in T. rewrite Rplus_0_r in T.
      intros e He. destruct (T e He) as (B & HB). exists (Rmax B 0). intros g Hg. assert (g > 0) by (pose proof (Rmax_r B 0); lra).
      replace (1 - w ^ 2 / (g * d)) with (1 + - (w ^ 2 / d) / g) by (field; split; first [exact Hd|lra]). apply HB. pose proof (Rmax_l B 0). lra. }
    assert (N : forall u, u * u + y * y <> 0) by (intros u H; apply Y; nra).
    split; unfold chi_val, over, quotient, hydro_den; cbn [fst snd]; fold y.
    + apply (F (fun x => chi0 * x / (x * x + y * y))). apply derivable_continuous_pt. reg. apply N.
    + apply (F (fun x => - (chi0 * y) / (x * x + y * y))). apply derivable_continuous_pt. reg. apply N.
Qed.
Lemma hydro k chi0 d0 d2 : d0 * k ^ 2 + d2 * k ^ 4 <> 0 -> exists chi,
  (forall ws gamma, gamma <> Some 0 -> chi_hydro ws k chi0 d0 d2 gamma = Ok (map (chi gamma) ws)) /\
  (forall gamma, chi gamma 0 = re chi0) /\
  (forall gamma w, chi gamma (- w) = conj (chi gamma w)) /\
  (forall g w, g <> 0 -> (g * (d0 * k ^ 2 + d2 * k ^ 4) - w ^ 2, - (g * w)) *c chi (Some g) w = re (g * (d0 * k ^ 2 + d2 * k ^ 4) * chi0)) /\
  (forall w, (d0 * k ^ 2 + d2 * k ^ 4, - w) *c chi None w = re ((d0 * k ^ 2 + d2 * k ^ 4) * chi0)) /\
  (forall w, c_tends_at_infinity (fun g => chi (Some g) w) (chi None w)).
Proof.
  intros Hd. exists (chi_val chi0 (d0 * k ^ 2 + d2 * k ^ 4)). set (d := d0 * k ^ 2 + d2 * k ^ 4) in *.
  split; [intros; apply hydro_ok; assumption|]. split; [|split; [intros; apply hydro_opp|split; [|split; [|intros; apply hydro_limit; exact Hd]]]].
  - intros gamma. unfold chi_val, over, quotient, hydro_den, re. cbn [fst snd].
    replace (match gamma with Some g => 1 - 0 ^ 2 / (g * d) | None => 1 end) with 1 by (destruct gamma; unfold Rdiv; ring).
    apply injective_projections; cbn; unfold Rdiv; rewrite ?Rmult_0_l, ?Ropp_0; field; lra.
  - intros g w Hg. assert (Z := over_ok chi0 (hydro_den d (Some g) w) (zero_den_false _ (hydro_nonzero d (Some g) w Hd))). destruct Z as [_ Z].
    change (re (g * d * chi0)) with (real (g * d * chi0)). rewrite real_mul, <- Z. unfold chi_val.
    replace ((g * d - w ^ 2, - (g * w)) : CR) with (real (g * d) *c hydro_den d (Some g) w); [ring|].
    unfold hydro_den, real. apply injective_projections; cbn [fst snd kmul CR_StarRing cr_mul]; field; try split; assumption.
  - intros w. assert (Z := over_ok chi0 (hydro_den d None w) (zero_den_false _ (hydro_nonzero d None w Hd))). destruct Z as [_ Z].
    change (re (d * chi0)) with (real (d * chi0)). rewrite real_mul, <- Z. unfold chi_val.
    replace ((d, - w) : CR) with (real d *c hydro_den d None w); [ring|]. unfold hydro_den, real. apply injective_projections; cbn; field; exact Hd.
Qed.

(** ** A field switched off at time zero *)
Lemma snap_off h eta : 0 < eta -> exists H,
  (forall ws, field_snap_off ws h eta = Ok (map H ws)) /\
  forall w, exists J, (forall T, integral (fun t => re (h * exp (eta * t)) *c wave (w * t)) (- T) 0 (J T)) /\ c_tends_at_infinity J (H w).
Proof.
  intros He. exists (fun w => over h (eta, w)).
  assert (Z : forall w, (eta, w) <> c0) by (intros w E; injection E as E _; lra). split.
  - intros ws. apply rmap_total. intros w _. rewrite r_over_c_test, zero_den_false by apply Z. reflexivity.
  - intros w. set (q := over 1 (eta, w)). assert (Q : is_quotient c1 (- - eta, w) q).
    { rewrite Ropp_involutive. rewrite <- real_1. apply over_ok, zero_den_false, Z. }
    exists (fun T => real h *c (q *c c_sub (damped (- eta) w 0) (damped (- eta) w (- T)))). split.
    + intros T. apply (integral_ext (fun t => real h *c damped (- eta) w t)).
      * intros t _. unfold damped. change (re (h * exp (eta * t))) with (real (h * exp (eta * t))). rewrite real_mul.
        replace (- (t * - eta)) with (eta * t) by ring. ring.
      * apply integral_scale, damped_integral, Q.
    + rewrite over_scale. fold q. rewrite damped_0. unfold damped.
      assert (E : forall T, real h *c (q *c c_sub c1 (real (exp (- (- T * - eta))) *c wave (w * - T))) =
                     (q *c real h) +c kopp ((q *c real h) *c (real (exp (- (eta * T))) *c wave (w * - T)))).
      { intros T. replace (- (- T * - eta)) with (- (eta * T)) by ring. unfold c_sub. ring. }
      set (p := q *c real h) in *.
      assert (B : forall x y T, Rabs (x * cos (w * - T) + y * sin (w * - T)) <= Rabs x + Rabs y).
      { intros x y T. eapply Rle_trans; [apply Rabs_triang|]. rewrite !Rabs_mult. pose proof (COS_bound (w * - T)). pose proof (SIN_bound (w * - T)).
        assert (Rabs (cos (w * - T)) <= 1) by (apply Rabs_le; lra). assert (Rabs (sin (w * - T)) <= 1) by (apply Rabs_le; lra).
        pose proof (Rabs_pos x). pose proof (Rabs_pos y). nra. }
      assert (S : forall M e, 0 <= M -> 0 < e -> exists N, forall T, N < T -> exp (- (eta * T)) * M < e).
      { intros M e HM Hep. exists ((M / e) / eta). intros T HT. rewrite exp_Ropp.
        assert (X : M / e < eta * T). { apply (Rmult_lt_compat_r eta) in HT; [|exact He]. unfold Rdiv in HT at 1. rewrite Rmult_assoc, Rinv_l in HT by lra. lra. }
        pose proof (exp_ineq1_le (eta * T)) as Y. pose proof (exp_pos (eta * T)). apply (Rmult_lt_reg_l (exp (eta * T))); [lra|].
        rewrite <- Rmult_assoc, Rinv_r, Rmult_1_l by lra. assert (M < eta * T * e); [|nra].
        apply (Rmult_lt_compat_r e) in X; [|exact Hep]. unfold Rdiv in X. rewrite Rmult_assoc, Rinv_l in X by lra. lra. }
      destruct p as [x y]. split; intros e Hep.
      * destruct (S (Rabs x + Rabs (- y)) e) as (N & HN); [pose proof (Rabs_pos x); pose proof (Rabs_pos (- y)); lra|exact Hep|]. exists N. intros T HT.
        rewrite E. eapply Rle_lt_trans; [|apply (HN T HT)]. unfold real, wave. cbn.
        replace (x + - (x * (exp (- (eta * T)) * cos (w * - T) - 0 * sin (w * - T)) - y * (exp (- (eta * T)) * sin (w * - T) + 0 * cos (w * - T))) - x)
          with (- (exp (- (eta * T)) * (x * cos (w * - T) + - y * sin (w * - T)))) by ring.
        rewrite Rabs_Ropp, Rabs_mult, (Rabs_right (exp _)) by (apply Rle_ge, Rlt_le, exp_pos).
        apply Rmult_le_compat_l; [apply Rlt_le, exp_pos|apply B].
      * destruct (S (Rabs y + Rabs x) e) as (N & HN); [pose proof (Rabs_pos x); pose proof (Rabs_pos y); lra|exact Hep|]. exists N. intros T HT.
        rewrite E. eapply Rle_lt_trans; [|apply (HN T HT)]. unfold real, wave. cbn.
        replace (y + - (x * (exp (- (eta * T)) * sin (w * - T) + 0 * cos (w * - T)) + y * (exp (- (eta * T)) * cos (w * - T) - 0 * sin (w * - T))) - y)
          with (- (exp (- (eta * T)) * (y * cos (w * - T) + x * sin (w * - T)))) by ring.
        rewrite Rabs_Ropp, Rabs_mult, (Rabs_right (exp _)) by (apply Rle_ge, Rlt_le, exp_pos).
        apply Rmult_le_compat_l; [apply Rlt_le, exp_pos|apply B].
Qed.

(** ** Response in time *)
Definition phi_val (ws : list R) (chi : list CR) (t : R) : CR :=
  re (1 / (2 * PI)) *c trapezoid ws (fun i => nth i chi c0 *c wave (- (nth i ws 0 * t))).
Lemma phi_ok ts ws chi : length chi = length ws -> phi_t ts ws chi = Ok (map (phi_val ws chi) ts).
Proof.
  intros HL. unfold phi_t. rewrite HL, Nat.eqb_refl. cbn [negb]. f_equal. apply map_ext. intros t. unfold phi_val.
  change cr_mul with (@kmul CR _). change (re (1 / (2 * PI))) with (real (1 / (2 * PI))). f_equal.
  rewrite trapz_spec by (rewrite map_length, combine_length, HL; apply Nat.min_id). apply trapezoid_ext. intros i Hi.
  match goal with |- nth i (map ?f ?l) c0 = _ => rewrite (nth_indep _ c0 (f (0, c0))) by (rewrite map_length, combine_length, HL, Nat.min_id; exact Hi); rewrite (map_nth f) end.
  rewrite combine_nth by (symmetry; exact HL). reflexivity.
Qed.
Lemma obs_ok ts ws chi field : length chi = length ws -> length field = length ws ->
  obs_kt ts ws chi field = phi_t ts ws (map (fun cf => fst cf *c snd cf) (combine chi field)).
Proof.
  intros HL HL'. unfold obs_kt, phi_t. rewrite map_length, combine_length, HL, HL', Nat.min_id, Nat.eqb_refl. cbn [negb orb]. f_equal.
  apply map_ext. intros t. do 2 f_equal. clear HL HL'. revert chi field. induction ws as [|w ws IH]; intros [|c chi] [|f field]; try reflexivity.
  cbn [combine map fst snd]. rewrite <- IH. reflexivity.
Qed.
Lemma trapezoid_conj ws y : mirror ws -> (forall i, (i < length ws)%nat -> y (length ws - 1 - i)%nat = conj (y i)) ->
  conj (trapezoid ws y) = trapezoid ws y.
Proof.
  intros M H. unfold trapezoid. rewrite klsum_conj. symmetry. rewrite klsum_rev. apply klsum_ext. intros i Hi. apply in_seq in Hi.
  rewrite kconj_mul, kconj_add. set (n := length ws) in *.
  replace (S (n - 1 - 1 - i)) with (n - 1 - i)%nat by lia. replace (n - 1 - 1 - i)%nat with (n - 1 - S i)%nat by lia.
  rewrite !H by lia. unfold n. rewrite !mirror_nth by (try exact M; fold n; lia).
  change ((?x, 0) : CR) with (real x). rewrite real_conj. replace (- nth i ws 0 - - nth (S i) ws 0) with (nth (S i) ws 0 - nth i ws 0) by ring. ring.
Qed.
Lemma phi_real ws chi : length chi = length ws -> mirror ws -> rev chi = map kconj chi -> exists phi,
  forall ts, phi_t ts ws chi = Ok (map (fun t => re (phi t)) ts).
Proof.
  intros HL M C. exists (fun t => fst (phi_val ws chi t)). intros ts. rewrite phi_ok by exact HL. f_equal. apply map_ext. intros t.
  assert (E : snd (phi_val ws chi t) = 0).
  { apply conj_fix. unfold phi_val. rewrite kconj_mul. change (conj (re (1 / (2 * PI)))) with (conj (real (1 / (2 * PI)))). rewrite real_conj. f_equal.
    apply trapezoid_conj; [exact M|]. intros i Hi. rewrite kconj_mul, wave_conj, mirror_nth by assumption. rewrite <- HL at 1.
    rewrite conj_symmetric_nth by (try exact C; lia). do 2 f_equal. ring. }
  destruct (phi_val ws chi t) as [x y]. cbn in *. subst y. reflexivity.
Qed.
Lemma response ts ws chi field : length chi = length ws -> length field = length ws ->
  phi_t ts ws chi = Ok (map (fun t => re (1 / (2 * PI)) *c trapezoid ws (fun i => nth i chi k0 *c wave (- (nth i ws 0 * t)))) ts) /\
  obs_kt ts ws chi field =
    Ok (map (fun t => re (1 / (2 * PI)) *c trapezoid ws (fun i => nth i chi k0 *c nth i field k0 *c wave (- (nth i ws 0 * t)))) ts).
Proof.
  intros HL HL'. split; [apply phi_ok, HL|]. rewrite obs_ok by assumption. rewrite phi_ok.
  - f_equal. apply map_ext. intros t. unfold phi_val. f_equal. apply trapezoid_ext. intros i Hi. f_equal.
    match goal with |- nth i (map ?f ?l) c0 = _ => rewrite (nth_indep _ c0 (f (c0, c0))) by (rewrite map_length, combine_length, HL, HL', Nat.min_id; exact Hi); rewrite (map_nth f) end.
    rewrite combine_nth by congruence. reflexivity.
  - rewrite map_length, combine_length, HL, HL'. apply Nat.min_id.
Qed.
