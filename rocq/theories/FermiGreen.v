(** Green functions of the lattice Fermi gas. *)
From Coq Require Import List Arith Lia Reals Lra ZArith Bool Permutation.
From Verif Require Import Scalars Res Sums Matrix ModelPhase ModelSymmetry SymBase GeoPhase SymZn SpecThermal ThermalBase
  SpecFermiGas ModelFermiGas FermiBase FermiGrid FermiModes FermiGas.
Import ListNotations.
Local Open Scope R_scope.

(** ** Derivatives of complex functions *)
Lemma c_deriv_ext f g x d : (forall y, f y = g y) -> c_deriv f x d -> c_deriv g x d.
Proof. intros E [H1 H2]. split; (eapply deriv_ext; [|eassumption]); intros; cbn; rewrite E; reflexivity. Qed.
Lemma c_deriv_const c x : c_deriv (fun _ => c) x c0.
Proof. split; apply derivable_pt_lim_const. Qed.
Lemma c_deriv_add f g x d e : c_deriv f x d -> c_deriv g x e -> c_deriv (fun y => f y +c g y) x (d +c e).
Proof.
  intros [F1 F2] [G1 G2]. split; cbn.
  - apply (derivable_pt_lim_plus (fun y => fst (f y)) (fun y => fst (g y))); assumption.
  - apply (derivable_pt_lim_plus (fun y => snd (f y)) (fun y => snd (g y))); assumption.
Qed.
Lemma c_deriv_mul f g x d e : c_deriv f x d -> c_deriv g x e ->
  c_deriv (fun y => f y *c g y) x (d *c g x +c f x *c e).
Proof.
  intros [F1 F2] [G1 G2]. split; cbn.
  - replace (_ + _) with ((fst d * fst (g x) + fst (f x) * fst e) - (snd d * snd (g x) + snd (f x) * snd e)) by ring.
    apply (derivable_pt_lim_minus (fun y => fst (f y) * fst (g y)) (fun y => snd (f y) * snd (g y)));
      [apply (derivable_pt_lim_mult (fun y => fst (f y)) (fun y => fst (g y)))
      |apply (derivable_pt_lim_mult (fun y => snd (f y)) (fun y => snd (g y)))]; assumption.
  - replace (_ + _) with ((fst d * snd (g x) + fst (f x) * snd e) + (snd d * fst (g x) + snd (f x) * fst e)) by ring.
    apply (derivable_pt_lim_plus (fun y => fst (f y) * snd (g y)) (fun y => snd (f y) * fst (g y)));
      [apply (derivable_pt_lim_mult (fun y => fst (f y)) (fun y => snd (g y)))
      |apply (derivable_pt_lim_mult (fun y => snd (f y)) (fun y => fst (g y)))]; assumption.
Qed.
Lemma c_deriv_scale c f x d : c_deriv f x d -> c_deriv (fun y => c *c f y) x (c *c d).
Proof.
  intros H. pose proof (c_deriv_mul (fun _ => c) f x c0 d (c_deriv_const c x) H) as E.
  cbn beta in E. replace (c0 *c f x +c c *c d) with (c *c d) in E by ring. exact E.
Qed.
Lemma c_deriv_real f x d : derivable_pt_lim f x d -> c_deriv (fun y => real (f y)) x (real d).
Proof. intros H. split; cbn; [assumption|apply derivable_pt_lim_const]. Qed.
Lemma c_deriv_wave a c x : c_deriv (fun y => wave (a * y + c)) x (c_i *c real a *c wave (a * x + c)).
Proof.
  assert (L : derivable_pt_lim (fun y => a * y + c) x a).
  { assert (E : derivable_pt_lim (fun y => a * y + c) x (a * 1 + 0)); [|replace (a * 1 + 0) with a in E by ring; exact E].
    apply (derivable_pt_lim_plus (fun y => a * y) (fun _ => c)); [|apply derivable_pt_lim_const].
    apply (derivable_pt_lim_scal (fun y => y) a x 1). apply derivable_pt_lim_id. }
  split; cbn.
  - replace (_ - _) with (- sin (a * x + c) * a) by ring.
    apply (derivable_pt_lim_comp (fun y => a * y + c) cos x a); [assumption|apply derivable_pt_lim_cos].
  - replace (_ + _) with (cos (a * x + c) * a) by ring.
    apply (derivable_pt_lim_comp (fun y => a * y + c) sin x a); [assumption|apply derivable_pt_lim_sin].
Qed.
Lemma c_mean_pair {A} (f : A -> CR) l : c_mean f l = (mean (fun a => fst (f a)) l, mean (fun a => snd (f a)) l).
Proof.
  unfold c_mean, mean. rewrite <- klsum_fst, <- klsum_snd. destruct (klsum l f) as [a b]. cbn. unfold cr_mul. cbn.
  f_equal; unfold Rdiv; ring.
Qed.
Lemma c_deriv_mean {A} (F : A -> R -> CR) (D : A -> CR) x l : (forall a, In a l -> c_deriv (F a) x (D a)) ->
  c_deriv (fun y => c_mean (fun a => F a y) l) x (c_mean D l).
Proof.
  intros H. apply (c_deriv_ext (fun y => (mean (fun a => fst (F a y)) l, mean (fun a => snd (F a y)) l))); [intros; symmetry; apply c_mean_pair|].
  rewrite c_mean_pair. split; cbn.
  - apply (mean_deriv (fun a y => fst (F a y))). intros a Ha. apply H. assumption.
  - apply (mean_deriv (fun a y => snd (F a y))). intros a Ha. apply H. assumption.
Qed.

(** ** Values of the Green functions *)
Definition kval (beta : invtemp) (mu e t : R) (ty : gfn_type) : CR :=
  match kspace_gfn beta mu e t ty with Ok g => g | Raise _ => c0 end.
Lemma kval_ok beta mu e t ty : ty <> OtherType -> kspace_gfn beta mu e t ty = Ok (kval beta mu e t ty).
Proof. intros H. destruct ty; try reflexivity. contradiction. Qed.
Definition gval (s : shape) (n : nat) (beta : invtemp) (mu : R) (r : Z * Z) (t : R) (ty : gfn_type) : CR :=
  c_mean (fun p => plane s n r p *c kval beta mu (level_of s n p) t ty) (modes s n).
Lemma gval_ok s n beta mu r t ty : good_size s n -> ty <> OtherType ->
  realspace_gfn beta mu r t n (dim_of s) ty = Ok (gval s n beta mu r t ty).
Proof. intros H Ht. unfold realspace_gfn, gval. apply (fourier_sum_ok s n r _ (fun e => kval beta mu e t ty)); [assumption|]. intros e. apply kval_ok. assumption. Qed.

Lemma heaviside_pos t : 0 <= t -> heaviside t = 1.
Proof. intros H. unfold heaviside. rewrite rle_b_true by assumption. reflexivity. Qed.
Lemma heaviside_neg t : t < 0 -> heaviside t = 0.
Proof. intros H. unfold heaviside. rewrite rle_b_false by assumption. reflexivity. Qed.
Lemma c_mi_eq : c_mi = kopp c_i.
Proof. unfold c_mi, c_i. cbn. unfold cr_opp. cbn. f_equal; ring. Qed.
Lemma im_eq : im = c_i.
Proof. reflexivity. Qed.
Lemma real_sub x y : real (x - y) = real x +c kopp (real y).
Proof. unfold real; cbn. unfold cr_add, cr_opp. cbn. f_equal; ring. Qed.
Lemma real_opp x : real (- x) = kopp (real x).
Proof. unfold real; cbn. unfold cr_opp. cbn. f_equal; ring. Qed.
Lemma c_mean_sub {A} (f g : A -> CR) l : c_mean (fun a => c_sub (f a) (g a)) l = c_sub (c_mean f l) (c_mean g l).
Proof.
  unfold c_sub. rewrite c_mean_add. f_equal. rewrite (c_mean_ext _ (fun a => kopp c1 *c g a)) by (intros; ring).
  rewrite c_mean_scale. ring.
Qed.
Lemma c_mean_0 {A} (f : A -> CR) l : (forall a, In a l -> f a = c0) -> c_mean f l = c0.
Proof.
  intros H. unfold c_mean. rewrite klsum_zero by assumption. change ((1 / INR (length l), 0) : CR) with (real (1 / INR (length l))). ring.
Qed.
Ltac c_ring := change cr_mul with (@kmul CR _); change cr_add with (@kadd CR _); unfold c_sub; rewrite ?c_mi_eq;
  repeat (rewrite real_sub || rewrite real_opp || rewrite real_mul); rewrite ?real_0, ?real_1; ring.

Lemma greater_lesser s n beta mu r t :
  c_sub (gval s n beta mu r t Greater) (gval s n beta mu r t Lesser) =
  c_mean (fun p => plane s n r p *c (c_mi *c wave (- ((level_of s n p - mu) * t)))) (modes s n).
Proof.
  unfold gval. rewrite <- c_mean_sub. apply c_mean_ext. intros p _. unfold kval. cbn [kspace_gfn].
  change (cexp ?x) with (wave x). c_ring.
Qed.
Lemma equal_time s n beta mu r : good_size s n ->
  c_sub (gval s n beta mu r 0 Greater) (gval s n beta mu r 0 Lesser) = if same_site s n r then kopp im else c0.
Proof.
  intros H. rewrite greater_lesser. pose proof (proj1 H) as Hn.
  rewrite (c_mean_ext _ (fun p => c_mi *c plane s n r p)).
  2:{ intros p _. rewrite Rmult_0_r, Ropp_0, wave_0. ring. }
  rewrite c_mean_scale. unfold c_mean. rewrite plane_orth by lia. pose proof (modes_pos s n ltac:(lia)).
  change ((1 / INR (length (modes s n)), 0) : CR) with (real (1 / INR (length (modes s n)))).
  destruct (same_site s n r); [|ring]. rewrite <- real_mul. replace (1 / INR (length (modes s n)) * INR (length (modes s n))) with 1 by (field; lra).
  rewrite c_mi_eq, im_eq, real_1. ring.
Qed.
Lemma later_times s n beta mu r t : 0 < t ->
  gval s n beta mu r t Retarded = c_sub (gval s n beta mu r t Greater) (gval s n beta mu r t Lesser) /\
  gval s n beta mu r t Advanced = c0 /\ gval s n beta mu r t TimeOrdered = gval s n beta mu r t Greater.
Proof.
  intros Ht. rewrite greater_lesser. unfold gval. split; [|split].
  - apply c_mean_ext. intros p _. unfold kval. cbn [kspace_gfn]. change (cexp ?x) with (wave x). rewrite heaviside_pos by lra. c_ring.
  - apply c_mean_0. intros p _. unfold kval. cbn [kspace_gfn]. rewrite heaviside_neg by lra. c_ring.
  - apply c_mean_ext. intros p _. unfold kval. cbn [kspace_gfn]. rewrite heaviside_pos, heaviside_neg by lra. c_ring.
Qed.
Lemma earlier_times s n beta mu r t : t < 0 ->
  gval s n beta mu r t Retarded = c0 /\
  gval s n beta mu r t Advanced = c_sub (gval s n beta mu r t Lesser) (gval s n beta mu r t Greater) /\
  gval s n beta mu r t TimeOrdered = gval s n beta mu r t Lesser.
Proof.
  intros Ht. unfold gval. split; [|split].
  - apply c_mean_0. intros p _. unfold kval. cbn [kspace_gfn]. rewrite heaviside_neg by lra. c_ring.
  - rewrite <- c_mean_sub. apply c_mean_ext. intros p _. unfold kval. cbn [kspace_gfn]. rewrite heaviside_pos by lra. c_ring.
  - apply c_mean_ext. intros p _. unfold kval. cbn [kspace_gfn]. rewrite heaviside_neg, (heaviside_pos (- t)) by lra. c_ring.
Qed.

(** ** Equation of motion *)
Lemma wave_nb k x : wave (k * IZR (x + 1)) +c wave (k * IZR (x - 1)) = real (2 * cos k) *c wave (k * IZR x).
Proof.
  rewrite plus_IZR, minus_IZR. replace (k * (IZR x + IZR 1)) with (k * IZR x + k) by (cbn; ring).
  replace (k * (IZR x - IZR 1)) with (k * IZR x + - k) by (cbn; ring). rewrite !wave_add.
  transitivity ((wave k +c wave (- k)) *c wave (k * IZR x)); [ring|]. f_equal.
  unfold wave, real. cbn. unfold cr_add. cbn. rewrite cos_neg, sin_neg. f_equal; ring.
Qed.
Lemma plane_nb s n r p : klsum (neighbours s r) (fun r' => plane s n r' p) = real (- level_of s n p) *c plane s n r p.
Proof.
  destruct s; cbn [neighbours klsum plane level_of fst snd].
  - transitivity (wave (momentum n (fst p) * IZR (fst r + 1)) +c wave (momentum n (fst p) * IZR (fst r - 1))); [ring|].
    rewrite wave_nb. f_equal. f_equal. ring.
  - rewrite !wave_add.
    transitivity ((wave (momentum n (fst p) * IZR (fst r + 1)) +c wave (momentum n (fst p) * IZR (fst r - 1))) *c wave (momentum n (snd p) * IZR (snd r))
      +c wave (momentum n (fst p) * IZR (fst r)) *c (wave (momentum n (snd p) * IZR (snd r + 1)) +c wave (momentum n (snd p) * IZR (snd r - 1)))); [ring|].
    rewrite !wave_nb.
    replace (- (-2 * (cos (momentum n (fst p)) + cos (momentum n (snd p))))) with (2 * cos (momentum n (fst p)) + 2 * cos (momentum n (snd p))) by ring.
    rewrite real_add. ring.
Qed.
Definition amp (beta : invtemp) (mu e : R) (ty : gfn_type) : CR :=
  match ty with Greater => c_mi *c real (1 - fermi beta mu e) | _ => c_i *c real (fermi beta mu e) end.
Lemma kval_amp beta mu e t ty : ty = Greater \/ ty = Lesser ->
  kval beta mu e t ty = amp beta mu e ty *c wave ((mu - e) * t + 0).
Proof.
  intros [-> | ->]; unfold kval, amp; cbn [kspace_gfn]; change (cexp ?x) with (wave x);
    replace (- ((e - mu) * t)) with ((mu - e) * t + 0) by ring; change cr_mul with (@kmul CR _); ring.
Qed.
Lemma klsum_c_mean {A B} (l : list A) (m : list B) (f : A -> B -> CR) :
  klsum l (fun a => c_mean (f a) m) = c_mean (fun b => klsum l (fun a => f a b)) m.
Proof.
  induction l as [|a l IH]; cbn [klsum]; [symmetry; apply c_mean_0; reflexivity|].
  rewrite IH, <- c_mean_add. reflexivity.
Qed.
Lemma motion s n beta mu r t ty : ty = Greater \/ ty = Lesser ->
  c_deriv (fun y => gval s n beta mu r y ty) t
    (im *c (klsum (neighbours s r) (fun r' => gval s n beta mu r' t ty) +c re mu *c gval s n beta mu r t ty)).
Proof.
  intros Ht. unfold gval. rewrite klsum_c_mean, <- c_mean_scale, <- c_mean_add, <- c_mean_scale.
  apply (c_deriv_mean (fun p y => plane s n r p *c kval beta mu (level_of s n p) y ty)). intros p _.
  set (e := level_of s n p).

  rewrite klsum_mul_r, plane_nb. fold e.
  rewrite (kval_amp beta mu e t ty Ht).
  apply (c_deriv_ext (fun y => (plane s n r p *c amp beta mu e ty) *c wave ((mu - e) * y + 0))).
  { intros y. rewrite (kval_amp beta mu e y ty Ht). ring. }
  replace (im *c _) with ((plane s n r p *c amp beta mu e ty) *c (c_i *c real (mu - e) *c wave ((mu - e) * t + 0))).
  - apply c_deriv_scale, c_deriv_wave.
  - change (re mu) with (real mu). rewrite im_eq, real_sub, real_opp. ring.
Qed.

(** ** Reversal, and detailed balance *)
Lemma plane_neg s n r p : plane s n (- fst r, - snd r)%Z p = conj (plane s n r p).
Proof. destruct s; cbn [plane fst snd]; rewrite wave_conj; f_equal; rewrite !opp_IZR; ring. Qed.
Lemma c_mean_conj {A} (f : A -> CR) l : c_mean (fun a => conj (f a)) l = conj (c_mean f l).
Proof.
  unfold c_mean. rewrite <- klsum_conj. change ((1 / INR (length l), 0) : CR) with (real (1 / INR (length l))).
  rewrite (@kconj_mul CR _), real_conj. reflexivity.
Qed.
Lemma reversal s n beta mu r t ty : ty = Greater \/ ty = Lesser ->
  gval s n beta mu (- fst r, - snd r)%Z (- t) ty = kopp (conj (gval s n beta mu r t ty)).
Proof.
  intros Ht. unfold gval. rewrite <- c_mean_conj.
  transitivity (kopp c1 *c c_mean (fun p => conj (plane s n r p *c kval beta mu (level_of s n p) t ty)) (modes s n)); [|ring].
  rewrite <- c_mean_scale. apply c_mean_ext. intros p _. rewrite plane_neg, !kval_amp by assumption.
  rewrite !(@kconj_mul CR _), wave_conj. replace (- ((mu - level_of s n p) * t + 0)) with ((mu - level_of s n p) * - t + 0) by ring.
  replace (conj (amp beta mu (level_of s n p) ty)) with (kopp (amp beta mu (level_of s n p) ty)); [ring|].
  destruct Ht as [-> | ->]; unfold amp; rewrite (@kconj_mul CR _), real_conj; unfold c_mi, c_i; cbn; unfold cr_mul, cr_opp, cr_conj; cbn; f_equal; ring.
Qed.
Lemma detailed_balance b mu e t :
  kval (Beta b) mu e t Lesser = real (- exp (- b * (e - mu))) *c kval (Beta b) mu e t Greater.
Proof.
  unfold kval. cbn [kspace_gfn]. rewrite fermi_occupation.
  assert (E : occupation b mu e = exp (- b * (e - mu)) * (1 - occupation b mu e)).
  { unfold occupation. pose proof (exp_pos (- b * (e - mu))). field. lra. }
  rewrite E at 1. rewrite real_opp, real_mul, c_mi_eq. change cr_mul with (@kmul CR _). ring.
Qed.

(** ** Derivative with respect to the chemical potential *)
Definition with_derivative (ty : gfn_type) : Prop := ty = Greater \/ ty = Lesser \/ ty = Retarded \/ ty = Advanced.
Definition kder (b mu e t : R) (ty : gfn_type) : CR :=
  match kspace_dgdmu (Beta b) mu e t ty with Ok g => g | Raise _ => c0 end.
Lemma kder_ok b mu e t ty : ty <> OtherType -> kspace_dgdmu (Beta b) mu e t ty = Ok (kder b mu e t ty).
Proof. intros H. destruct ty; try reflexivity. contradiction. Qed.
Ltac use_deriv F := match type of F with c_deriv _ _ ?d => match goal with |- c_deriv _ _ ?e =>
  replace e with d; [exact F|symmetry; cbn beta] end end.
Lemma kval_deriv b mu e t ty : with_derivative ty -> c_deriv (fun m => kval (Beta b) m e t ty) mu (kder b mu e t ty).
Proof.
  assert (W : forall m, cexp (- ((e - m) * t)) = wave (t * m + - e * t)) by (intros; change (cexp ?x) with (wave x); f_equal; ring).
  pose proof (c_deriv_wave t (- e * t) mu) as D.
  intros [-> | [-> | [-> | ->]]]; unfold kval, kder; cbn [kspace_gfn kspace_dgdmu]; rewrite ?dfdmu_ok; cbn [bind]; rewrite W.
  - apply (c_deriv_ext (fun m => c_mi *c wave (t * m + - e * t) *c real (1 - occupation b m e))).
    { intros m. rewrite W, fermi_occupation. reflexivity. }
    pose proof (c_deriv_mul _ _ mu _ _ (c_deriv_scale c_mi _ _ _ D)
      (c_deriv_real _ mu _ (derivable_pt_lim_minus _ _ mu _ _ (derivable_pt_lim_const 1 mu) (occupation_dmu b mu e)))) as F.
    use_deriv F.
    rewrite fermi_occupation. change cr_mul with (@kmul CR _); change cr_add with (@kadd CR _). unfold minus_fct, fct_cte.
    replace (0 - b * (occupation b mu e * (1 - occupation b mu e))) with (- (b * (occupation b mu e * (1 - occupation b mu e)))) by ring.
    rewrite real_opp. generalize (real (b * (occupation b mu e * (1 - occupation b mu e)))) as d. intros d.
    replace (c_mi *c (c_i *c real t *c wave (t * mu + - e * t))) with (real t *c wave (t * mu + - e * t)).
    + rewrite c_mi_eq. ring.
    + replace (c_mi *c (c_i *c real t *c wave (t * mu + - e * t))) with ((c_mi *c c_i) *c real t *c wave (t * mu + - e * t)) by ring.
      replace (c_mi *c c_i) with c1; [ring|]. unfold c_mi, c_i; cbn; unfold cr_mul; cbn; f_equal; ring.
  - apply (c_deriv_ext (fun m => c_i *c wave (t * m + - e * t) *c real (occupation b m e))).
    { intros m. rewrite W, fermi_occupation. reflexivity. }
    pose proof (c_deriv_mul _ _ mu _ _ (c_deriv_scale c_i _ _ _ D) (c_deriv_real _ mu _ (occupation_dmu b mu e))) as F.
    use_deriv F.
    rewrite fermi_occupation. change cr_mul with (@kmul CR _); change cr_add with (@kadd CR _).
    generalize (real (b * (occupation b mu e * (1 - occupation b mu e)))) as d. intros d.
    replace (c_i *c (c_i *c real t *c wave (t * mu + - e * t))) with ((c_i *c c_i) *c real t *c wave (t * mu + - e * t)) by ring.
    replace (c_i *c c_i) with (kopp c1) by (unfold c_i; cbn; unfold cr_mul, cr_opp; cbn; f_equal; ring). rewrite real_opp. ring.
  - apply (c_deriv_ext (fun m => c_mi *c real (heaviside t) *c wave (t * m + - e * t))).
    { intros m. rewrite W. reflexivity. }
    pose proof (c_deriv_scale (c_mi *c real (heaviside t)) _ _ _ D) as F.
    use_deriv F. change cr_mul with (@kmul CR _). rewrite real_mul.
    replace (c_mi *c real (heaviside t) *c (c_i *c real t *c wave (t * mu + - e * t)))
      with ((c_mi *c c_i) *c real (heaviside t) *c real t *c wave (t * mu + - e * t)) by ring.
    replace (c_mi *c c_i) with c1; [ring|]. unfold c_mi, c_i; cbn; unfold cr_mul; cbn; f_equal; ring.
  - apply (c_deriv_ext (fun m => c_i *c real (heaviside (- t)) *c wave (t * m + - e * t))).
    { intros m. rewrite W. reflexivity. }
    pose proof (c_deriv_scale (c_i *c real (heaviside (- t))) _ _ _ D) as F.
    use_deriv F. change cr_mul with (@kmul CR _). rewrite real_mul, real_opp.
    replace (c_i *c real (heaviside (- t)) *c (c_i *c real t *c wave (t * mu + - e * t)))
      with ((c_i *c c_i) *c real (heaviside (- t)) *c real t *c wave (t * mu + - e * t)) by ring.
    replace (c_i *c c_i) with (kopp c1) by (unfold c_i; cbn; unfold cr_mul, cr_opp; cbn; f_equal; ring). ring.
Qed.
Lemma gval_deriv s n b mu r t ty : good_size s n -> with_derivative ty -> exists d,
  realspace_dgdmu (Beta b) mu r t n (dim_of s) ty = Ok d /\
  c_deriv (fun m => gval s n (Beta b) m r t ty) mu d.
Proof.
  intros H Hty. eexists. split.
  - unfold realspace_dgdmu. apply (fourier_sum_ok s n r _ (fun e => kder b mu e t ty)); [assumption|].
    intros e. apply kder_ok. destruct Hty as [-> | [-> | [-> | ->]]]; discriminate.
  - unfold gval. apply (c_deriv_mean (fun p m => plane s n r p *c kval (Beta b) m (level_of s n p) t ty)). intros p _.
    apply c_deriv_scale. apply kval_deriv. assumption.
Qed.
