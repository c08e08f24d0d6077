(** Imaginary-time Green's functions and their integrals. *)
From Coq Require Import List Arith Lia Reals Lra ZArith Bool Ring.
From Verif Require Import Scalars Res Sums ModelPhase ModelSymmetry SymBase SpecThermal ThermalBase SpecFermiGas ModelFermiGas FermiBase FermiGrid FermiModes FermiGreen
  ModelGreen SpecGreen GreenFrq GreenKernel.
Import ListNotations.
Local Open Scope R_scope.

(** ** Integrals *)
Lemma derive_continuous f g : (forall x, derivable_pt_lim f x (g x)) -> continuity f.
Proof. intros H x. apply derivable_continuous_pt. exists (g x). apply H. Qed.
Lemma c_sub_add a b c d : c_sub (a +c b) (c +c d) = c_sub a c +c c_sub b d.
Proof. unfold c_sub. ring. Qed.
Lemma c_sub_mul a b c : c_sub (a *c b) (a *c c) = a *c c_sub b c.
Proof. unfold c_sub. ring. Qed.

Lemma integral_antiderivative f F a b : (forall t, c_deriv F t (f t)) -> integral f a b (c_sub (F b) (F a)).
Proof.
  intros H. exists F. split; [|split; [intros t _; apply H|reflexivity]].
  split; eapply derive_continuous; intros x; apply (H x).
Qed.
Lemma integral_ext f g a b I : (forall t, a < t < b -> f t = g t) -> integral f a b I -> integral g a b I.
Proof. intros E (F & C & D & V). exists F. split; [exact C|]. split; [|exact V]. intros t Ht. rewrite <- E by exact Ht. apply D, Ht. Qed.
Lemma integral_zero a b : integral (fun _ => c0) a b c0.
Proof.
  pose proof (integral_antiderivative (fun _ => c0) (fun _ => c0) a b (fun t => c_deriv_const c0 t)) as H.
  cbn beta in H. replace (c_sub c0 c0) with c0 in H by (unfold c_sub; ring). exact H.
Qed.
Lemma integral_add f g a b I J : integral f a b I -> integral g a b J -> integral (fun t => f t +c g t) a b (I +c J).
Proof.
  intros (F & (C1 & C2) & D & <-) (G & (C3 & C4) & D' & <-). exists (fun t => F t +c G t). split.
  - split; cbn; apply continuity_plus; assumption.
  - split; [|apply c_sub_add]. intros t Ht. apply c_deriv_add; auto.
Qed.
Lemma integral_scale c f a b I : integral f a b I -> integral (fun t => c *c f t) a b (c *c I).
Proof.
  intros (F & (C1 & C2) & D & <-). exists (fun t => c *c F t). split.
  - split; cbn.
    + apply (continuity_minus (fun t => fst c * fst (F t)) (fun t => snd c * snd (F t))); apply continuity_scal; assumption.
    + apply (continuity_plus (fun t => fst c * snd (F t)) (fun t => snd c * fst (F t))); apply continuity_scal; assumption.
  - split; [|apply c_sub_mul]. intros t Ht. apply c_deriv_scale. auto.
Qed.
Lemma integral_klsum {A} (l : list A) (f : A -> R -> CR) a b I : (forall x, In x l -> integral (f x) a b (I x)) ->
  integral (fun t => klsum l (fun x => f x t)) a b (klsum l I).
Proof.
  induction l as [|x l IH]; intros H; [apply integral_zero|].
  change (klsum (x :: l) I) with (I x +c klsum l I). change (fun t => klsum (x :: l) (fun y => f y t)) with (fun t => f x t +c klsum l (fun y => f y t)).
  apply integral_add; [apply H; left; reflexivity|apply IH; intros; apply H; right; assumption].
Qed.
Lemma integral_trapezoid xs (f : nat -> R -> CR) a b I : (forall i, (i < length xs)%nat -> integral (f i) a b (I i)) ->
  integral (fun t => trapezoid xs (fun i => f i t)) a b (trapezoid xs I).
Proof.
  intros H. unfold trapezoid. apply (integral_klsum _ (fun i t => ((nth (S i) xs 0 - nth i xs 0) / 2, 0) *c (f i t +c f (S i) t))).
  intros i Hi. apply in_seq in Hi. apply integral_scale, integral_add; apply H; lia.
Qed.

(** ** Damped waves *)
Definition damped (w wn t : R) : CR := real (exp (- (t * w))) *c wave (wn * t).
Lemma exp_deriv w t : derivable_pt_lim (fun y => exp (- (y * w))) t (- w * exp (- (t * w))).
Proof.
  rewrite Rmult_comm. apply (derivable_pt_lim_comp (fun y => - (y * w)) exp t (- w)); [|apply derivable_pt_lim_exp].
  apply (deriv_ext (fun y => - w * y)); [intros; ring|]. 
  pose proof (derivable_pt_lim_scal (fun y => y) (- w) t 1 (derivable_pt_lim_id t)) as H. rewrite Rmult_1_r in H. exact H.
Qed.
Lemma damped_deriv w wn t : c_deriv (damped w wn) t ((- w, wn) *c damped w wn t).
Proof.
  unfold damped. pose proof (c_deriv_wave wn 0 t) as W. pose proof (c_deriv_real _ t _ (exp_deriv w t)) as E.
  pose proof (c_deriv_mul _ _ t _ _ E W) as M. apply (c_deriv_ext _ (fun y => real (exp (- (y * w))) *c wave (wn * y))) in M.
  2: { intros y. rewrite Rplus_0_r. reflexivity. }
  replace ((- w, wn) *c (real (exp (- (t * w))) *c wave (wn * t))) with
    (real (- w * exp (- (t * w))) *c wave (wn * t + 0) +c real (exp (- (t * w))) *c (c_i *c real wn *c wave (wn * t + 0))).
  - exact M.
  - rewrite Rplus_0_r. generalize (wave (wn * t)). intros [x y]. unfold c_i, real. apply injective_projections; cbn; ring.
Qed.
Lemma damped_0 w wn : damped w wn 0 = c1.
Proof. unfold damped. rewrite Rmult_0_l, Ropp_0, exp_0, Rmult_0_r, wave_0, real_1. ring. Qed.
Lemma damped_integral w wn a b q : is_quotient c1 (- w, wn) q -> integral (damped w wn) a b (q *c c_sub (damped w wn b) (damped w wn a)).
Proof.
  intros (Hz & E). rewrite <- c_sub_mul. apply (integral_antiderivative (damped w wn) (fun t => q *c damped w wn t)). intros t.
  pose proof (c_deriv_scale q _ t _ (damped_deriv w wn t)) as D.
  replace (q *c ((- w, wn) *c damped w wn t)) with (damped w wn t) in D; [exact D|].
  transitivity (q *c (- w, wn) *c damped w wn t); [rewrite E; ring|ring].
Qed.

(** ** Statistics *)
Lemma wave_odd z : wave ((2 * IZR z + 1) * PI) = kopp c1.
Proof.
  replace ((2 * IZR z + 1) * PI) with (PI + 2 * PI * IZR z) by ring. rewrite wave_period. unfold wave. rewrite cos_PI, sin_PI.
  apply injective_projections; cbn; lra.
Qed.
Lemma wave_even z : wave (2 * IZR z * PI) = c1.
Proof. replace (2 * IZR z * PI) with (0 + 2 * PI * IZR z) by ring. rewrite wave_period. apply wave_0. Qed.
Definition allowed (fmt : format) (b w : R) : Prop :=
  match fmt with Fermion => fermion_frq b w | _ => boson_frq b w end.
Lemma allowed_wave fmt b w : 0 < b -> fmt <> OtherFormat -> allowed fmt b w -> wave (w * b) = real (- sign_of fmt).
Proof.
  intros Hb Hf H. destruct fmt; [| |contradiction]; destruct H as (z & ->); cbn [sign_of].
  - replace ((2 * IZR z + 1) * PI / b * b) with ((2 * IZR z + 1) * PI) by (field; lra). rewrite wave_odd.
    unfold real. apply injective_projections; cbn; ring.
  - replace (2 * IZR z * PI / b * b) with (2 * IZR z * PI) by (field; lra). rewrite wave_even.
    unfold real. apply injective_projections; cbn; ring.
Qed.
Lemma fermion_not_0 b w : 0 < b -> fermion_frq b w -> w <> 0.
Proof.
  intros Hb (z & ->) E. assert (P := PI_RGT_0). apply (Rmult_eq_compat_r b) in E. unfold Rdiv in E.
  rewrite Rmult_assoc, Rinv_l, Rmult_0_l, Rmult_1_r in E by lra. apply Rmult_integral in E as [E|E]; [|lra].
  assert (E' : IZR (2 * z + 1) = 0) by (rewrite plus_IZR, mult_IZR; lra). apply eq_IZR_R0 in E'. lia.
Qed.
Lemma den_ok fmt b w : 0 < b -> fmt <> OtherFormat -> (fmt = Boson -> w <> 0) -> 1 + sign_of fmt * exp (- (b * w)) <> 0.
Proof.
  intros Hb Hf H. pose proof (exp_pos (- (b * w))). destruct fmt; cbn [sign_of]; [lra| |contradiction].
  intros E. assert (E' : exp (- (b * w)) = exp 0) by (rewrite exp_0; lra). apply exp_inv in E'. apply (H eq_refl). nra.
Qed.

(** One mode: the transform of its imaginary-time function. *)
Lemma mode_integral fmt b w wn q : 0 < b -> fmt <> OtherFormat -> (fmt = Boson -> w <> 0) -> allowed fmt b wn ->
  is_quotient c1 (- w, wn) q ->
  integral (fun t => real (- thermal_factor (sign_of fmt) b t w) *c wave (wn * t)) 0 b q.
Proof.
  intros Hb Hf Hw Ha Hq. pose proof (den_ok fmt b w Hb Hf Hw) as Hd. set (d := 1 + sign_of fmt * exp (- (b * w))) in *.
  apply (integral_ext (fun t => real (- / d) *c damped w wn t)).
  - intros t _. unfold damped, thermal_factor. fold d.
    transitivity (real (- / d) *c real (exp (- (t * w))) *c wave (wn * t)); [ring|]. rewrite <- real_mul. do 2 f_equal. unfold Rdiv. ring.
  - pose proof (integral_scale (real (- / d)) _ _ _ _ (damped_integral w wn 0 b q Hq)) as I. rewrite damped_0 in I.
    replace q with (real (- / d) *c (q *c c_sub (damped w wn b) c1)); [exact I|].
    unfold damped. rewrite (allowed_wave fmt) by assumption. rewrite <- real_mul.
    replace (c_sub (real (exp (- (b * w)) * - sign_of fmt)) c1) with (real (- d)).
    + transitivity (q *c (real (- / d) *c real (- d))); [ring|]. rewrite <- real_mul. replace (- / d * - d) with 1 by (field; exact Hd).
      rewrite real_1. ring.
    + unfold c_sub, d. unfold real. apply injective_projections; cbn; ring.
Qed.
Lemma quotient_real x z q : is_quotient c1 z q -> is_quotient (real x) z (real x *c q).
Proof. intros (Hz & E). split; [exact Hz|]. transitivity (real x *c (q *c z)); [ring|]. rewrite E. ring. Qed.
Lemma quotient_exists z : z <> c0 -> exists q, is_quotient c1 z q.
Proof. intros H. exists (over 1 z). rewrite <- real_1. apply over_ok, zero_den_false, H. Qed.
Lemma frq_den fmt b w wn : 0 < b -> (fmt = Boson -> w <> 0) -> fmt <> OtherFormat -> allowed fmt b wn -> (- w, wn) <> c0.
Proof.
  intros Hb Hw Hf Ha E. injection E as E1 E2. destruct fmt; [|apply (Hw eq_refl); lra|contradiction].
  apply (fermion_not_0 b wn); assumption.
Qed.

Lemma transform_ok fmt b os sp : 0 < b -> fmt <> OtherFormat -> length sp = length os -> (fmt = Boson -> ~ In 0 os) -> exists G,
  (forall taus, imagtime_spectralfn taus b os sp fmt = Ok (map G taus)) /\
  (forall wn, allowed fmt b wn -> exists g, imagfrq_spectralfn [wn] os sp = Ok [g] /\
     integral (fun t => re (G t) *c wave (wn * t)) 0 b g).
Proof.
  intros Hb Hf HL H0.
  assert (N : forall o, In o os -> fmt = Boson -> o <> 0) by (intros o Ho E ->; apply (H0 E Ho)).
  exists (fun t => - (1 / (2 * PI)) * r_trapezoid os (fun i => nth i sp 0 * thermal_factor (sign_of fmt) b t (nth i os 0))).
  split.
  - intros taus. apply time_direct; [assumption|assumption|]. intros o Ho. apply den_ok; auto.
  - intros wn Ha. destruct (frq_direct [wn] os sp HL) as (G & E & L & V).
    { intros w o [<-|[]] Ho -> ->. destruct fmt; [|exact (N 0 Ho eq_refl eq_refl)|contradiction].
      exact (fermion_not_0 b 0 Hb Ha eq_refl). }
    destruct G as [|g [|]]; try discriminate. exists g. split; [exact E|]. clear L E.
    destruct (V 0%nat) as (y & Hy & Eg); [cbn; lia|]. cbn [nth] in Eg, Hy. subst g.
    change ((1 / (2 * PI), 0) : CR) with (real (1 / (2 * PI))).
    apply (integral_ext (fun t => real (1 / (2 * PI)) *c
      trapezoid os (fun i => real (nth i sp 0) *c (real (- thermal_factor (sign_of fmt) b t (nth i os 0)) *c wave (wn * t))))).
    + intros t _. change (re ?x) with (real x).
      rewrite (real_mul (- (1 / (2 * PI)))), <- trapezoid_real. unfold trapezoid.
      transitivity (real (1 / (2 * PI)) *c (klsum (seq 0 (length os - 1)) (fun i => ((nth (S i) os 0 - nth i os 0) / 2, 0) *c
         (real (nth i sp 0 * thermal_factor (sign_of fmt) b t (nth i os 0)) +c real (nth (S i) sp 0 * thermal_factor (sign_of fmt) b t (nth (S i) os 0))))
         *c (kopp c1 *c wave (wn * t)))).
      * f_equal. rewrite <- klsum_mul_r. apply klsum_ext. intros i _. generalize (wave (wn * t)). intros z.
        generalize (thermal_factor (sign_of fmt) b t (nth i os 0)) (thermal_factor (sign_of fmt) b t (nth (S i) os 0)). intros u v.
        rewrite !real_mul. replace (real (- u)) with (kopp c1 *c real u) by (unfold real; apply injective_projections; cbn; ring).
        replace (real (- v)) with (kopp c1 *c real v) by (unfold real; apply injective_projections; cbn; ring). ring.
      * replace (real (- (1 / (2 * PI)))) with (kopp c1 *c real (1 / (2 * PI))) by (unfold real; apply injective_projections; cbn; ring). ring.
    + apply integral_scale. rewrite (trapezoid_ext os y (fun i => real (nth i sp 0) *c over 1 (- nth i os 0, wn))).
      * apply (integral_trapezoid os (fun i t => real (nth i sp 0) *c (real (- thermal_factor (sign_of fmt) b t (nth i os 0)) *c wave (wn * t)))).
        intros i Hi. apply integral_scale. apply mode_integral; [assumption|assumption| |assumption|].
        -- intros E. apply N; [apply nth_In; exact Hi|exact E].
        -- rewrite <- real_1. apply over_ok, zero_den_false. apply (frq_den fmt b); auto. intros E. apply N; [apply nth_In; exact Hi|exact E].
      * intros i Hi. apply (quotient_unique (real (nth i sp 0)) (- nth i os 0, wn)); [apply Hy, Hi|]. apply quotient_real.
        rewrite <- real_1. apply over_ok, zero_den_false. apply (frq_den fmt b); auto. intros E. apply N; [apply nth_In; exact Hi|exact E].
Qed.

(** ** Values at the ends of the interval *)
Lemma r_trapezoid_ext xs y z : (forall i, (i < length xs)%nat -> y i = z i) -> r_trapezoid xs y = r_trapezoid xs z.
Proof. intros H. apply total_ext. intros i Hi. apply in_seq in Hi. rewrite !H by lia. reflexivity. Qed.
Lemma r_trapezoid_add xs y z : r_trapezoid xs y + r_trapezoid xs z = r_trapezoid xs (fun i => y i + z i).
Proof.
  unfold r_trapezoid. induction (seq 0 (length xs - 1)) as [|i l IH]; rewrite ?total_cons, ?total_nil; [ring|]. rewrite <- IH. ring.
Qed.
Lemma r_trapezoid_scale xs c y : c * r_trapezoid xs y = r_trapezoid xs (fun i => c * y i).
Proof.
  unfold r_trapezoid. induction (seq 0 (length xs - 1)) as [|i l IH]; rewrite ?total_cons, ?total_nil; [ring|]. rewrite <- IH. ring.
Qed.
Lemma r_trapezoid_ge xs y : increasing xs -> (forall i, (i < length xs)%nat -> 0 <= y i) -> 0 <= r_trapezoid xs y.
Proof.
  intros Hs Hy. unfold r_trapezoid.
  assert (P : forall i, In i (seq 0 (length xs - 1)) -> 0 <= (nth (S i) xs 0 - nth i xs 0) / 2 * (y i + y (S i))).
  { intros i Hi. apply in_seq in Hi. assert (0 <= y i) by (apply Hy; lia). assert (0 <= y (S i)) by (apply Hy; lia).
    assert (nth i xs 0 < nth (S i) xs 0).
    { clear - Hs Hi. revert i Hi. induction Hs as [|x l Hl IH Hx]; intros i Hi; [cbn in Hi; lia|].
      destruct l as [|x' l]; [cbn in Hi; lia|]. destruct i as [|i].
      - cbn. inversion Hx. assumption.
      - cbn [nth]. apply IH. cbn [length] in *. lia. }
    apply Rmult_le_pos; lra. }
  induction (seq 0 (length xs - 1)) as [|i l IH]; rewrite ?total_cons, ?total_nil; [lra|].
  assert (H1 := P i (or_introl eq_refl)). assert (H2 : 0 <= total (fun i => (nth (S i) xs 0 - nth i xs 0) / 2 * (y i + y (S i))) l) by (apply IH; intros j Hj; apply P; right; exact Hj). lra.
Qed.

Lemma ends_ok fmt b os sp : 0 < b -> fmt <> OtherFormat -> length sp = length os -> (fmt = Boson -> ~ In 0 os) -> exists G,
  (forall taus, imagtime_spectralfn taus b os sp fmt = Ok (map G taus)) /\
  G 0 + match fmt with Fermion => 1 | _ => -1 end * G b = - (r_trapezoid os (fun i => nth i sp 0) / (2 * PI)) /\
  (fmt = Fermion -> increasing os -> (forall a, In a sp -> 0 <= a) -> forall t, G t <= 0).
Proof.
  intros Hb Hf HL H0.
  assert (N : forall o, In o os -> fmt = Boson -> o <> 0) by (intros o Ho E ->; apply (H0 E Ho)).
  exists (fun t => - (1 / (2 * PI)) * r_trapezoid os (fun i => nth i sp 0 * thermal_factor (sign_of fmt) b t (nth i os 0))).
  assert (P := PI_RGT_0). split; [|split].
  - intros taus. apply time_direct; [assumption|assumption|]. intros o Ho. apply den_ok; auto.
  - change (match fmt with Fermion => 1 | _ => -1 end) with (sign_of fmt).
    rewrite (r_trapezoid_ext os (fun i => nth i sp 0)
      (fun i => nth i sp 0 * thermal_factor (sign_of fmt) b 0 (nth i os 0) + sign_of fmt * (nth i sp 0 * thermal_factor (sign_of fmt) b b (nth i os 0)))).
    + rewrite <- r_trapezoid_add, <- r_trapezoid_scale. field. lra.
    + intros i Hi. unfold thermal_factor. assert (D := den_ok fmt b (nth i os 0) Hb Hf (N _ (nth_In _ _ Hi))).
      rewrite Rmult_0_l, Ropp_0, exp_0. field. exact D.
  - intros -> Hs Hp t. assert (0 <= r_trapezoid os (fun i => nth i sp 0 * thermal_factor (sign_of Fermion) b t (nth i os 0))).
    { apply r_trapezoid_ge; [exact Hs|]. intros i Hi. apply Rmult_le_pos; [apply Hp, nth_In; lia|]. unfold thermal_factor. cbn [sign_of].
      pose proof (exp_pos (- (t * nth i os 0))). pose proof (exp_pos (- (b * nth i os 0))).
      apply Rlt_le, Rdiv_lt_0_compat; lra. }
    assert (0 < 1 / (2 * PI)) by (apply Rdiv_lt_0_compat; lra). nra.
Qed.

(** ** One level *)
Definition gfn_tau (eps b t : R) : R :=
  - exp (- eps * t) * ((1 - 1 / (1 + exp (b * eps))) * heaviside0 t - 1 / (1 + exp (b * eps)) * heaviside0 (-1 * t)).
Lemma gfn_tau_ok taus eps b : noninteracting_tau taus eps b Fermion = Ok (map (gfn_tau eps b) taus).
Proof. reflexivity. Qed.
Lemma heaviside0_pos t : 0 < t -> heaviside0 t = 1.
Proof. intros H. unfold heaviside0, rlt_b. destruct Rlt_dec; [reflexivity|lra]. Qed.
Lemma heaviside0_neg t : t <= 0 -> heaviside0 t = 0.
Proof. intros H. unfold heaviside0, rlt_b. destruct Rlt_dec; [lra|reflexivity]. Qed.
Lemma gfn_tau_pos eps b t : 0 < t -> gfn_tau eps b t = - thermal_factor 1 b t eps.
Proof.
  intros H. unfold gfn_tau, thermal_factor. rewrite heaviside0_pos, heaviside0_neg by lra.
  replace (- eps * t) with (- (t * eps)) by ring. rewrite (exp_Ropp (b * eps)). pose proof (exp_pos (b * eps)). field. lra.
Qed.
Lemma gfn_tau_neg eps b t : t < 0 -> gfn_tau eps b t = exp (- eps * t) / (1 + exp (b * eps)).
Proof.
  intros H. unfold gfn_tau. rewrite heaviside0_neg, heaviside0_pos by lra. pose proof (exp_pos (b * eps)). field. lra.
Qed.
Lemma antiperiodic eps b : exists G,
  (forall taus, noninteracting_tau taus eps b Fermion = Ok (map G taus)) /\
  (forall t, 0 < t < b -> G (t - b) = - G t) /\
  (forall t, 0 < t -> G t = - (exp (- (eps * t)) * (1 - occupation b 0 eps))) /\
  (forall t, t < 0 -> G t = exp (- (eps * t)) * occupation b 0 eps).
Proof.
  exists (gfn_tau eps b). split; [intros; apply gfn_tau_ok|]. pose proof (exp_pos (b * eps)).
  assert (O : occupation b 0 eps = 1 / (1 + exp (b * eps))).
  { rewrite <- fermi_occupation. unfold fermi. rewrite Rminus_0_r, Rplus_comm. reflexivity. }
  split; [|split].
  - intros t Ht. rewrite gfn_tau_neg, gfn_tau_pos by lra. unfold thermal_factor.
    replace (- eps * (t - b)) with (- (t * eps) + b * eps) by ring. rewrite exp_plus, (exp_Ropp (b * eps)). field. lra.
  - intros t Ht. rewrite gfn_tau_pos by lra. rewrite O. unfold thermal_factor. rewrite (exp_Ropp (b * eps)), (Rmult_comm eps t). field. lra.
  - intros t Ht. rewrite gfn_tau_neg by lra. rewrite O. replace (- eps * t) with (- (eps * t)) by ring. field. lra.
Qed.
Lemma antiperiodic_end eps b : 0 < b -> exists G,
  (forall taus, noninteracting_tau taus eps b Fermion = Ok (map G taus)) /\ G (b - b) <> - G b.
Proof.
  intros Hb. exists (gfn_tau eps b). split; [intros; apply gfn_tau_ok|]. rewrite (gfn_tau_pos eps b b) by exact Hb.
  replace (gfn_tau eps b (b - b)) with 0.
  - unfold thermal_factor. pose proof (exp_pos (- (b * eps))). assert (0 < exp (- (b * eps)) / (1 + 1 * exp (- (b * eps)))) by (apply Rdiv_lt_0_compat; lra). lra.
  - unfold gfn_tau. rewrite !heaviside0_neg by lra. ring.
Qed.
Lemma one_level max_frq eps b : 0 < b -> exists G gs ws,
  (forall taus, noninteracting_tau taus eps b Fermion = Ok (map G taus)) /\
  noninteracting_imagfrq max_frq eps b Fermion = Ok (gs, ws) /\ matsubara_frqs b max_frq Fermion = Ok ws /\ length gs = length ws /\
  forall j, (j < length ws)%nat ->
    is_quotient k1 (- eps, nth j ws 0) (nth j gs k0) /\
    integral (fun t => re (G t) *c wave (nth j ws 0 * t)) 0 b (nth j gs k0).
Proof.
  intros Hb. destruct (fermion_frqs_ok b max_frq Hb) as (ws & E & _ & W).
  exists (gfn_tau eps b), (map (fun wn => over 1 (- eps, wn)) ws), ws. split; [intros; apply gfn_tau_ok|]. split; [|split; [exact E|split]].
  - unfold noninteracting_imagfrq. rewrite E. cbn [bind]. rewrite (rmap_total _ (fun wn => over 1 (- eps, wn))); [reflexivity|].
    intros wn Hw. rewrite r_over_c_test, zero_den_false; [reflexivity|]. apply (frq_den Fermion b); [assumption|discriminate|discriminate|]. apply W, Hw.
  - apply map_length.
  - intros j Hj. rewrite (nth_indep _ k0 (over 1 (- eps, 0))) by (rewrite map_length; exact Hj). rewrite (map_nth (fun wn => over 1 (- eps, wn))).
    assert (F : fermion_frq b (nth j ws 0)) by (apply W, nth_In, Hj).
    assert (Q : is_quotient c1 (- eps, nth j ws 0) (over 1 (- eps, nth j ws 0))).
    { rewrite <- real_1. apply over_ok, zero_den_false. apply (frq_den Fermion b); [assumption|discriminate|discriminate|exact F]. }
    split; [exact Q|]. apply (integral_ext (fun t => real (- thermal_factor (sign_of Fermion) b t eps) *c wave (nth j ws 0 * t))).
    + intros t Ht. rewrite <- gfn_tau_pos by lra. reflexivity.
    + apply mode_integral; [assumption|discriminate|discriminate|exact F|exact Q].
Qed.
