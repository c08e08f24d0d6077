(** Density, compressibility and chemical potential of the lattice Fermi gas. *)
From Coq Require Import List Arith Lia Reals Lra ZArith Bool Permutation.
From Verif Require Import Scalars Res Sums Matrix ModelPhase ModelSymmetry SymBase GeoPhase SymZn SpecThermal ThermalBase
  SpecFermiGas ModelFermiGas FermiBase FermiGrid FermiModes.
Import ListNotations.
Local Open Scope R_scope.

Lemma modes_pos s n : (1 <= n)%nat -> 0 < INR (length (modes s n)).
Proof. intros H. apply lt_0_INR. rewrite modes_length. destruct s; nia. Qed.
Lemma c_mean_ext {A} (f g : A -> CR) l : (forall a, In a l -> f a = g a) -> c_mean f l = c_mean g l.
Proof. intros H. unfold c_mean. f_equal. apply klsum_ext. assumption. Qed.
Lemma c_mean_scale {A} c (f : A -> CR) l : c_mean (fun a => c *c f a) l = c *c c_mean f l.
Proof. unfold c_mean. rewrite klsum_mul_l. change (@kmul CR _ (1 / INR (length l), 0)) with (@kmul CR _ (real (1 / INR (length l)))). ring. Qed.
Lemma c_mean_add {A} (f g : A -> CR) l : c_mean (fun a => f a +c g a) l = c_mean f l +c c_mean g l.
Proof. unfold c_mean. rewrite klsum_add. change (@kmul CR _ (1 / INR (length l), 0)) with (@kmul CR _ (real (1 / INR (length l)))). ring. Qed.
Lemma c_mean_real {A} (f : A -> R) l : c_mean (fun a => real (f a)) l = real (mean f l).
Proof.
  unfold c_mean, mean. assert (E : klsum l (fun a => real (f a)) = real (total f l)).
  { induction l as [|a l IH]; [reflexivity|]. cbn [klsum]. rewrite IH, <- real_add. reflexivity. }
  rewrite E. change ((1 / INR (length l), 0) : CR) with (real (1 / INR (length l))). rewrite <- real_mul. f_equal. unfold Rdiv. ring.
Qed.
Lemma mean_ext {A} (f g : A -> R) l : (forall a, In a l -> f a = g a) -> mean f l = mean g l.
Proof. intros H. unfold mean. f_equal. apply total_ext. assumption. Qed.
Lemma mean_pos s n g : (1 <= n)%nat -> (forall p, In p (modes s n) -> 0 < g p) -> 0 < mean g (modes s n).
Proof.
  intros Hn H. apply Rdiv_lt_0_compat; [|apply modes_pos; assumption].
  apply total_pos; [intros p Hp; specialize (H p Hp); lra|]. exists (0%nat, 0%nat). split; [|apply H]; apply modes_in; assumption.
Qed.
Lemma mean_sub {A} (f g : A -> R) l : mean (fun a => f a - g a) l = mean f l - mean g l.
Proof.
  unfold mean. rewrite (total_ext _ (fun a => f a + -1 * g a)) by (intros; ring). rewrite total_add, total_scale. unfold Rdiv. ring.
Qed.
Lemma mean_1 s n : (1 <= n)%nat -> mean (fun _ => 1) (modes s n) = 1.
Proof. intros H. unfold mean. rewrite total_const. pose proof (modes_pos s n H). field. lra. Qed.

Lemma plane_0 s n p : plane s n (0, 0)%Z p = c1.
Proof. destruct s; cbn [plane fst snd]; rewrite ?Rmult_0_r, ?Rplus_0_r; apply wave_0. Qed.
Lemma phase_0 x : cexp (- (x * 0)) = c1.
Proof. rewrite Rmult_0_r, Ropp_0. apply wave_0. Qed.
Lemma modulus_i x : 0 <= x -> modulus (c_i *c real x) = x.
Proof.
  intros H. unfold modulus, c_i, real. cbn. replace (_ + _) with (x * x) by ring. apply sqrt_square. assumption.
Qed.

(** Equal-time lesser function. *)
Lemma lesser_k beta mu e : kspace_gfn beta mu e 0 Lesser = Ok (c_i *c real (fermi beta mu e)).
Proof. cbn [kspace_gfn]. rewrite phase_0. f_equal. change cr_mul with (@kmul CR _). ring. Qed.
Lemma fermi_ge0 beta mu e : 0 <= fermi beta mu e <= 1.
Proof.
  destruct beta as [b|]; [rewrite fermi_occupation; pose proof (occupation_range b mu e); lra|].
  cbn. destruct rle_b; lra.
Qed.
Lemma mean_ge0 s n g : (1 <= n)%nat -> (forall p, 0 <= g p) -> 0 <= mean g (modes s n).
Proof.
  intros Hn H. unfold mean, Rdiv. apply Rmult_le_pos; [apply total_ge0; auto|]. apply Rlt_le, Rinv_0_lt_compat, modes_pos. assumption.
Qed.
Lemma density_eq s n beta mu : good_size s n ->
  fg_density beta mu n (dim_of s) = Ok (mean (fun p => fermi beta mu (level_of s n p)) (modes s n)).
Proof.
  intros H. unfold fg_density, realspace_gfn. pose proof (proj1 H) as Hn.
  rewrite (fourier_sum_ok s n _ _ (fun e => c_i *c real (fermi beta mu e))) by (assumption || (intros; apply lesser_k)).
  cbn [bind]. f_equal. rewrite (c_mean_ext _ (fun p => c_i *c real (fermi beta mu (level_of s n p)))).
  2:{ intros p _. rewrite plane_0. ring. }
  rewrite c_mean_scale, c_mean_real. apply modulus_i. apply mean_ge0; [lia|]. intros p. apply fermi_ge0.
Qed.
Lemma lesser_dk b mu e : kspace_dgdmu (Beta b) mu e 0 Lesser =
  Ok (c_i *c real (b * (occupation b mu e * (1 - occupation b mu e)))).
Proof.
  cbn [kspace_dgdmu]. rewrite dfdmu_ok. cbn [bind]. f_equal. rewrite phase_0.
  change cr_mul with (@kmul CR _). change cr_add with (@kadd CR _). rewrite Ropp_0, real_0. ring.
Qed.
Definition slope (b mu e : R) : R := b * (occupation b mu e * (1 - occupation b mu e)).
Lemma slope_ge b mu e : 0 <= b -> 0 <= slope b mu e.
Proof. intros H. unfold slope. pose proof (occupation_range b mu e). apply Rmult_le_pos; [assumption|nra]. Qed.
Lemma compressibility_eq s n b mu : good_size s n -> 0 <= b ->
  fg_compressibility (Beta b) mu n (dim_of s) = Ok (mean (fun p => slope b mu (level_of s n p)) (modes s n)).
Proof.
  intros H Hb. unfold fg_compressibility, realspace_dgdmu. pose proof (proj1 H) as Hn.
  rewrite (fourier_sum_ok s n _ _ (fun e => c_i *c real (slope b mu e))) by (assumption || (intros; apply lesser_dk)).
  cbn [bind]. f_equal. rewrite (c_mean_ext _ (fun p => c_i *c real (slope b mu (level_of s n p)))).
  2:{ intros p _. rewrite plane_0. ring. }
  rewrite c_mean_scale, c_mean_real. apply modulus_i. apply mean_ge0; [lia|]. intros p. apply slope_ge. assumption.
Qed.
Lemma total_deriv {A} (F : A -> R -> R) (D : A -> R) x l : (forall a, In a l -> derivable_pt_lim (F a) x (D a)) ->
  derivable_pt_lim (fun y => total (fun a => F a y) l) x (total D l).
Proof.
  induction l as [|a l IH]; intros H; [apply derivable_pt_lim_const|].
  rewrite total_cons. apply (deriv_ext (fun y => F a y + total (fun a => F a y) l)); [intros y; rewrite (total_cons (fun a0 => F a0 y)); reflexivity|].
  apply (derivable_pt_lim_plus (F a) (fun y => total (fun a => F a y) l)); [apply H; left; reflexivity|].
  apply IH. intros; apply H; right; assumption.
Qed.
Lemma mean_deriv {A} (F : A -> R -> R) (D : A -> R) x l : (forall a, In a l -> derivable_pt_lim (F a) x (D a)) ->
  derivable_pt_lim (fun y => mean (fun a => F a y) l) x (mean D l).
Proof.
  intros H. unfold mean, Rdiv. rewrite Rmult_comm.
  apply (deriv_ext (fun y => / INR (length l) * total (fun a => F a y) l)); [intros; apply Rmult_comm|].
  apply (derivable_pt_lim_scal (fun y => total (fun a => F a y) l)). apply total_deriv. assumption.
Qed.

Lemma density_ok s n b : good_size s n -> exists N,
  (forall mu, fg_density (Beta b) mu n (dim_of s) = Ok (N mu)) /\
  (forall mu, N mu = mean (fun p => occupation b mu (level_of s n p)) (modes s n)) /\
  (forall mu, 0 < N mu < 1) /\
  (0 < b -> forall mu mu', mu < mu' -> N mu < N mu') /\
  (0 <= b -> forall mu, exists c, fg_compressibility (Beta b) mu n (dim_of s) = Ok c /\ derivable_pt_lim N mu c /\ (0 < b -> 0 < c)).
Proof.
  intros H. pose proof (proj1 H) as Hn. exists (fun mu => mean (fun p => occupation b mu (level_of s n p)) (modes s n)).
  split; [|split; [reflexivity|split; [|split]]].
  - intros mu. rewrite density_eq by assumption. f_equal. apply mean_ext. intros. apply fermi_occupation.
  - intros mu. split; [apply mean_pos; [lia|intros; apply occupation_range]|].
    assert (0 < mean (fun p => 1 - occupation b mu (level_of s n p)) (modes s n)).
    { apply mean_pos; [lia|]. intros p _. pose proof (occupation_range b mu (level_of s n p)). lra. }
    rewrite mean_sub, mean_1 in H0 by lia. lra.
  - intros Hb mu mu' Hm.
    assert (0 < mean (fun p => occupation b mu' (level_of s n p) - occupation b mu (level_of s n p)) (modes s n)).
    { apply mean_pos; [lia|]. intros p _. pose proof (occupation_mu b mu mu' (level_of s n p) Hb Hm). lra. }
    rewrite mean_sub in H0. lra.
  - intros Hb mu. eexists. split; [apply compressibility_eq; assumption|]. split.
    + apply (mean_deriv (fun p m => occupation b m (level_of s n p))). intros p _. apply occupation_dmu.
    + intros Hb'. apply mean_pos; [lia|]. intros p _. unfold slope. pose proof (occupation_range b mu (level_of s n p)).
      apply Rmult_lt_0_compat; [assumption|nra].
Qed.

(** ** Particle-hole symmetry *)
Lemma half_turn m j : (0 < m)%nat -> cos (momentum (m + m) (m + j)) = - cos (momentum (m + m) j).
Proof.
  intros H. assert (0 < INR m) by (apply lt_0_INR; assumption).
  replace (momentum (m + m) (m + j)) with (momentum (m + m) j + PI); [apply neg_cos|].
  unfold momentum. rewrite !plus_INR. field. lra.
Qed.
Lemma flip_total m (G : R -> R) : (0 < m)%nat ->
  total (fun j => G (cos (momentum (m + m) j))) (seq 0 (m + m)) = total (fun j => G (- cos (momentum (m + m) j))) (seq 0 (m + m)).
Proof.
  intros H. rewrite !seq_app, !total_app. rewrite Rplus_comm. cbn [Nat.add].
  assert (S : forall F : nat -> R, total F (seq m m) = total (fun j => F (m + j)%nat) (seq 0 m)).
  { intros F. rewrite <- (total_map F (fun j => (m + j)%nat)). f_equal.
    clear. generalize m at 1 3 as a. intros a. replace a with (a + 0)%nat at 1 by lia. generalize 0%nat as s.
    induction m as [|k IH]; intros s; cbn; [reflexivity|]. f_equal. rewrite plus_n_Sm. apply IH. }
  rewrite !S. f_equal; apply total_ext; intros j _; rewrite half_turn by assumption; rewrite ?Ropp_involutive; reflexivity.
Qed.
Lemma level_flip s m (G : R -> R) : (0 < m)%nat ->
  total (fun p => G (level_of s (m + m) p)) (modes s (m + m)) = total (fun p => G (- level_of s (m + m) p)) (modes s (m + m)).
Proof.
  intros H. unfold modes. rewrite !total_prod. destruct s; cbn [level_of fst snd].
  - rewrite (total_ext _ (fun j => G (-2 * cos (momentum (m + m) j)))) by (intros; rewrite total_cons, total_nil; ring).
    rewrite (flip_total m (fun c => G (-2 * c))) by assumption. apply total_ext. intros j _.
    rewrite total_cons, total_nil, Rplus_0_r. f_equal. ring.
  - rewrite (flip_total m (fun c => total (fun b => G (-2 * (c + cos (momentum (m + m) b)))) (seq 0 (m + m)))) by assumption.
    apply total_ext. intros j _.
    rewrite (flip_total m (fun c => G (-2 * (- cos (momentum (m + m) j) + c)))) by assumption.
    apply total_ext. intros k _. f_equal. ring.
Qed.
Lemma particle_hole s n b : good_size s n -> Nat.even n = true -> exists N,
  (forall mu, fg_density (Beta b) mu n (dim_of s) = Ok (N mu)) /\ (forall mu, N mu + N (- mu) = 1) /\ N 0 = 1 / 2.
Proof.
  intros H He. destruct (density_ok s n b H) as (N & E & F & _). exists N. split; [assumption|].
  assert (G : forall mu, N mu + N (- mu) = 1).
  { intros mu. rewrite !F. apply Nat.even_spec in He as (m & ->). replace (2 * m)%nat with (m + m)%nat in * by lia.
    assert (0 < m)%nat by (destruct H; lia). unfold mean.
    rewrite (level_flip s m (fun e => occupation b (- mu) e)) by assumption.
    pose proof (modes_pos s (m + m) ltac:(lia)).
    unfold Rdiv. rewrite <- Rmult_plus_distr_r, <- total_add.
    rewrite (total_ext _ (fun _ => 1)) by (intros; apply occupation_opp). rewrite total_const. field. lra. }
  split; [assumption|]. specialize (G 0). rewrite Ropp_0 in G. lra.
Qed.

(** ** The chemical potential for a density *)
Lemma mu_ok root_scalar minimize s n b density mu :
  (forall f x, root_scalar f = Ok x -> f x = Ok 0) ->
  good_size s n -> 0 < b -> (density <> 1 / 2 \/ Nat.even n = true) ->
  fg_mu root_scalar minimize (Beta b) density n (dim_of s) = Ok mu ->
  fg_density (Beta b) mu n (dim_of s) = Ok density /\
  (forall mu', fg_density (Beta b) mu' n (dim_of s) = Ok density -> mu' = mu).
Proof.
  intros Hroot H Hb Hd E. destruct (density_ok s n b H) as (N & EN & _ & _ & Inc & Comp). specialize (Inc Hb).
  assert (X : N mu = density).
  { unfold fg_mu in E. destruct (Req_EM_T density (1 / 2)) as [->|Hne].
    - injection E as <-. destruct Hd as [Hd|Hd]; [contradiction|].
      destruct (particle_hole s n b H Hd) as (N' & EN' & _ & Z). rewrite <- Z. specialize (EN 0). rewrite EN' in EN. injection EN. auto.
    - apply Hroot in E. rewrite EN in E. cbn [bind] in E. destruct (Comp ltac:(lra) mu) as (c & Ec & _ & Pc). specialize (Pc Hb).
      rewrite Ec in E. cbn [bind] in E. injection E as E. assert (Rabs (N mu - density) = 0) by nra.
      destruct (Req_EM_T (N mu - density) 0) as [Z|Z]; [lra|]. apply Rabs_no_R0 in Z. contradiction. }
  split; [rewrite EN, X; reflexivity|]. intros mu' E'. rewrite EN in E'. injection E' as E'.
  destruct (Rtotal_order mu' mu) as [L|[L|L]]; [|assumption|]; apply Inc in L; lra.
Qed.
