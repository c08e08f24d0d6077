(** Counterexamples for the lattice Fermi gas, and what holds instead. *)
From Coq Require Import List Arith Lia Reals Lra ZArith Bool Permutation.
From Verif Require Import Scalars Res Sums Matrix ModelPhase ModelSymmetry SymBase GeoPhase SymZn SpecThermal ThermalBase ThermalResponse
  SpecFermiGas ModelFermiGas FermiBase FermiGrid FermiModes FermiGas FermiGreen FermiCorr.
Import ListNotations.
Local Open Scope R_scope.

Lemma small_size s n : (2 <= n <= 10)%nat -> good_size s n.
Proof.
  intros H. split; [lia|]. rewrite modes_length. apply (Rle_trans _ (INR 100)); [apply le_INR; destruct s; nia|].
  rewrite INR_IZR_INZ. change (Z.of_nat 100) with 100%Z. lra.
Qed.

(** ** Half filling of an odd chain *)
Lemma cos_third : cos (momentum 3 1) = - (1 / 2) /\ cos (momentum 3 2) = - (1 / 2).
Proof.
  assert (A : momentum 3 1 = 2 * (PI / 3)) by (unfold momentum; cbn; field).
  assert (B : momentum 3 2 = - (2 * (PI / 3)) + 2 * PI * IZR 1) by (unfold momentum; cbn; field).
  rewrite A, B. rewrite (proj1 (trig_period _ 1)), cos_neg, cos_2PI3. lra.
Qed.
Lemma exp_ln2 k : exp (INR k * ln 2) = 2 ^ k.
Proof. rewrite <- Rpower_pow by lra. reflexivity. Qed.
Lemma half_filling_odd : exists s n b x, good_size s n /\ 0 < b /\
  fg_density (Beta b) 0 n (dim_of s) = Ok x /\ x <> 1 / 2 /\
  (forall root_scalar minimize, fg_mu root_scalar minimize (Beta b) (1 / 2) n (dim_of s) = Ok 0).
Proof.
  exists Chain, 3%nat, (ln 2). eexists. split; [apply small_size; lia|]. split; [rewrite <- ln_1; apply ln_increasing; lra|].
  split; [apply density_eq, small_size; lia|]. split.
  - unfold mean, modes. rewrite prod_length, seq_length. cbn [length]. rewrite total_prod. cbn [seq]. rewrite !total_cons, !total_nil.
    cbn [level_of fst snd]. destruct cos_third as [-> ->].
    replace (momentum 3 0) with 0 by (unfold momentum; cbn; field). rewrite cos_0. cbn [fermi].
    replace (ln 2 * (-2 * 1 - 0)) with (- (INR 2 * ln 2)) by (cbn; ring).
    replace (ln 2 * (-2 * - (1 / 2) - 0)) with (INR 1 * ln 2) by (cbn; field). rewrite exp_Ropp, !exp_ln2. cbn. lra.
  - intros. unfold fg_mu. destruct Req_EM_T; [reflexivity|]. contradiction n. reflexivity.
Qed.

(** ** Zero temperature *)
Lemma zero_temperature_level : exists mu e L,
  tends_at_0 (fun T => fermi (Beta (1 / T)) mu e) L /\ fermi BetaInf mu e <> L.
Proof.
  exists 0, 0, (1 / 2). split.
  - intros eps He. exists 1. split; [lra|]. intros T _. rewrite fermi_at_mu, Rminus_diag_eq, Rabs_R0 by reflexivity. assumption.
  - cbn. rewrite rle_b_true by lra. lra.
Qed.
Lemma zero_temperature_slope mu e eta : 0 < eta ->
  (mu <= e -> exists dmu de db, fermi_derivatives BetaInf mu e eta = Ok (dmu, de, db) /\ 0 < de) /\
  (e < mu -> fermi_derivatives BetaInf mu e eta = Raise NotFinite).
Proof.
  intros He. split; intros H; cbn [fermi_derivatives].
  - rewrite rle_b_true by lra. destruct Req_EM_T; [lra|]. do 3 eexists. split; [reflexivity|].
    pose proof PI_RGT_0. apply Rdiv_lt_0_compat; [apply Rdiv_lt_0_compat; assumption|]. nra.
  - rewrite rle_b_false by lra. reflexivity.
Qed.
Lemma zero_temperature_derivative : exists mu e dmu de db,
  fermi_derivatives BetaInf mu e (1 / 10) = Ok (dmu, de, db) /\ 0 < de /\
  (forall x y, x < y -> fermi BetaInf mu y <= fermi BetaInf mu x).
Proof.
  destruct (proj1 (zero_temperature_slope 0 1 (1 / 10) ltac:(lra)) ltac:(lra)) as (dmu & de & db & E & P).
  exists 0, 1, dmu, de, db. split; [assumption|]. split; [assumption|]. intros x y H. cbn.
  unfold rle_b. destruct Rle_dec, Rle_dec; lra.
Qed.

(** ** A single site *)
Lemma single_site s beta mu : fg_density beta mu 1 (dim_of s) = Raise ValueError.
Proof.
  assert (K : kpoints 1 (dim_of s) = Ok [(0, 0)]).
  { destruct s; cbn [dim_of kpoints]; unfold allowed_kvects; rewrite !axis_balanced by lia; cbn [bind fst]; rewrite axl_1; reflexivity. }
  unfold fg_density, realspace_gfn, fourier_sum. rewrite K. cbn [bind rmap]. rewrite disp_ok. cbn [bind].
  cbn [rmap]. rewrite kval_ok by discriminate. cbn [bind]. reflexivity.
Qed.

(** ** Coinciding times *)
Lemma gval_0 s n b mu ty : good_size s n -> ty = Greater \/ ty = Lesser \/ ty = TimeOrdered \/ ty = Retarded \/ ty = Advanced ->
  gval s n (Beta b) mu (0, 0)%Z 0 ty =
  let N := mean (fun p => occupation b mu (level_of s n p)) (modes s n) in
  match ty with
  | Greater => c_mi *c real (1 - N) | Lesser => c_i *c real N | TimeOrdered => c_mi *c real (1 - 2 * N)
  | Retarded => c_mi | _ => c_i
  end.
Proof.
  intros H Hty. pose proof (proj1 H) as Hn.
  assert (M : forall c f, c_mean (fun p => c *c real (f p)) (modes s n) = c *c real (mean f (modes s n))).
  { intros c f. rewrite c_mean_scale, c_mean_real. reflexivity. }
  assert (M1 : forall a, mean (fun p => 1 - a * occupation b mu (level_of s n p)) (modes s n) =
    1 - a * mean (fun p => occupation b mu (level_of s n p)) (modes s n)).
  { intros a. rewrite mean_sub, mean_1 by lia. f_equal. unfold mean. rewrite total_scale. unfold Rdiv. ring. }
  unfold gval. cbn zeta. destruct Hty as [-> | [-> | [-> | [-> | ->]]]].
  - replace (1 - mean (fun p => occupation b mu (level_of s n p)) (modes s n)) with
      (1 - 1 * mean (fun p => occupation b mu (level_of s n p)) (modes s n)) by ring. rewrite <- M1, <- M.
    apply c_mean_ext. intros p _. rewrite plane_0. unfold kval. cbn [kspace_gfn]. rewrite phase_0, fermi_occupation.
    rewrite Rmult_1_l. change cr_mul with (@kmul CR _). ring.
  - rewrite <- M. apply c_mean_ext. intros p _. rewrite plane_0. unfold kval. rewrite lesser_k, fermi_occupation. ring.
  - rewrite <- M1, <- M. apply c_mean_ext. intros p _. rewrite plane_0. unfold kval. cbn [kspace_gfn]. rewrite phase_0, fermi_occupation.
    rewrite Ropp_0, heaviside_pos by lra. set (f := occupation _ _ _).
    replace (1 * (1 - f) - 1 * f) with (1 - 2 * f) by ring. change cr_mul with (@kmul CR _). ring.
  - transitivity (c_mi *c real (mean (fun _ => 1) (modes s n))); [|rewrite mean_1, real_1 by lia; ring]. rewrite <- M.
    apply c_mean_ext. intros p _. rewrite plane_0. unfold kval. cbn [kspace_gfn]. rewrite phase_0, heaviside_pos by lra.
    change cr_mul with (@kmul CR _). ring.
  - transitivity (c_i *c real (mean (fun _ => 1) (modes s n))); [|rewrite mean_1, real_1 by lia; ring]. rewrite <- M.
    apply c_mean_ext. intros p _. rewrite plane_0. unfold kval. cbn [kspace_gfn]. rewrite phase_0, Ropp_0, heaviside_pos by lra.
    change cr_mul with (@kmul CR _). ring.
Qed.
Lemma coinciding_times s n b mu : good_size s n -> exists G : gfn_type -> CR,
  (forall ty, ty <> OtherType -> realspace_gfn (Beta b) mu (0, 0)%Z 0 n (dim_of s) ty = Ok (G ty)) /\
  c_sub (G Retarded) (G Advanced) <> c_sub (G Greater) (G Lesser) /\
  G TimeOrdered <> G Greater /\ G TimeOrdered <> G Lesser.
Proof.
  intros H. exists (fun ty => gval s n (Beta b) mu (0, 0)%Z 0 ty). split; [intros; apply gval_ok; assumption|].
  destruct (density_ok s n b H) as (N & _ & EN & RN & _). specialize (EN mu). specialize (RN mu).
  rewrite !gval_0 by (assumption || tauto). cbn zeta. rewrite <- EN. unfold c_sub, c_mi, c_i, real. cbn. unfold cr_mul, cr_add, cr_opp. cbn.
  repeat split; intros E; apply (f_equal snd) in E; cbn [snd] in E; destruct RN; lra.
Qed.
Lemma coinciding_times_refuted : exists s n beta mu G, good_size s n /\
  (forall ty, ty <> OtherType -> realspace_gfn beta mu (0, 0)%Z 0 n (dim_of s) ty = Ok (G ty)) /\
  c_sub (G Retarded) (G Advanced) <> c_sub (G Greater) (G Lesser) /\
  G TimeOrdered <> G Greater /\ G TimeOrdered <> G Lesser.
Proof.
  destruct (coinciding_times Chain 4 1 0 (small_size Chain 4 ltac:(lia))) as (G & HG).
  exists Chain, 4%nat, (Beta 1), 0, G. split; [apply small_size; lia|exact HG].
Qed.

(** ** The derivative of the time-ordered function *)
Lemma time_ordered_derivative s n b mu : good_size s n -> 0 < b -> exists G,
  (forall m, realspace_gfn (Beta b) m (0, 0)%Z 0 n (dim_of s) TimeOrdered = Ok (G m)) /\
  exists d, realspace_dgdmu (Beta b) mu (0, 0)%Z 0 n (dim_of s) TimeOrdered = Ok d /\ ~ c_deriv G mu d.
Proof.
  intros H Hb. exists (fun m => gval s n (Beta b) m (0, 0)%Z 0 TimeOrdered). split; [intros; apply gval_ok; [assumption|discriminate]|].
  exists c0. split.
  - unfold realspace_dgdmu. rewrite (fourier_sum_ok s n _ _ (fun _ => c0)); [|assumption|].
    + f_equal. apply c_mean_0. intros; ring.
    + intros e. cbn [kspace_dgdmu]. f_equal. rewrite real_0. change cr_mul with (@kmul CR _). ring.
  - intros [_ D]. destruct (density_ok s n b H) as (N & _ & EN & _ & _ & Comp).
    destruct (Comp ltac:(lra) mu) as (c & _ & Dc & Pc). specialize (Pc Hb).
    assert (D2 : derivable_pt_lim (fun m => 2 * N m + -1) mu (2 * c + 0)).
    { apply (derivable_pt_lim_plus (fun m => 2 * N m) (fun _ => -1)); [apply (derivable_pt_lim_scal N); assumption|apply derivable_pt_lim_const]. }
    assert (D3 : derivable_pt_lim (fun m => 2 * N m + -1) mu (snd c0)).
    { refine (deriv_ext _ _ _ _ _ D). intros m. cbn beta. rewrite gval_0 by (assumption || tauto). cbn zeta. rewrite <- EN.
      unfold c_mi, real. cbn. ring. }
    pose proof (uniqueness_limite _ _ _ _ D2 D3) as U. cbn in U. lra.
Qed.
Lemma time_ordered_derivative_refuted : exists s n b mu G d, good_size s n /\ 0 < b /\
  (forall m, realspace_gfn (Beta b) m (0, 0)%Z 0 n (dim_of s) TimeOrdered = Ok (G m)) /\
  realspace_dgdmu (Beta b) mu (0, 0)%Z 0 n (dim_of s) TimeOrdered = Ok d /\ ~ c_deriv G mu d.
Proof.
  destruct (time_ordered_derivative Chain 4 1 0 (small_size Chain 4 ltac:(lia)) ltac:(lra)) as (G & HG & d & Hd).
  exists Chain, 4%nat, 1, 0, G, d. split; [apply small_size; lia|]. split; [lra|]. split; [assumption|exact Hd].
Qed.

(** ** The response of a chain *)
Lemma chain_response_refuted : exists n b mu q omega eta chi chi', (1 <= n)%nat /\ 0 < b /\
  density_response (Beta b) mu q omega eta n Dim1 = Ok chi /\
  lindhard_sum Chain n b mu q omega eta chi' /\ (forall c, lindhard_sum Chain n b mu q omega eta c -> c = chi') /\ chi <> chi'.
Proof.
  exists 2%nat, 1, 0, (PI, 0), 1, 0. do 2 eexists. split; [lia|]. split; [lra|]. split; [apply response1_eq; lia|].
  split; [|split].
  - exists (fun p => term 1 0 1 0 (level_of Chain 2 p) (shifted_level Chain 2 (PI, 0) p)). split; [intros; apply term_ok|reflexivity].
  - intros c (f & Hf & ->). apply c_mean_ext. intros p Hp. apply lindhard_unique. apply Hf. assumption.
  - rewrite (c_mean_0 (fun p => term 1 0 1 0 (level_of Chain 2 p) (level_of Chain 2 p))).
    2:{ intros p _. rewrite (proj2 (term_ok _ _ _ _ _ _)) by (intros [X _]; cbn in X; lra).
        unfold quotient. rewrite Rminus_diag_eq by reflexivity. cbn. f_equal; unfold Rdiv; ring. }
    rewrite c_mean_pair. intros E. apply (f_equal fst) in E. cbn [fst k0] in E.
    unfold mean, modes in E. rewrite prod_length, seq_length in E. cbn [length] in E. rewrite total_prod in E. cbn [seq] in E.
    rewrite !total_cons, !total_nil in E. cbn [level_of shifted_level fst snd] in E.
    replace (momentum 2 0) with 0 in E by (unfold momentum; cbn; field).
    replace (momentum 2 1) with PI in E by (unfold momentum; cbn; field).
    rewrite Rplus_0_l, cos_0, cos_PI in E. replace (PI + PI) with (2 * PI) in E by ring. rewrite cos_2PI in E.
    rewrite !(proj2 (term_ok _ _ _ _ _ _)) in E by (intros [X _]; cbn in X; lra).
    pose proof (occupation_e 1 0 (-2 * 1) (-2 * -1) ltac:(lra) ltac:(lra)) as L.
    unfold quotient in E. cbn [fst snd] in E. change (fst c0) with 0 in E. cbn [INR Nat.mul Nat.add] in E. lra.
Qed.

(** ** Equivalent displacements *)
Lemma wave_same n j x y : (1 <= n)%nat -> back n (x - y) = true -> wave (momentum n j * IZR x) = wave (momentum n j * IZR y).
Proof.
  intros Hn H. rewrite !wave_mod by lia. unfold back in H. apply Z.eqb_eq in H.
  replace (x mod Z.of_nat n)%Z with (y mod Z.of_nat n)%Z; [reflexivity|].
  replace x with (y + (x - y))%Z by lia. rewrite Zplus_mod, H, Z.add_0_r, Z.mod_mod by lia. reflexivity.
Qed.
Lemma plane_same s n r r' p : (1 <= n)%nat -> same_place s n r r' = true -> plane s n r p = plane s n r' p.
Proof.
  intros Hn H. unfold same_place in H. destruct s; cbn [same_site fst snd plane] in *; [apply wave_same; assumption|].
  apply andb_true_iff in H as [H1 H2]. rewrite !wave_add. rewrite (wave_same n (fst p) _ _ Hn H1), (wave_same n (snd p) _ _ Hn H2). reflexivity.
Qed.
Lemma gval_same s n beta mu r r' t ty : (1 <= n)%nat -> same_place s n r r' = true ->
  gval s n beta mu r t ty = gval s n beta mu r' t ty.
Proof. intros Hn H. unfold gval. apply c_mean_ext. intros p _. rewrite (plane_same s n r r' p Hn H). reflexivity. Qed.
Lemma equivalent_displacements s n beta mu r r' : good_size s n -> same_place s n r r' = true ->
  (forall t ty, realspace_gfn beta mu r t n (dim_of s) ty = realspace_gfn beta mu r' t n (dim_of s) ty) /\
  ((r = (0, 0)%Z <-> r' = (0, 0)%Z) -> fg_corr beta mu r n (dim_of s) = fg_corr beta mu r' n (dim_of s)).
Proof.
  intros H Hs. pose proof (proj1 H) as Hn. split.
  - intros t ty. destruct ty; try (rewrite !gval_ok by (assumption || discriminate); f_equal; apply gval_same; [lia|assumption]).
    unfold realspace_gfn, fourier_sum. destruct (kpoints_ok s n ltac:(lia)) as (ks & -> & P). cbn [bind].
    rewrite (rmap_total _ (disp s)) by (intros; apply disp_ok). cbn [bind].
    destruct ks as [|k ks]; [|reflexivity]. apply Permutation_length in P. rewrite map_length in P.
    pose proof (modes_in s n ltac:(lia)) as M. destruct (modes s n); [destruct M|discriminate].
  - intros Hz. rewrite !corr_eq by assumption. f_equal. unfold cval. rewrite (gval_same s n beta mu r r' 0 Lesser ltac:(lia) Hs).
    replace (no_shift r) with (no_shift r'); [reflexivity|]. destruct r as [x y], r' as [x' y']. unfold no_shift. cbn [fst snd].
    destruct ((x =? 0) && (y =? 0))%Z eqn:E, ((x' =? 0) && (y' =? 0))%Z eqn:E'; try reflexivity; exfalso.
    + apply andb_true_iff in E as [E1 E2]. apply Z.eqb_eq in E1, E2. subst. destruct Hz as [Hz _]. specialize (Hz eq_refl).
      injection Hz as -> ->. discriminate.
    + apply andb_true_iff in E' as [E1 E2]. apply Z.eqb_eq in E1, E2. subst. destruct Hz as [_ Hz]. specialize (Hz eq_refl).
      injection Hz as -> ->. discriminate.
Qed.
Lemma displacement_bug s n b mu r : good_size s n -> r <> (0, 0)%Z -> same_place s n r (0, 0)%Z = true ->
  fg_corr (Beta b) mu r n (dim_of s) <> fg_corr (Beta b) mu (0, 0)%Z n (dim_of s).
Proof.
  intros H Hr Hs. rewrite !corr_eq by assumption. unfold cval. pose proof (proj1 H) as Hn.
  rewrite (gval_same s n (Beta b) mu r (0, 0)%Z 0 Lesser ltac:(lia) Hs).
  destruct (density_ok s n b H) as (N & _ & EN & RN & _). specialize (EN mu). specialize (RN mu).
  rewrite !gval_0 by (assumption || tauto). cbn zeta. rewrite <- EN. rewrite modulus_i by lra.
  replace (no_shift (0, 0)%Z) with 1 by reflexivity.
  replace (no_shift r) with 0; [intros E; injection E; lra|]. unfold no_shift.
  destruct r as [x y]. destruct ((x =? 0) && (y =? 0))%Z eqn:E; cbn [fst snd] in *; rewrite E; [|reflexivity].
  apply andb_true_iff in E as [E1 E2]. apply Z.eqb_eq in E1, E2. subst. contradiction.
Qed.
Lemma chain_default_index_refuted : exists n beta mu r r', good_size Chain n /\ fst r = fst r' /\
  fg_corr beta mu r n Dim1 <> fg_corr beta mu r' n Dim1.
Proof.
  exists 4%nat, (Beta 1), 0, (0, 1)%Z, (0, 0)%Z. split; [apply small_size; lia|]. split; [reflexivity|].
  apply (displacement_bug Chain); [apply small_size; lia|discriminate|reflexivity].
Qed.
Lemma winding_index_refuted : exists n beta mu r r', good_size Square n /\ same_place Square n r r' = true /\
  fg_corr beta mu r n Dim2 <> fg_corr beta mu r' n Dim2.
Proof.
  exists 4%nat, (Beta 1), 0, (4, 0)%Z, (0, 0)%Z. split; [apply small_size; lia|]. split; [reflexivity|].
  apply (displacement_bug Square); [apply small_size; lia|discriminate|reflexivity].
Qed.
