(** Correlations and response functions of the lattice Fermi gas. *)
From Coq Require Import List Arith Lia Reals Lra ZArith Bool Permutation.
From Verif Require Import Scalars Res Sums Matrix ModelPhase ModelSymmetry SymBase GeoPhase SymZn SpecThermal ThermalBase
  SpecFermiGas ModelFermiGas FermiBase FermiGrid FermiModes FermiGas FermiGreen.
Import ListNotations.
Local Open Scope R_scope.

(** ** The sum of the correlations over all sites *)
Definition ftr (s : shape) (n : nat) (f : nat * nat -> R) (r : Z * Z) : CR :=
  klsum (modes s n) (fun p => plane s n r p *c real (f p)).
Lemma lesser_ftr s n beta mu r :
  gval s n beta mu r 0 Lesser =
  c_i *c (real (1 / INR (length (modes s n))) *c ftr s n (fun p => fermi beta mu (level_of s n p)) r).
Proof.
  unfold gval, ftr. rewrite (c_mean_ext _ (fun p => c_i *c (plane s n r p *c real (fermi beta mu (level_of s n p))))).
  2:{ intros p _. unfold kval. rewrite lesser_k. ring. }
  rewrite c_mean_scale. reflexivity.
Qed.
Lemma modulus_sq z : modulus z * modulus z = nsq z.
Proof. rewrite modulus_nsq. apply sqrt_sqrt. apply nsq_ge. Qed.
Definition cval (s : shape) (n : nat) (beta : invtemp) (mu : R) (r : Z * Z) : R :=
  no_shift r * modulus (gval s n beta mu r 0 Lesser) - nsq (gval s n beta mu r 0 Lesser).
Lemma corr_eq s n beta mu r : good_size s n -> fg_corr beta mu r n (dim_of s) = Ok (cval s n beta mu r).
Proof.
  intros H. unfold fg_corr. rewrite gval_ok by (assumption || discriminate). cbn [bind]. unfold cval. rewrite modulus_sq. reflexivity.
Qed.
Lemma nsq_lesser s n beta mu r : (1 <= n)%nat ->
  nsq (gval s n beta mu r 0 Lesser) =
  nsq (ftr s n (fun p => fermi beta mu (level_of s n p)) r) / (INR (length (modes s n)) * INR (length (modes s n))).
Proof.
  intros Hn. rewrite lesser_ftr, !nsq_mul, real_nsq. replace (nsq c_i) with 1 by (unfold nsq, c_i; cbn; ring).
  pose proof (modes_pos s n Hn). field. lra.
Qed.

Lemma klsum_swap {A B} (l : list A) (m : list B) (f : A -> B -> CR) :
  klsum l (fun a => klsum m (f a)) = klsum m (fun b => klsum l (fun a => f a b)).
Proof.
  induction l as [|a l IH]; cbn [klsum]; [symmetry; apply klsum_zero; reflexivity|]. rewrite IH, <- klsum_add. reflexivity.
Qed.
Definition eqp (p q : nat * nat) : bool := ((fst p =? fst q) && (snd p =? snd q))%nat.
Lemma eqp_spec p q : eqp p q = true <-> p = q.
Proof.
  destruct p as [a b], q as [c d]. unfold eqp. cbn. rewrite andb_true_iff, !Nat.eqb_eq. split; [intros [-> ->]; reflexivity|].
  intros E. injection E as -> ->. split; reflexivity.
Qed.
Lemma klsum_pick (l : list (nat * nat)) p x : NoDup l -> In p l -> klsum l (fun q => if eqp p q then x else c0) = x.
Proof.
  induction l as [|a l IH]; intros N Hp; [destruct Hp|]. inversion N as [|? ? N1 N2]; subst. cbn [klsum].
  destruct (eqp p a) eqn:E.
  - apply eqp_spec in E. subst. rewrite klsum_zero; [ring|]. intros q Hq. destruct (eqp a q) eqn:E; [|reflexivity].
    apply eqp_spec in E. subst. contradiction.
  - destruct Hp as [-> | Hp]; [rewrite (proj2 (eqp_spec p p) eq_refl) in E; discriminate|]. rewrite IH by assumption. ring.
Qed.
Lemma NoDup_app_in {A} (l1 l2 : list A) : NoDup l1 -> NoDup l2 -> (forall x, In x l1 -> In x l2 -> False) -> NoDup (l1 ++ l2).
Proof.
  intros H1 H2 H. induction H1 as [|a l Ha Hl IH]; cbn; [assumption|]. constructor.
  - intros I. apply in_app_or in I as [I|I]; [contradiction|]. apply (H a); [left; reflexivity|assumption].
  - apply IH. intros x Hx. apply H. right. assumption.
Qed.
Lemma NoDup_prod {A B} (l : list A) (m : list B) : NoDup l -> NoDup m -> NoDup (list_prod l m).
Proof.
  intros H1 H2. induction H1 as [|a l Ha Hl IH]; cbn; [constructor|].
  apply NoDup_app_in; [|assumption|].
  - apply NoDup_map_in; [|assumption]. intros x y _ _ E. injection E. auto.
  - intros [x y] Hx Hy. apply in_map_iff in Hx as (b & E & _). injection E as <- <-. apply in_prod_iff in Hy as [Hy _]. contradiction.
Qed.
Lemma modes_nodup s n : NoDup (modes s n).
Proof. apply NoDup_prod; [apply seq_NoDup|]. destruct s; [repeat constructor; intros []|apply seq_NoDup]. Qed.
Lemma wave_root n j x : wave (momentum n j * IZR (Z.of_nat x)) = root n (j * x).
Proof. unfold root. change (cexp ?a) with (wave a). f_equal. unfold momentum. rewrite mult_INR, <- INR_IZR_INZ. unfold Rdiv. ring. Qed.
Lemma sites_orth s n p q : (1 <= n)%nat -> In p (modes s n) -> In q (modes s n) ->
  klsum (sites s n) (fun r => plane s n r p *c conj (plane s n r q)) = if eqp p q then real (INR (length (modes s n))) else c0.
Proof.
  intros Hn Hp Hq. unfold sites. rewrite klsum_map. rewrite modes_length. unfold modes in *. rewrite klsum_prod.
  destruct p as [a a'], q as [b b']. apply in_prod_iff in Hp as [Ha Ha'], Hq as [Hb Hb']. apply in_seq in Ha, Hb.
  unfold eqp. cbn [fst snd].
  destruct s; cbn [plane fst snd].
  - destruct Ha' as [<-|[]], Hb' as [<-|[]]. rewrite Nat.eqb_refl, andb_true_r, Nat.mul_1_r.
    rewrite (klsum_ext _ _ (fun x => root n (a * x) *c conj (root n (b * x)))) by (intros x _; cbn [klsum]; rewrite !wave_root; ring).
    rewrite klsum_seq. apply root_orth; lia.
  - apply in_seq in Ha', Hb'.
    rewrite (klsum_ext _ _ (fun x => root n (a * x) *c conj (root n (b * x)) *c
      klsum (seq 0 n) (fun y => root n (a' * y) *c conj (root n (b' * y))))).
    2:{ intros x _. rewrite <- klsum_mul_l. apply klsum_ext. intros y _. rewrite !wave_add, !wave_root, (@kconj_mul CR _). ring. }
    rewrite klsum_mul_r, !klsum_seq, !root_orth by lia. rewrite mult_INR, real_mul. destruct (a =? b)%nat, (a' =? b')%nat; cbn [andb]; ring.
Qed.
Lemma klsum_real {A} (f : A -> R) l : klsum l (fun a => real (f a)) = real (total f l).
Proof. induction l as [|a l IH]; [reflexivity|]. cbn [klsum]. rewrite IH, <- real_add. reflexivity. Qed.
Lemma parseval s n f : (1 <= n)%nat ->
  total (fun r => nsq (ftr s n f r)) (sites s n) = INR (length (modes s n)) * total (fun p => f p * f p) (modes s n).
Proof.
  intros Hn. apply real_inj. rewrite <- klsum_real, real_mul, <- klsum_real.
  rewrite (klsum_ext _ _ (fun r => klsum (modes s n) (fun p => klsum (modes s n) (fun q =>
    (plane s n r p *c conj (plane s n r q)) *c (real (f p) *c real (f q)))))).
  2:{ intros r _. rewrite <- mul_conj. unfold ftr. rewrite klsum_conj, <- klsum_mul_r. apply klsum_ext. intros p _.
      rewrite <- klsum_mul_l. apply klsum_ext. intros q _. rewrite (@kconj_mul CR _), real_conj. ring. }
  rewrite klsum_swap, <- klsum_mul_l. apply klsum_ext. intros p Hp.
  rewrite klsum_swap.
  rewrite (klsum_ext _ _ (fun q => if eqp p q then real (INR (length (modes s n))) *c real (f p * f p) else c0)).
  2:{ intros q Hq. rewrite klsum_mul_r, sites_orth by assumption. destruct (eqp p q) eqn:E; [|ring].
      apply eqp_spec in E. subst. rewrite real_mul. ring. }
  apply klsum_pick; [apply modes_nodup|assumption].
Qed.
Lemma total_no_shift s n (F : Z * Z -> R) : (1 <= n)%nat ->
  total (fun r => no_shift r * F r) (sites s n) = F (0, 0)%Z.
Proof.
  intros Hn. unfold sites. rewrite total_map.
  assert (G : forall l, NoDup l -> total (fun p => no_shift (Z.of_nat (fst p), Z.of_nat (snd p)) * F (Z.of_nat (fst p), Z.of_nat (snd p))) l =
    if existsb (eqp (0%nat, 0%nat)) l then F (0, 0)%Z else 0).
  { induction l as [|[a b] l IH]; intros N; [reflexivity|]. inversion N as [|? ? N1 N2]; subst. rewrite total_cons, IH by assumption.
    cbn [existsb fst snd]. unfold no_shift at 1. cbn [fst snd].
    destruct (eqp (0%nat, 0%nat) (a, b)) eqn:E.
    - apply eqp_spec in E. injection E as <- <-. cbn. destruct (existsb (eqp (0%nat, 0%nat)) l) eqn:E2; [|ring].
      apply existsb_exists in E2 as (q & Hq & Eq). apply eqp_spec in Eq. subst. contradiction.
    - assert (X : ((Z.of_nat a =? 0) && (Z.of_nat b =? 0))%Z = false).
      { apply not_true_iff_false. intros T. apply andb_true_iff in T as [T1 T2]. apply Z.eqb_eq in T1, T2.
        assert (a = 0%nat) by lia. assert (b = 0%nat) by lia. subst. discriminate. }
      rewrite X. cbn [orb]. ring. }
  rewrite G by apply modes_nodup.
  replace (existsb (eqp (0%nat, 0%nat)) (modes s n)) with true; [reflexivity|]. symmetry. apply existsb_exists.
  exists (0%nat, 0%nat). split; [apply modes_in; assumption|reflexivity].
Qed.
Lemma total_div {A} (f : A -> R) c l : total (fun a => f a / c) l = total f l / c.
Proof. unfold Rdiv. rewrite (Rmult_comm _ (/ c)), <- total_scale. apply total_ext. intros. apply Rmult_comm. Qed.
Lemma corr_sum s n beta mu : good_size s n ->
  total (cval s n beta mu) (sites s n) =
  mean (fun p => fermi beta mu (level_of s n p) * (1 - fermi beta mu (level_of s n p))) (modes s n).
Proof.
  intros H. pose proof (proj1 H) as Hn. pose proof (modes_pos s n ltac:(lia)) as P.
  rewrite (total_ext _ (fun r => no_shift r * modulus (gval s n beta mu r 0 Lesser) + -1 * nsq (gval s n beta mu r 0 Lesser)))
    by (intros; unfold cval; ring).
  rewrite total_add, total_scale. rewrite (total_no_shift s n (fun r => modulus (gval s n beta mu r 0 Lesser))) by lia.
  rewrite (total_ext (fun r => nsq _) _ _ (fun r _ => nsq_lesser s n beta mu r ltac:(lia))), total_div, parseval by lia.
  assert (D : modulus (gval s n beta mu (0, 0)%Z 0 Lesser) = mean (fun p => fermi beta mu (level_of s n p)) (modes s n)).
  { pose proof (density_eq s n beta mu H) as E. unfold fg_density in E. rewrite gval_ok in E by (assumption || discriminate).
    injection E. auto. }
  rewrite D. unfold mean.
  rewrite (total_ext (fun p => fermi beta mu (level_of s n p) * (1 - fermi beta mu (level_of s n p)))
    (fun p => fermi beta mu (level_of s n p) + -1 * (fermi beta mu (level_of s n p) * fermi beta mu (level_of s n p)))) by (intros; ring).
  rewrite total_add, total_scale. field. lra.
Qed.
Lemma fluctuation s n beta mu : good_size s n -> exists C,
  (forall r, fg_corr beta mu r n (dim_of s) = Ok (C r)) /\
  total C (sites s n) = mean (fun p => fermi beta mu (level_of s n p) * (1 - fermi beta mu (level_of s n p))) (modes s n) /\
  (forall b, beta = Beta b -> 0 <= b -> fg_compressibility beta mu n (dim_of s) = Ok (b * total C (sites s n))).
Proof.
  intros H. exists (cval s n beta mu). split; [intros; apply corr_eq; assumption|]. split; [apply corr_sum; assumption|].
  intros b -> Hb. rewrite compressibility_eq by assumption. f_equal. rewrite corr_sum by assumption. unfold mean, slope, Rdiv.
  rewrite total_scale, Rmult_assoc. f_equal. f_equal. apply total_ext. intros. rewrite fermi_occupation. reflexivity.
Qed.

(** ** Two species *)
Lemma two_species s n beta mu_up mu_dn r : good_size s n -> exists n_up n_dn c_up c_dn,
  fg_density beta mu_up n (dim_of s) = Ok n_up /\ fg_density beta mu_dn n (dim_of s) = Ok n_dn /\
  fg_corr beta mu_up r n (dim_of s) = Ok c_up /\ fg_corr beta mu_dn r n (dim_of s) = Ok c_dn /\
  forall p q, pair_stats p n_up c_up -> pair_stats q n_dn c_dn ->
    fg_singles beta mu_up mu_dn n (dim_of s) = Ok (average2 p q (fun u _ d _ => u + d - 2 * u * d)) /\
    fg_doubles beta mu_up mu_dn n (dim_of s) = Ok (average2 p q (fun u _ d _ => u * d)) /\
    fg_singles_corr beta mu_up mu_dn r n (dim_of s) = Ok (connected p q (fun u d => u + d - 2 * u * d)) /\
    fg_doubles_corr beta mu_up mu_dn r n (dim_of s) = Ok (connected p q (fun u d => u * d)) /\
    fg_sz_corr beta mu_up mu_dn r n (dim_of s) = Ok (connected p q (fun u d => u - d)).
Proof.
  intros H. do 4 eexists. split; [apply density_eq; assumption|]. split; [apply density_eq; assumption|].
  split; [apply corr_eq; assumption|]. split; [apply corr_eq; assumption|].
  unfold fg_singles, fg_doubles, fg_singles_corr, fg_doubles_corr, fg_sz_corr. rewrite !density_eq, !corr_eq by assumption. cbn [bind].
  set (m := mean _ _). set (m' := mean _ _). set (c := cval s n beta mu_up r). set (c' := cval s n beta mu_dn r).
  intros p q (P1 & P2 & P3 & P4) (Q1 & Q2 & Q3 & Q4). unfold law in *.
  assert (P00 : p false false = 1 - 2 * m + (c + m * m)) by lra. assert (P01 : p false true = m - (c + m * m)) by lra.
  assert (P10 : p true false = m - (c + m * m)) by lra.
  assert (Q00 : q false false = 1 - 2 * m' + (c' + m' * m')) by lra. assert (Q01 : q false true = m' - (c' + m' * m')) by lra.
  assert (Q10 : q true false = m' - (c' + m' * m')) by lra.
  unfold connected, average2. rewrite !total_cons, !total_nil. unfold bit. rewrite P00, P01, P10, P4, Q00, Q01, Q10, Q4.
  clear. repeat split; f_equal; ring.
Qed.
Lemma spin_isotropy s n beta mu r : good_size s n ->
  fg_sx_corr beta mu mu r n (dim_of s) = fg_sz_corr beta mu mu r n (dim_of s).
Proof.
  intros H. unfold fg_sx_corr, fg_sz_corr. rewrite corr_eq, gval_ok by (assumption || discriminate). cbn [bind].
  f_equal. unfold cval. set (g := gval s n beta mu r 0 Lesser). destruct g as [a b]. unfold nsq. cbn. ring.
Qed.

(** ** Density response *)
Definition term (b mu omega eta e e' : R) : CR :=
  chi_term (Beta b) mu omega eta (- slope b mu e) (e, e').
Lemma term_ok b mu omega eta e e' : lindhard b mu omega eta e e' (term b mu omega eta e e').
Proof.
  unfold lindhard, term, chi_term, r_over_c. cbn [fst snd]. rewrite !fermi_occupation. unfold vanishes. cbn [fst snd].
  destruct Req_EM_T as [E|E].
  - split; [intros _; reflexivity|]. intros N. exfalso. apply N. apply Rplus_sqr_eq_0. exact E.
  - split; [intros [X Y]; exfalso; apply E; rewrite X, Y; ring|]. reflexivity.
Qed.
Lemma lindhard_unique b mu omega eta e e' c : lindhard b mu omega eta e e' c -> c = term b mu omega eta e e'.
Proof.
  intros [H1 H2]. destruct (term_ok b mu omega eta e e') as [T1 T2].
  destruct (Req_EM_T (omega + e - e') 0) as [Z|Z]; [destruct (Req_EM_T eta 0) as [Z2|Z2]|].
  - rewrite H1, T1 by (split; assumption). reflexivity.
  - rewrite H2, T2 by (intros [_ X]; contradiction). reflexivity.
  - rewrite H2, T2 by (intros [X _]; contradiction). reflexivity.
Qed.
Lemma lims_ok b mu ees :
  rmap (fun ee => d <- dfdmu (Beta b) mu (fst ee) 0 ;; Ok (- d)) ees = Ok (map (fun ee : R * R => - slope b mu (fst ee)) ees).
Proof. apply rmap_total. intros ee _. rewrite dfdmu_ok. reflexivity. Qed.
Lemma response2_eq n b mu q omega eta : (1 <= n)%nat ->
  density_response (Beta b) mu q omega eta n Dim2 =
  Ok (c_mean (fun p => term b mu omega eta (level_of Square n p) (shifted_level Square n q p)) (modes Square n)).
Proof.
  intros Hn. unfold density_response, shifted_energies. destruct (kpoints_ok Square n Hn) as (ks & E & P).
  change Dim2 with (dim_of Square). rewrite E. cbn [bind dim_of]. rewrite lims_ok. cbn [bind].
  rewrite klsum_combine, klsum_map, (klsum_perm _ _ _ P), klsum_map, map_length, (Permutation_length P), map_length.
  unfold c_mean. f_equal. change cr_mul with (@kmul CR _). f_equal. apply klsum_ext. intros p _. cbn [fst snd kpt].
  rewrite !wrap_cos.
  assert (W : forall k x, cos (wrap k + x) = cos (k + x)).
  { intros k x. destruct (wrap_shift k) as (z & ->). replace (k + 2 * PI * IZR z + x) with (k + x + 2 * PI * IZR z) by ring. apply trig_period. }
  rewrite !W. reflexivity.
Qed.
Lemma response2 n b mu q omega eta : (1 <= n)%nat -> exists chi,
  density_response (Beta b) mu q omega eta n Dim2 = Ok chi /\ lindhard_sum Square n b mu q omega eta chi.
Proof.
  intros Hn. eexists. split; [apply response2_eq; assumption|]. eexists. split; [|reflexivity]. intros p _. apply term_ok.
Qed.
Lemma response1_eq n b mu q omega eta : (1 <= n)%nat ->
  density_response (Beta b) mu q omega eta n Dim1 =
  Ok (c_mean (fun p => term b mu omega eta (level_of Chain n p) (level_of Chain n p)) (modes Chain n)).
Proof.
  intros Hn. unfold density_response, shifted_energies. destruct (kpoints_ok Chain n Hn) as (ks & E & P).
  change Dim1 with (dim_of Chain). rewrite E. cbn [bind dim_of]. rewrite lims_ok. cbn [bind].
  rewrite klsum_combine, klsum_map, (klsum_perm _ _ _ P), klsum_map, map_length, (Permutation_length P), map_length.
  unfold c_mean. f_equal. change cr_mul with (@kmul CR _). f_equal. apply klsum_ext. intros p _. cbn [fst snd kpt].
  rewrite !wrap_cos. reflexivity.
Qed.
Lemma shifted_0 s n p : shifted_level s n (0, 0) p = level_of s n p.
Proof. destruct s; cbn [shifted_level level_of fst snd]; rewrite !Rplus_0_r; reflexivity. Qed.
Lemma response1_q0 n b mu omega eta : (1 <= n)%nat -> exists chi,
  density_response (Beta b) mu (0, 0) omega eta n Dim1 = Ok chi /\ lindhard_sum Chain n b mu (0, 0) omega eta chi.
Proof.
  intros Hn. eexists. split; [apply response1_eq; assumption|]. eexists. split; [|reflexivity]. intros p _.
  rewrite shifted_0. apply term_ok.
Qed.
Lemma static_term b mu e e' : 0 < b -> exists x, term b mu 0 0 e e' = real x /\ x < 0.
Proof.
  intros Hb. destruct (Req_EM_T e e') as [->|Hne].
  - exists (- slope b mu e'). split; [apply term_ok; split; cbn; ring|]. unfold slope. pose proof (occupation_range b mu e').
    assert (0 < b * (occupation b mu e' * (1 - occupation b mu e'))) by (apply Rmult_lt_0_compat; nra). lra.
  - exists ((occupation b mu e - occupation b mu e') / (e - e')). split.
    + rewrite (proj2 (term_ok b mu 0 0 e e')).
      * unfold quotient, real. cbn. f_equal; [|unfold Rdiv; ring]. field. lra.
      * intros [X _]. cbn in X. lra.
    + destruct (Rlt_dec e e') as [L|L].
      * pose proof (occupation_e b mu e e' Hb L). unfold Rdiv.
        assert (/ (e - e') < 0) by (apply Rinv_lt_0_compat; lra). nra.
      * assert (L' : e' < e) by lra. pose proof (occupation_e b mu e' e Hb L'). unfold Rdiv.
        assert (0 < / (e - e')) by (apply Rinv_0_lt_compat; lra). nra.
Qed.
Lemma static_response n b mu q : (1 <= n)%nat -> 0 < b -> exists x,
  density_response (Beta b) mu q 0 0 n Dim2 = Ok (re x) /\ x < 0.
Proof.
  intros Hn Hb. rewrite response2_eq by assumption.
  exists (mean (fun p => fst (term b mu 0 0 (level_of Square n p) (shifted_level Square n q p))) (modes Square n)). split.
  - change re with real. f_equal. rewrite <- c_mean_real. apply c_mean_ext. intros p _.
    destruct (static_term b mu (level_of Square n p) (shifted_level Square n q p) Hb) as (x & -> & _). reflexivity.
  - assert (0 < mean (fun p => 0 - fst (term b mu 0 0 (level_of Square n p) (shifted_level Square n q p))) (modes Square n)).
    { apply mean_pos; [assumption|]. intros p _.
      destruct (static_term b mu (level_of Square n p) (shifted_level Square n q p) Hb) as (x & -> & Hx). cbn. lra. }
    rewrite mean_sub in H. unfold mean at 1 in H. rewrite total_zero in H by reflexivity. unfold Rdiv in H. lra.
Qed.
Lemma compressibility_sum_rule s n b mu : good_size s n -> 0 <= b -> exists k,
  fg_compressibility (Beta b) mu n (dim_of s) = Ok k /\
  density_response (Beta b) mu (0, 0) 0 0 n (dim_of s) = Ok (re (- k)).
Proof.
  intros H Hb. eexists. split; [apply compressibility_eq; assumption|]. pose proof (proj1 H) as Hn.
  assert (G : forall f : nat * nat -> R, (forall p, f p = level_of s n p) ->
    c_mean (fun p => term b mu 0 0 (level_of s n p) (f p)) (modes s n) =
    re (- mean (fun p => slope b mu (level_of s n p)) (modes s n))).
  { intros f Hf. rewrite (c_mean_ext _ (fun p => real (-1 * slope b mu (level_of s n p)))).
    - rewrite c_mean_real. change re with real. f_equal. unfold mean. rewrite total_scale. unfold Rdiv. ring.
    - intros p _. rewrite Hf. rewrite (proj1 (term_ok b mu 0 0 _ _)) by (split; cbn; ring). change re with real.
      unfold slope. f_equal. ring. }
  destruct s; cbn [dim_of].
  - rewrite response1_eq by lia. f_equal. apply (G (level_of Chain n)). reflexivity.
  - rewrite response2_eq by lia. f_equal. apply G. intros p. apply shifted_0.
Qed.
