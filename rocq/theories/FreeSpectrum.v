(** Partition function and spectrum of fermions without interactions: proofs. *)
From Coq Require Import List Arith Lia Reals Lra Bool Permutation.
From Verif Require Import Scalars Res Matrix Sums SqMat CarAlgebra ModelBase ModelFermions SpecFock SpecHubbard OpsProofs
  FockProofs FermiOps SwapProofs HamProofs HamSym
  ModelGeometry ModelPhase ModelSymmetry SymBase ModelThermal SpecThermal ThermalBase ThermalBasis ThermalSectors FreeKms SpecFermiGas SpecFree FreeFermi FreeWick FreeThermal.
Import ListNotations.
Local Open Scope R_scope.
Arguments Nat.pow : simpl never.

(** ** Two lists with the same exponential sums *)
Lemma total_ext {A} (g h : A -> R) l : (forall x, In x l -> g x = h x) -> total g l = total h l.
Proof.
  induction l as [|x l IH]; intros Hg; [reflexivity|]. rewrite !total_cons, (Hg x) by (left; reflexivity). rewrite IH; [reflexivity|].
  intros y Hy. apply Hg. right. exact Hy.
Qed.
Lemma total_scale {A} (g : A -> R) c l : total (fun x => c * g x) l = c * total g l.
Proof. induction l as [|x l IH]; [cbn; ring|]. rewrite !total_cons, IH. ring. Qed.
Lemma total_sum {A} (g h : A -> R) l : total (fun x => g x + h x) l = total g l + total h l.
Proof. induction l as [|x l IH]; [cbn; ring|]. rewrite !total_cons, IH. ring. Qed.
Lemma total_map {A B} (g : B -> R) (h : A -> B) l : total g (map h l) = total (fun x => g (h x)) l.
Proof. induction l as [|x l IH]; [reflexivity|]. cbn [map]. rewrite !total_cons, IH. reflexivity. Qed.
Lemma total_flat {A B} (g : B -> R) (h : A -> list B) l : total g (flat_map h l) = total (fun x => total g (h x)) l.
Proof. induction l as [|x l IH]; [reflexivity|]. cbn [flat_map]. rewrite total_app, total_cons, IH. reflexivity. Qed.

Definition roots (ys : list R) (x : R) : R := fold_right (fun y p => (x - y) * p) 1 ys.
Lemma roots_0 ys x : In x ys -> roots ys x = 0.
Proof. induction ys as [|y ys IH]; intros []; cbn [roots fold_right]; [subst; ring|]. fold (roots ys x). rewrite IH by assumption. ring. Qed.
Lemma roots_ne ys x : ~ In x ys -> roots ys x <> 0.
Proof.
  induction ys as [|y ys IH]; intros Hn; cbn [roots fold_right]; [lra|]. fold (roots ys x).
  apply Rmult_integral_contrapositive. split; [|apply IH; intros X; apply Hn; right; exact X].
  intros X. apply Hn. left. lra.
Qed.

Section Same.
  Variables l1 l2 : list R.
  Hypothesis same : forall n, total (fun x => x ^ n) l1 = total (fun x => x ^ n) l2.
  Lemma same_roots ys : forall n, total (fun x => roots ys x * x ^ n) l1 = total (fun x => roots ys x * x ^ n) l2.
  Proof.
    induction ys as [|y ys IH]; intros n.
    - cbn [roots fold_right].
      rewrite (total_ext _ (fun x => x ^ n) l1) by (intros; ring). rewrite (total_ext _ (fun x => x ^ n) l2) by (intros; ring). apply same.
    - assert (G : forall l, total (fun x => roots (y :: ys) x * x ^ n) l =
        total (fun x => roots ys x * x ^ S n) l + (- y) * total (fun x => roots ys x * x ^ n) l).
      { intros l. rewrite <- total_scale, <- total_sum. apply total_ext. intros x _. cbn [roots fold_right pow]. fold (roots ys x). ring. }
      rewrite !G, (IH (S n)), (IH n). reflexivity.
  Qed.
  Lemma total_count ys x0 l : (forall x, In x l -> In x ys \/ x = x0) -> ~ In x0 ys ->
    total (roots ys) l = INR (count_occ Req_EM_T l x0) * roots ys x0.
  Proof.
    clear same. induction l as [|x l IH]; intros Hl Hn; [cbn; ring|]. rewrite total_cons, IH; [|intros; apply Hl; right; assumption | exact Hn].
    cbn [count_occ]. destruct (Req_EM_T x x0) as [->|Ne]; [rewrite S_INR; ring|].
    rewrite roots_0; [ring|]. destruct (Hl x (or_introl eq_refl)); [assumption | congruence].
  Qed.
  Lemma same_perm : Permutation l1 l2.
  Proof.
    apply (Permutation_count_occ Req_EM_T). intros x0. apply INR_eq.
    set (ys := remove Req_EM_T x0 (l1 ++ l2)).
    assert (H0 : ~ In x0 ys) by apply remove_In.
    assert (HI : forall x, In x (l1 ++ l2) -> In x ys \/ x = x0).
    { intros x Hx. destruct (Req_EM_T x x0) as [->|Ne]; [right; reflexivity|]. left. apply in_in_remove; [congruence | exact Hx]. }
    pose proof (same_roots ys 0) as S0. cbn [pow] in S0.
    rewrite (total_ext _ (roots ys) l1) in S0 by (intros; ring). rewrite (total_ext _ (roots ys) l2) in S0 by (intros; ring).
    rewrite !(total_count ys x0) in S0; try exact H0; try (intros x Hx; apply HI, in_or_app; tauto).
    apply (Rmult_eq_reg_r (roots ys x0)); [exact S0 | apply roots_ne, H0].
  Qed.
End Same.

Lemma exp_pow x n : exp x ^ n = exp (INR n * x).
Proof.
  induction n as [|n IH]; [cbn; rewrite Rmult_0_l, exp_0; reflexivity|].
  cbn [pow]. rewrite IH, <- exp_plus, S_INR. f_equal. ring.
Qed.
Lemma exp_perm l1 l2 : (forall b, total (fun x => exp (- b * x)) l1 = total (fun x => exp (- b * x)) l2) -> Permutation l1 l2.
Proof.
  intros HS. assert (P : Permutation (map exp l1) (map exp l2)).
  { apply same_perm. intros n. rewrite !total_map. specialize (HS (- INR n)).
    rewrite (total_ext _ (fun x => exp (- - INR n * x)) l1), (total_ext _ (fun x => exp (- - INR n * x)) l2); [exact HS | |];
      intros x _; rewrite Ropp_involutive; apply exp_pow. }
  apply (Permutation_map ln) in P. rewrite !map_map in P.
  rewrite !(map_ext (fun x => ln (exp x)) (fun x => x) ln_exp), !map_id in P. exact P.
Qed.

(** ** Products and sums over sub-collections *)
Lemma subsets_total b l : total (fun x => exp (- b * x)) (subset_sums l) = fold_right (fun x p => (1 + exp (- b * x)) * p) 1 l.
Proof.
  induction l as [|x l IH]; [cbn; rewrite Rmult_0_r, exp_0; ring|].
  cbn [subset_sums fold_right]. fold (subset_sums l). rewrite total_app, total_map, <- IH.
  rewrite (total_ext (fun y => exp (- b * (x + y))) (fun y => exp (- b * x) * exp (- b * y)) (subset_sums l)) by (intros; cbn beta; rewrite <- exp_plus; f_equal; ring).
  rewrite total_scale. ring.
Qed.
Lemma subsets_length l : length (subset_sums l) = (2 ^ length l)%nat.
Proof. induction l as [|x l IH]; [reflexivity|]. cbn [subset_sums fold_right length]. fold (subset_sums l). rewrite app_length, map_length, IH, Nat.pow_succ_r'. lia. Qed.

Definition zsum (l : list R) (b : R) : R := total (fun x => exp (- b * x)) l.
Definition zsum' (l : list R) (b : R) : R := total (fun x => - x * exp (- b * x)) l.
Definition zprod (l : list R) (b : R) : R := fold_right (fun x p => (1 + exp (- b * x)) * p) 1 l.
Definition zlog (l : list R) (b : R) : R := total (fun x => - x * (exp (- b * x) / (1 + exp (- b * x)))) l.

Lemma exp_lim x b : derivable_pt_lim (fun b => exp (- b * x)) b (- x * exp (- b * x)).
Proof.
  replace (- x * exp (- b * x)) with (exp (- b * x) * (- x)) by ring.
  apply (derivable_pt_lim_comp (fun b => - b * x) exp).
  - replace (- x) with (- 1 * x + - b * 0) by ring.
    apply (derivable_pt_lim_mult (fun b => - b) (fun _ => x)); [apply (derivable_pt_lim_opp id), derivable_pt_lim_id | apply derivable_pt_lim_const].
  - apply derivable_pt_lim_exp.
Qed.
Lemma zsum_lim l b : derivable_pt_lim (zsum l) b (zsum' l b).
Proof.
  induction l as [|x l IH]; [apply derivable_pt_lim_const|].
  apply (derivable_pt_lim_plus (fun b => exp (- b * x)) (zsum l)); [apply exp_lim | exact IH].
Qed.
Lemma zprod_pos l b : 0 < zprod l b.
Proof.
  induction l as [|x l IH]; cbn [zprod fold_right]; [lra|]. fold (zprod l b). apply Rmult_lt_0_compat; [|exact IH].
  pose proof (exp_pos (- b * x)). lra.
Qed.
Lemma zprod_lim l b : derivable_pt_lim (zprod l) b (zprod l b * zlog l b).
Proof.
  induction l as [|x l IH].
  - cbn. rewrite Rmult_0_r. apply derivable_pt_lim_const.
  - pose proof (exp_pos (- b * x)).
    replace (zprod (x :: l) b * zlog (x :: l) b) with ((0 + - x * exp (- b * x)) * zprod l b + (1 + exp (- b * x)) * (zprod l b * zlog l b)).
    + apply (derivable_pt_lim_mult (fun b => 1 + exp (- b * x)) (zprod l)); [|exact IH].
      apply (derivable_pt_lim_plus (fun _ => 1) (fun b => exp (- b * x))); [apply derivable_pt_lim_const | apply exp_lim].
    + unfold zlog. rewrite total_cons. cbn [zprod fold_right]. fold (zprod l b). field. lra.
Qed.
Lemma constant_ratio (l s : list R) : (forall b, b <> 0 -> zsum' l b = zsum l b * zlog s b) ->
  forall b, zsum l b * zprod s 0 = zsum l 0 * zprod s b.
Proof.
  intros D b.
  set (F := fun b => zsum l b / zprod s b). set (F' := fun b => (zsum' l b * zprod s b - zprod s b * zlog s b * zsum l b) / Rsqr (zprod s b)).
  assert (FL : forall c, derivable_pt_lim F c (F' c)).
  { intros c. apply (derivable_pt_lim_div (zsum l) (zprod s)); [apply zsum_lim | apply zprod_lim|]. pose proof (zprod_pos s c). lra. }
  assert (F0 : forall c, c <> 0 -> F' c = 0).
  { intros c Hc. unfold F'. rewrite (D c Hc). pose proof (zprod_pos s c). unfold Rsqr. field. lra. }
  assert (FF : F b = F 0).
  { destruct (Rtotal_order b 0) as [Lt|[->|Gt]]; [|reflexivity|].
    - destruct (MVT_cor2 F F' b 0 Lt (fun c _ => FL c)) as (c & E & Hc). rewrite F0 in E by lra. lra.
    - destruct (MVT_cor2 F F' 0 b Gt (fun c _ => FL c)) as (c & E & Hc). rewrite F0 in E by lra. lra. }
  unfold F in FF. pose proof (zprod_pos s b). pose proof (zprod_pos s 0).
  apply (f_equal (fun x => x * zprod s b * zprod s 0)) in FF. field_simplify in FF; lra.
Qed.
Lemma zsum_0 l : zsum l 0 = INR (length l).
Proof.
  induction l as [|x l IH]; [reflexivity|]. unfold zsum. rewrite total_cons. fold (zsum l 0). rewrite IH. cbn [length].
  rewrite S_INR. replace (- 0 * x) with 0 by ring. rewrite exp_0. ring.
Qed.
Lemma zprod_0 l : zprod l 0 = INR (2 ^ length l).
Proof. rewrite <- subsets_length, <- zsum_0. unfold zprod, zsum. rewrite subsets_total. reflexivity. Qed.

(** ** The number of vectors of an orthonormal basis *)
Lemma ksum_ones n : ksum n (fun _ => c1) = real (INR n).
Proof.
  induction n as [|n IH]; [reflexivity|]. cbn [ksum]. rewrite IH, S_INR, real_add. reflexivity.
Qed.
Lemma basis_length H V E : eigenbasis H V E -> length E = nrow V.
Proof.
  intros ((L & _) & ON & CB). rewrite <- L. apply INR_eq, real_inj. rewrite <- !ksum_ones.
  transitivity (ksum (ncol V) (fun a => ksum (nrow V) (fun i => conj (ent V i a) *c ent V i a))).
  - apply ksum_ext. intros a Ha. symmetry. etransitivity; [exact (ON a a Ha Ha)|]. rewrite Nat.eqb_refl. reflexivity.
  - rewrite ksum_swap. apply ksum_ext. intros i Hi. pose proof (CB (fun j => kb (j =? i)%nat) i Hi) as X. cbn beta in X.
    rewrite Nat.eqb_refl in X. cbn [kb] in X. rewrite X. apply ksum_ext. intros a Ha. unfold inner, col.
    rewrite (ksum_ext (nrow V) (fun j => conj (ent V j a) *c kb (j =? i)%nat) (fun j => kb (j =? i)%nat *c conj (ent V j a))) by (intros; ring).
    rewrite (ksum_kb (nrow V) i (fun j => conj (ent V j a))) by exact Hi. ring.
Qed.

Section Spectrum.
  Variable f : fermions CR.
  Notation ns := (fg_nsites (f_geom f)).
  Notation m := (f_nspecies f).
  Notation N := (2 ^ nlog (f_sys f))%nat.
  Hypothesis free : non_interacting f.
  Variables (H V : mat CR) (E : list R).
  Hypothesis ham : createH f None = Ok H.
  Hypothesis basis : eigenbasis H V E.
  Variables (U : nat -> mat CR) (e : nat -> list R).
  Hypothesis modes : forall k, (k < m)%nat -> eigenbasis (particle_matrix f k) (U k) (e k).
  Notation L := (flat_map e (seq 0 m)).

  Lemma L_length : length L = nlog (f_sys f).
  Proof using modes.
    assert (G : forall s n, (s + n <= m)%nat -> length (flat_map e (seq s n)) = (ns * n)%nat).
    { intros s n. revert s. induction n as [|n IH]; intros s Hs; cbn [seq flat_map]; [cbn; lia|].
      rewrite app_length, IH by lia. rewrite (basis_length _ _ _ (modes s ltac:(lia))).
      assert (R := modes s ltac:(lia)). destruct R as ((_ & R & _) & _). change (nrow (particle_matrix f s)) with ns in R. lia. }
    rewrite G by lia. unfold nlog. cbn. reflexivity.
  Qed.
  Lemma slope b : b <> 0 -> zsum' E b = zsum E b * zlog L b.
  Proof using free ham basis modes.
    intros Hb. assert (T0 : / b <> 0) by (apply Rinv_neq_0_compat; exact Hb).
    pose proof (om_H f free H V E (/ b) ham basis T0 U e modes) as X.
    assert (ZE : Zp E (/ b) = zsum E b).
    { unfold Zp, wgt, zsum. rewrite <- (nth_total (fun x => exp (- b * x)) E). apply total_ext. intros a _. f_equal. field. exact Hb. }
    rewrite ZE, <- real_mul in X.
    assert (OH : omega N V E (/ b) (ent H) = real (- zsum' E b)).
    { unfold omega. rewrite (ksum_ext (length E) _ (fun a => real (nth a E 0 * exp (- b * nth a E 0)))).
      - rewrite (real_total (length E) (fun a => nth a E 0 * exp (- b * nth a E 0))). f_equal.
        rewrite (nth_total (fun x => x * exp (- b * x)) E). unfold zsum'.
        rewrite <- (Rmult_1_l (total (fun x => x * _) E)). replace 1 with (- - 1) by ring. rewrite Ropp_mult_distr_l_reverse, <- total_scale. f_equal.
        apply total_ext. intros; ring.
      - intros a Ha. rewrite (el_H N H V E (V_rows f free H V E ham basis) basis a a Ha Ha), Nat.eqb_refl. cbn [kb]. unfold wgt.
        replace (- nth a E 0 / / b) with (- b * nth a E 0) by (field; exact Hb). rewrite real_mul. ring. }
    rewrite OH in X. apply real_inj in X.
    assert (LL : total (fun k => total (fun x => x * fermi_weight (/ b) x) (e k)) (seq 0 m) = - zlog L b).
    { rewrite <- (total_flat (fun x => x * fermi_weight (/ b) x)). unfold zlog.
      rewrite <- (Rmult_1_l (total _ _)). replace 1 with (- - 1) at 1 by ring. rewrite Ropp_mult_distr_l_reverse, <- total_scale. f_equal.
      apply total_ext. intros x _. unfold fermi_weight, occupation. replace (- (1 / / b) * (x - 0)) with (- b * x) by (field; exact Hb). ring. }
    rewrite LL in X. lra.
  Qed.
  Lemma same_partition b : zsum E b = zprod L b.
  Proof using free ham basis modes.
    pose proof (constant_ratio E L slope b) as X.
    rewrite zprod_0, zsum_0, L_length, (basis_length _ _ _ basis), (V_rows f free H V E ham basis) in X.
    apply (Rmult_eq_reg_r (INR N)); [rewrite X; ring|]. apply not_0_INR. apply Nat.pow_nonzero. discriminate.
  Qed.
  Lemma partition_ok T : T <> 0 -> exists w, thermal_weights false E T = Ok (w, fermi_partition T L).
  Proof using free ham basis modes.
    intros HT. unfold thermal_weights. cbn [bind]. unfold is_zero. destruct (Req_EM_T T 0) as [|_]; [contradiction|].
    eexists. f_equal. f_equal. pose proof (same_partition (1 / T)) as X.
    transitivity (zsum E (1 / T)).
    - unfold zsum, lsum. clear. induction E as [|x l IH]; [reflexivity|]. cbn [map fold_right]. rewrite IH. reflexivity.
    - rewrite X. unfold zprod, fermi_partition. clear X. induction L as [|x l IH]; [reflexivity|]. cbn [fold_right]. rewrite IH.
      replace (- (1 / T) * x) with (- x / T) by (field; exact HT). reflexivity.
  Qed.
  Lemma spectrum_ok : Permutation E (subset_sums L).
  Proof using free ham basis modes.
    apply exp_perm. intros b. rewrite subsets_total. apply same_partition.
  Qed.
End Spectrum.
