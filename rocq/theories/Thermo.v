(** Temperature and fields: derivatives of thermal averages, proofs. *)
From Coq Require Import List Arith Lia Reals Lra Bool.
From Verif Require Import Scalars Res Sums Matrix ModelBase ModelGeometry ModelPhase ModelSymmetry SymBase SpecMat ModelThermal SpecThermal ThermalBase ThermalFacts ThermalBasis.
From Verif Require FermiGas FermiModes SymAverage Spectral.
Import ListNotations.
Local Open Scope R_scope.

(** ** Averages with weights exp (a + s b) *)
Section Core.
  Variable l : list nat.
  Variables a b : nat -> R.
  Hypothesis ne : l <> [].
  Definition wt (s : R) (k : nat) : R := exp (a k + s * b k).
  Definition ave (v : nat -> R) (s : R) : R := total (fun k => wt s k * v k) l / total (wt s) l.
  Lemma wt_pos s : 0 < total (wt s) l.
  Proof using ne. apply total_pos; [intros; left; apply exp_pos|]. destruct l as [|x t]; [congruence|]. exists x. split; [left; reflexivity | apply exp_pos]. Qed.
  Lemma wt_deriv s k : derivable_pt_lim (fun s => wt s k) s (wt s k * b k).
  Proof using.
    unfold wt. apply (derivable_pt_lim_comp (fun s => a k + s * b k) exp); [|apply derivable_pt_lim_exp].
    assert (D : derivable_pt_lim (fun s => a k + s * b k) s (0 + (1 * b k + s * 0))).
    { apply (derivable_pt_lim_plus (fun _ => a k) (fun s => s * b k)); [apply derivable_pt_lim_const|].
      apply (derivable_pt_lim_mult (fun s => s) (fun _ => b k)); [apply derivable_pt_lim_id | apply derivable_pt_lim_const]. }
    replace (0 + (1 * b k + s * 0)) with (b k) in D by ring. exact D.
  Qed.
  Lemma ave_deriv v s : derivable_pt_lim (ave v) s (ave (fun k => b k * v k) s - ave b s * ave v s).
  Proof using ne.
    pose proof (wt_pos s) as P.
    assert (D1 : derivable_pt_lim (fun s => total (fun k => wt s k * v k) l) s (total (fun k => wt s k * (b k * v k)) l)).
    { apply (FermiGas.total_deriv (fun k s => wt s k * v k)). intros k _. replace (wt s k * (b k * v k)) with (wt s k * b k * v k + wt s k * 0) by ring.
      apply (derivable_pt_lim_mult (fun s => wt s k) (fun _ => v k)); [apply wt_deriv | apply derivable_pt_lim_const]. }
    assert (D2 : derivable_pt_lim (fun s => total (wt s) l) s (total (fun k => wt s k * b k) l)).
    { apply (FermiGas.total_deriv (fun k s => wt s k)). intros k _. apply wt_deriv. }
    pose proof (derivable_pt_lim_div _ _ s _ _ D1 D2 ltac:(lra)) as D.
    match type of D with derivable_pt_lim ?f _ ?d => replace (ave (fun k => b k * v k) s - ave b s * ave v s) with d end; [exact D|].
    unfold ave, Rsqr. field. lra.
  Qed.
  Lemma ave_var v s : 0 <= ave (fun k => v k * v k) s - ave v s * ave v s.
  Proof using ne.
    pose proof (wt_pos s) as P. set (x := ave v s).
    assert (Q : ave (fun k => v k * v k) s - x * x = total (fun k => wt s k * ((v k - x) * (v k - x))) l / total (wt s) l).
    { rewrite (total_ext _ (fun k => wt s k * (v k * v k) + ((-2 * x) * (wt s k * v k) + (x * x) * wt s k))) by (intros; ring).
      rewrite !total_add, !total_scale. assert (XV : total (fun k => wt s k * v k) l = x * total (wt s) l) by (unfold x, ave; field; lra). rewrite XV. unfold ave. field. lra. }
    rewrite Q. apply Rmult_le_pos; [|left; apply Rinv_0_lt_compat; exact P]. apply total_ge0. intros k _. apply Rmult_le_pos; [left; apply exp_pos|]. apply Rle_0_sqr.
  Qed.
  Lemma ave_scale c v s : ave (fun k => c * v k) s = c * ave v s.
  Proof using. unfold ave. rewrite (total_ext _ (fun k => c * (wt s k * v k))) by (intros; ring). rewrite total_scale. unfold Rdiv. ring. Qed.
  Lemma ave_ext v w s : (forall k, In k l -> v k = w k) -> ave v s = ave w s.
  Proof using. intros X. unfold ave. f_equal. apply total_ext. intros k Hk. rewrite (X k Hk). reflexivity. Qed.
End Core.

Lemma nth_one {A} (l : list A) k : (k < length l)%nat -> nth k (map (fun _ => 1) l) 0 = 1.
Proof. revert k. induction l as [|a l IH]; cbn; intros k Hk; [lia|]. destruct k; [reflexivity | apply IH; lia]. Qed.

Section Temperature.
  Variables (H V : mat CR) (E : list R).
  Hypothesis basis : eigenbasis H V E.
  Hypothesis rows : nrow V <> 0%nat.
  Notation n := (nrow V).
  Notation l := (seq 0 (length E)).
  Notation en k := (nth k E 0).
  Notation ev O k := (expect n O (col V k)).
  Notation av O := (ave l (fun _ => 0) (fun k => - en k) (fun k => ev O k)).
  Notation sized O := (nrow O = n /\ ncol O = n).

  Lemma E_some : E <> [].
  Proof using basis rows.
    destruct basis as ((L & _) & _ & C). intros Z. subst E. cbn in L. specialize (C (fun i => kb (i =? 0)%nat) 0%nat ltac:(lia)). rewrite L in C. cbn in C. discriminate (f_equal fst C) || (apply (f_equal fst) in C; cbn in C; lra).
  Qed.
  Lemma l_some : l <> [].
  Proof using basis rows. pose proof E_some. destruct E; [congruence | discriminate]. Qed.
  Lemma avg_val O T : sized O -> T <> 0 -> exp_vals_thermal V O E T = Ok (av O (/ T)).
  Proof using basis rows.
    intros (S1 & S2) T0. rewrite thermal_finite; [|split; [exact S1|]; split; [exact S2|]; split; [apply basis | exact E_some] | exact T0]. f_equal.
    unfold boltzmann, levels, ave. rewrite !total_map. unfold wt, energy, value. cbn [fst snd].
    f_equal; apply total_ext; intros k _; replace (0 + / T * - en k) with (- en k / T) by (unfold Rdiv; ring); reflexivity.
  Qed.
  Lemma H_herm : hermitian n H. Proof using basis. apply (SymAverage.eigenbasis_hermitian H V E basis). Qed.
  Lemma ev_mul K O (d : nat -> R) k : hermitian n K -> sized K -> (k < length E)%nat -> (forall i, (i < n)%nat -> apply n K (col V k) i = real (d k) *c col V k i) -> ev (mmul K O) k = d k * ev O k.
  Proof using.
    clear basis. intros KH (S1 & S2) Hk EK. unfold expect.
    assert (L : inner n (col V k) (apply n (mmul K O) (col V k)) = inner n (col V k) (apply n K (apply n O (col V k)))).
    { apply inner_ext; [reflexivity|]. intros i Hi. unfold apply. cbn [mmul ent]. rewrite S2.
      rewrite (ksum_ext n _ (fun j => ksum n (fun c => ent K i c *c (ent O c j *c col V k j)))) by (intros j Hj; rewrite <- ksum_mul_r; apply ksum_ext; intros c Hc; ring).
      rewrite ksum_swap. apply ksum_ext. intros c Hc. rewrite ksum_mul_l. reflexivity. }
    rewrite L, inner_apply_herm by exact KH.
    rewrite (inner_ext n _ (fun i => real (d k) *c col V k i) _ (apply n O (col V k))) by (try reflexivity; exact EK).
    rewrite Spectral.inner_scale_l. replace (conj (real (d k))) with (real (d k)) by (apply injective_projections; cbn; ring). cbn. ring.
  Qed.
  Lemma ev_H O k : sized O -> (k < length E)%nat -> ev (mmul H O) k = en k * ev O k.
  Proof using basis.
    intros SO Hk. destruct basis as ((L & S1 & S2 & EV) & _). apply (ev_mul H O (fun k => en k)); [apply H_herm | split; assumption | exact Hk|].
    intros i Hi. apply EV; [exact Hi | congruence].
  Qed.
  Lemma ev_H1 k : (k < length E)%nat -> ev H k = en k.
  Proof using basis.
    intros Hk. destruct basis as ((L & S1 & S2 & EV) & ON & _). unfold expect. rewrite (inner_ext n _ (col V k) _ (fun i => real (en k) *c col V k i)); [|reflexivity|intros i Hi; apply EV; [exact Hi | congruence]].
    rewrite inner_scale, (ON k k) by congruence. rewrite Nat.eqb_refl. cbn. ring.
  Qed.
  Lemma sized_H : sized H. Proof using basis. destruct basis as ((_ & S1 & S2 & _) & _). split; assumption. Qed.
  Lemma sized_mul A B : sized A -> sized B -> sized (mmul A B). Proof using. intros (A1 & A2) (B1 & B2). split; assumption. Qed.

  Theorem thermal_slope O : sized O -> exists F, (forall T, T <> 0 -> exp_vals_thermal V O E T = Ok (F T)) /\
    forall T x y z, T <> 0 -> exp_vals_thermal V H E T = Ok x -> exp_vals_thermal V O E T = Ok y -> exp_vals_thermal V (mmul H O) E T = Ok z ->
      derivable_pt_lim F T ((z - x * y) / T ^ 2).
  Proof using basis rows.
    intros SO. exists (fun T => av O (/ T)). split; [intros T T0; apply avg_val; assumption|].
    intros T x y z T0 EX EY EZ. rewrite avg_val in EX, EY, EZ by (assumption || apply sized_H || apply sized_mul; assumption || apply sized_H).
    injection EX as <-. injection EY as <-. injection EZ as <-.
    pose proof (ave_deriv l (fun _ => 0) (fun k => - en k) l_some (fun k => ev O k) (/ T)) as D.
    assert (I : derivable_pt_lim (fun T => / T) T (- / T ^ 2)).
    { pose proof (derivable_pt_lim_div (fun _ => 1) (fun T => T) T 0 1 (derivable_pt_lim_const 1 T) (derivable_pt_lim_id T) T0) as X.
      replace (- / T ^ 2) with ((0 * T - 1 * 1) / Rsqr T) by (unfold Rsqr; field; exact T0).
      apply (derive_ext (fun T => 1 / T)); [intros; unfold Rdiv; ring | exact X]. }
    pose proof (derivable_pt_lim_comp (fun T => / T) (av O) T _ _ I D) as C.
    match type of C with derivable_pt_lim _ _ ?d => replace ((_ - _) / T ^ 2) with d end; [exact C|].
    rewrite (ave_ext l _ _ (fun k => - en k * ev O k) (fun k => -1 * ev (mmul H O) k)) by (intros k Hk; apply in_seq in Hk; rewrite ev_H by (assumption || lia); ring).
    rewrite (ave_ext l _ _ (fun k => - en k) (fun k => -1 * ev H k)) by (intros k Hk; apply in_seq in Hk; rewrite ev_H1 by lia; ring).
    rewrite !ave_scale. field. exact T0.
  Qed.
  Theorem energy_rises T1 T2 x1 x2 : 0 < T1 <= T2 -> exp_vals_thermal V H E T1 = Ok x1 -> exp_vals_thermal V H E T2 = Ok x2 -> x1 <= x2.
  Proof using basis rows.
    intros HT E1 E2. rewrite avg_val in E1, E2 by (apply sized_H || lra). injection E1 as <-. injection E2 as <-.
    destruct (Req_EM_T T1 T2) as [->|Ne]; [apply Rle_refl|].
    set (F := av H). set (F' := fun s => ave l (fun _ => 0) (fun k => - en k) (fun k => - en k * ev H k) s - ave l (fun _ => 0) (fun k => - en k) (fun k => - en k) s * F s).
    assert (LT : / T2 < / T1) by (apply Rinv_lt_contravar; [apply Rmult_lt_0_compat; lra | lra]).
    destruct (MVT_cor2 F F' (/ T2) (/ T1) LT) as (c & EQ & _); [intros c _; apply ave_deriv, l_some|].
    assert (NEG : F' c <= 0).
    { unfold F'. pose proof (ave_var l (fun _ => 0) (fun k => - en k) l_some (fun k => en k) c) as VR.
      rewrite (ave_ext l _ _ (fun k => - en k * ev H k) (fun k => -1 * (en k * en k))) by (intros k Hk; apply in_seq in Hk; rewrite ev_H1 by lia; ring).
      rewrite (ave_ext l _ _ (fun k => - en k) (fun k => -1 * en k)) by (intros; ring). unfold F.
      rewrite (ave_ext l _ _ (fun k => ev H k) (fun k => en k)) by (intros k Hk; apply in_seq in Hk; apply ev_H1; lia). rewrite !ave_scale. lra. }
    assert (0 <= / T1 - / T2) by lra. unfold F in *. nra.
  Qed.
  Lemma trace_sum O : sized O -> total (fun k => ev O k) l = total (fun i => fst (ent O i i)) (seq 0 n).
  Proof using basis.
    clear rows. intros (S1 & S2). destruct basis as ((L & _) & ON & CM).
    assert (B1 : eigenbasis (meye n) V (map (fun _ => 1) l)).
    { split; [|split; assumption]. split; [rewrite map_length, seq_length; exact L|]. split; [reflexivity|]. split; [reflexivity|]. intros i k Hi Hk. unfold apply. cbn [meye ent].
      rewrite (ksum_single n i) by (try exact Hi; intros j Hj Nj; rewrite (proj2 (Nat.eqb_neq i j)) by congruence; cbn [kb]; change k0 with c0; ring).
      rewrite Nat.eqb_refl. cbn [kb]. rewrite nth_one by (rewrite seq_length; congruence). apply injective_projections; cbn; unfold col; ring. }
    assert (B2 : eigenbasis (meye n) (meye n) (map (fun _ => 1) (seq 0 n))).
    { assert (AP : forall psi i, (i < n)%nat -> ksum n (fun j => ent (meye n) i j *c psi j) = psi i).
      { intros psi i Hi. cbn [meye ent]. rewrite (ksum_single n i) by (try exact Hi; intros j Hj Nj; rewrite (proj2 (Nat.eqb_neq i j)) by congruence; cbn [kb]; change k0 with c0; ring). rewrite Nat.eqb_refl. cbn [kb]. change k1 with c1. ring. }
      assert (IN : forall psi k, (k < n)%nat -> inner n (col (meye n) k) psi = psi k).
      { intros psi k Hk. unfold inner, col. cbn [meye ent]. rewrite (ksum_single n k) by (try exact Hk; intros j Hj Nj; rewrite (proj2 (Nat.eqb_neq j k)) by congruence; cbn [kb]; rewrite kconj_0; change k0 with c0; ring).
        rewrite Nat.eqb_refl. cbn [kb]. rewrite kconj_1. change k1 with c1. ring. }
      split; [|split].
      - split; [rewrite map_length, seq_length; reflexivity|]. split; [reflexivity|]. split; [reflexivity|]. cbn [meye nrow ncol]. intros i k Hi Hk. unfold apply.
        change (ksum n (fun j => ent (meye n) i j *c col (meye n) k j) = @kmul CR _ (nth k (map (fun _ => 1) (seq 0 n)) 0, 0) (ent (meye n) i k)). rewrite AP by exact Hi.
        rewrite nth_one by (rewrite seq_length; exact Hk). unfold col. generalize (ent (meye (K:=CR) n) i k). intros z. apply injective_projections; cbn; ring.
      - intros k m Hk Hm. cbn [meye nrow ncol] in *. change (inner n (col (meye n) k) (col (meye n) m) = kb (k =? m)%nat). rewrite IN by exact Hk. reflexivity.
      - intros psi i Hi. cbn [meye nrow ncol] in *. change (psi i = ksum n (fun k => ent (meye n) i k *c inner n (col (meye n) k) psi)).
        rewrite (ksum_ext n _ (fun k => ent (meye n) i k *c psi k)) by (intros k Hk; rewrite IN by exact Hk; reflexivity). rewrite AP by exact Hi. reflexivity. }
    assert (HI : hermitian n (meye n)). { intros i j Hi Hj. cbn [meye ent]. rewrite Nat.eqb_sym. destruct (j =? i)%nat; cbn [kb]; symmetry; [apply kconj_1 | apply kconj_0]. }
    pose proof (trace_indep (meye n) V (meye n) O (map (fun _ => 1) l) (map (fun _ => 1) (seq 0 n)) HI B1 B2 eq_refl (fun _ => 1)) as X.
    cbn [meye ncol] in X. rewrite L in X.
    rewrite (total_ext _ (fun k => 1 * ev O k)) by (intros; ring). rewrite X. apply total_ext. intros i Hi. apply in_seq in Hi. rewrite Rmult_1_l. unfold expect, inner, apply, col. cbn [meye ent].
    rewrite (ksum_single n i); [|lia|].
    - rewrite Nat.eqb_refl. cbn [kb]. rewrite kconj_1. rewrite (ksum_single n i); [rewrite Nat.eqb_refl; cbn [kb]; change k1 with c1; f_equal; ring | lia|].
      intros j Hj Nj. rewrite (proj2 (Nat.eqb_neq j i)) by congruence. cbn [kb]. change k0 with c0. ring.
    - intros j Hj Nj. rewrite (proj2 (Nat.eqb_neq j i)) by congruence. cbn [kb]. rewrite kconj_0. change k0 with c0. ring.
  Qed.
  Theorem hot_limit O : sized O -> forall eps, 0 < eps -> exists T0, 0 < T0 /\ forall T x, T0 < T -> exp_vals_thermal V O E T = Ok x ->
    Rabs (x - total (fun i => fst (ent O i i)) (seq 0 n) / INR n) < eps.
  Proof using basis rows.
    intros SO eps He.
    assert (LN : INR (length E) = INR n).
    { pose proof (trace_sum (meye n) ltac:(split; reflexivity)) as X.
      rewrite (total_ext _ (fun _ => 1)) in X.
      2:{ intros k Hk. apply in_seq in Hk. destruct basis as ((L & _) & ON & _). unfold expect. rewrite (inner_ext n _ (col V k) _ (col V k)); [rewrite (ON k k) by lia; rewrite Nat.eqb_refl; reflexivity | reflexivity|].
          intros i Hi. unfold apply. cbn [meye ent]. rewrite (ksum_single n i) by (try exact Hi; intros j Hj Nj; rewrite (proj2 (Nat.eqb_neq i j)) by congruence; cbn [kb]; change k0 with c0; ring). rewrite Nat.eqb_refl. cbn [kb]. change k1 with c1. ring. }
      assert (Y : total (fun i => fst (ent (@meye CR _ n) i i)) (seq 0 n) = total (fun _ => 1) (seq 0 n)) by (apply total_ext; intros i _; cbn [meye ent]; rewrite Nat.eqb_refl; reflexivity).
      rewrite Y in X.
      rewrite !FermiModes.total_const, !seq_length in X. lra. }
    assert (A0 : av O 0 = total (fun i => fst (ent O i i)) (seq 0 n) / INR n).
    { unfold ave. rewrite <- (trace_sum O SO), <- LN. f_equal.
      - apply total_ext. intros k _. unfold wt. replace (0 + 0 * - en k) with 0 by ring. rewrite exp_0. ring.
      - rewrite (total_ext _ (fun _ => 1)) by (intros k _; unfold wt; replace (0 + 0 * - en k) with 0 by ring; apply exp_0). rewrite FermiModes.total_const, seq_length. ring. }
    assert (CT : continuity_pt (av O) 0). { apply derivable_continuous_pt. eexists. apply ave_deriv, l_some. }
    destruct (CT eps He) as (d & Pd & Hd). exists (/ d). split; [apply Rinv_0_lt_compat; exact Pd|].
    intros T x HT EX. assert (TP : 0 < T) by (pose proof (Rinv_0_lt_compat d Pd); lra).
    rewrite avg_val in EX by (assumption || lra). injection EX as <-. rewrite <- A0.
    apply (Hd (/ T)). split; [split; [exact Logic.I | apply Rlt_not_eq, Rinv_0_lt_compat; exact TP]|].
    cbn. unfold R_dist. rewrite Rminus_0_r, Rabs_right by (left; apply Rinv_0_lt_compat; exact TP).
    rewrite <- (Rinv_inv d). apply Rinv_lt_contravar; [apply Rmult_lt_0_compat; [apply Rinv_0_lt_compat; exact Pd | exact TP] | exact HT].
  Qed.
End Temperature.
