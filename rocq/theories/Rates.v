(** Rates of change after a quench. *)
From Coq Require Import List Arith Lia Reals Lra Bool Permutation.
From Verif Require Import Scalars Res Sums Matrix SpecMat ModelGeometry ModelPhase ModelSymmetry SymBase ModelBase ModelThermal
  SpecThermal ThermalBase ThermalFacts ThermalBasis ThermalResponse SpecPrecess Precess SpecLongtime Longtime SpecEcho Echo SpecRates.
From Verif Require SymAverage FermiGas FermiBase.
Import ListNotations.
Local Open Scope R_scope.

Section Rates.
  Variables (H V O : mat CR) (E : list R) (psi : nat -> CR).
  Hypothesis basis : eigenbasis H V E.
  Notation n := (nrow V).
  Notation L := (length E).
  Notation en k := (nth k E 0).
  Lemma rate_apply phi i : apply n (rate_op H O) phi i = (0, 1) *c (apply n H (apply n O phi) i -c apply n O (apply n H phi) i).
  Proof using basis.
    assert (HN : nrow H = n) by apply basis. assert (HC : ncol H = n) by apply basis.
    assert (X : forall A B : mat CR, apply n A (apply n B phi) i = ksum n (fun j => ksum n (fun k => ent A i k *c ent B k j) *c phi j)).
    { intros A B. unfold apply. rewrite (ksum_ext n _ (fun k => ksum n (fun j => ent A i k *c (ent B k j *c phi j)))) by (intros k _; rewrite ksum_mul_l; reflexivity). rewrite ksum_swap. apply ksum_ext. intros j _. rewrite <- ksum_mul_r. apply ksum_ext. intros k _. ring. }
    rewrite !X. unfold apply, rate_op. cbn [ent]. rewrite HN. 
    assert (SB : forall m (f g : nat -> CR), ksum m (fun k => f k -c g k) = ksum m f -c ksum m g) by (induction m as [|m IH]; intros f g; cbn [ksum]; [ring|]; rewrite IH; ring).
    rewrite <- SB, <- ksum_mul_l. apply ksum_ext. intros j _. rewrite SB. ring.
  Qed.
  Lemma elem_rate k l : (k < L)%nat -> (l < L)%nat -> elem V (rate_op H O) n k l = ((0, 1) *c real (en k - en l)) *c elem V O n k l.
  Proof using basis.
    intros Hk Hl. assert (NV : ncol V = L) by apply basis. unfold elem.
    rewrite (inner_ext n (col V k) (col V k) (apply n (rate_op H O) (col V l)) (fun i => (0, 1) *c (apply n H (apply n O (col V l)) i +c real (- en l) *c apply n O (col V l) i))).
    - rewrite inner_scale. replace (inner n (col V k) (fun i => apply n H (apply n O (col V l)) i +c real (- en l) *c apply n O (col V l) i)) with (inner n (col V k) (apply n H (apply n O (col V l))) +c inner n (col V k) (fun i => real (- en l) *c apply n O (col V l) i)) by (unfold inner; rewrite <- ksum_add; apply ksum_ext; intros; ring).
      rewrite inner_scale, (eig_apply H V E basis k) by exact Hk. generalize (inner n (col V k) (apply n O (col V l))). intros (a, b). apply injective_projections; cbn; ring.
    - reflexivity.
    - intros i Hi. rewrite rate_apply. f_equal. rewrite (apply_ext n O (apply n H (col V l)) (fun j => real (en l) *c col V l j)) by (intros j Hj; apply basis; [exact Hj | rewrite NV; exact Hl]).
      replace (apply n O (fun j => real (en l) *c col V l j) i) with (real (en l) *c apply n O (col V l) i) by (unfold apply; rewrite <- ksum_mul_l; apply ksum_ext; intros; ring). replace (real (- en l)) with (c0 -c real (en l)) by (apply injective_projections; cbn; ring). ring.
  Qed.
  Lemma zz_rate k l : (k < L)%nat -> (l < L)%nat -> zz V (rate_op H O) psi k l = ((0, 1) *c real (en k - en l)) *c zz V O psi k l.
  Proof using basis. intros Hk Hl. unfold zz. rewrite elem_rate by assumption. ring. Qed.
  Theorem motion t : derivable_pt_lim (fun t => expect n O (evolve V E psi t)) t (expect n (rate_op H O) (evolve V E psi t)).
  Proof using basis.
    rewrite (expect_at H V (rate_op H O) E psi basis). apply (FermiBase.deriv_ext (fun t => total (fun k => total (fun l => fst (cexp (t * (en k - en l)) *c zz V O psi k l)) (seq 0 L)) (seq 0 L))); [intros y; symmetry; apply (expect_at H V O E psi basis)|].
    apply FermiGas.total_deriv. intros k Hk. apply FermiGas.total_deriv. intros l Hl. apply in_seq in Hk, Hl. rewrite zz_rate by lia. generalize (en k - en l), (zz V O psi k l). intros d (a, b).
    replace (fst (cexp (t * d) *c ((0, 1) *c real d *c (a, b)))) with (- sin (t * d) * (1 * d + t * 0) * a - cos (t * d) * (1 * d + t * 0) * b) by (cbn; ring).
    apply (FermiBase.deriv_ext (fun t => cos (t * d) * a - sin (t * d) * b)); [intros y; cbn; ring|].
    assert (T : derivable_pt_lim (fun y => y * d) t (1 * d + t * 0)) by (apply (derivable_pt_lim_mult id (fct_cte d)); [apply derivable_pt_lim_id | apply derivable_pt_lim_const]).
    apply (derivable_pt_lim_minus (fun y => cos (y * d) * a) (fun y => sin (y * d) * b)).
    - replace (- sin (t * d) * (1 * d + t * 0) * a) with (- sin (t * d) * (1 * d + t * 0) * a + cos (t * d) * 0) by ring. apply (derivable_pt_lim_mult (fun y => cos (y * d)) (fct_cte a)); [apply (derivable_pt_lim_comp (fun y => y * d) cos _ _ _ T), derivable_pt_lim_cos | apply derivable_pt_lim_const].
    - replace (cos (t * d) * (1 * d + t * 0) * b) with (cos (t * d) * (1 * d + t * 0) * b + sin (t * d) * 0) by ring. apply (derivable_pt_lim_mult (fun y => sin (y * d)) (fct_cte b)); [apply (derivable_pt_lim_comp (fun y => y * d) sin _ _ _ T), derivable_pt_lim_sin | apply derivable_pt_lim_const].
  Qed.
  Lemma commuting_elem k l : commute_on n H O -> (k < L)%nat -> (l < L)%nat -> en k = en l \/ elem V O n k l = c0.
  Proof using basis.
    intros C Hk Hl. destruct (Req_EM_T (en k) (en l)) as [Q|Q]; [left; exact Q | right]. pose proof (elem_rate k l Hk Hl) as X.
    assert (Z : elem V (rate_op H O) n k l = c0).
    { unfold elem, inner. apply (@ksum_zero CR). intros i Hi. replace (apply n (rate_op H O) (col V l) i) with c0; [ring|]. symmetry. unfold apply. apply (@ksum_zero CR). intros j Hj. cbn [rate_op ent]. replace (nrow H) with n by (symmetry; apply basis).
      assert (SB : forall m (f g : nat -> CR), ksum m (fun k => f k -c g k) = ksum m f -c ksum m g) by (induction m as [|m IH]; intros f g; cbn [ksum]; [ring|]; rewrite IH; ring).
      rewrite SB, (C i j Hi Hj). ring. }
    rewrite Z in X. revert X. generalize (elem V O n k l). intros (a, b) X. assert (D : en k - en l <> 0) by lra. injection X as X1 X2. cbn in X1, X2. apply injective_projections; cbn; nra.
  Qed.
  Theorem conserved t : commute_on n H O -> expect n O (evolve V E psi t) = expect n O psi.
  Proof using basis.
    intros C. transitivity (expect n O (evolve V E psi 0)).
    - rewrite !(expect_at H V O E psi basis). apply total_ext. intros k Hk. apply total_ext. intros l Hl. apply in_seq in Hk, Hl. f_equal. destruct (commuting_elem k l C ltac:(lia) ltac:(lia)) as [Q|Q].
      + rewrite Q. replace (t * (en l - en l)) with (0 * (en l - en l)) by ring. reflexivity.
      + unfold zz. rewrite Q. ring.
    - apply expect_ext. intros i Hi. rewrite evolve_expand. assert (CB : complete_basis V) by apply basis. rewrite (CB psi i Hi). apply ksum_ext. intros k _. replace (- (0 * en k)) with 0 by ring. rewrite cexp_0. change (col V k i) with (ent V i k). ring.
  Qed.
  Theorem stays e t i : stationary n H psi e -> (i < n)%nat -> evolve V E psi t i = cexp (- (t * e)) *c psi i.
  Proof using basis.
    intros ST Hi. assert (CB : complete_basis V) by apply basis. assert (NV : ncol V = L) by apply basis. rewrite evolve_expand. rewrite (CB psi i Hi), <- ksum_mul_l. apply ksum_ext. intros k Hk. change (col V k i) with (ent V i k). rewrite NV in Hk.
    pose proof (eig_apply H V E basis k psi Hk) as X. rewrite (inner_ext n (col V k) (col V k) (apply n H psi) (fun i => real e *c psi i) ltac:(reflexivity) ST), inner_scale in X.
    destruct (Req_EM_T (en k) e) as [->|N]; [ring|]. replace (inner n (col V k) psi) with c0; [ring|]. revert X. generalize (inner n (col V k) psi). intros (a, b) X. injection X as X1 X2. cbn in X1, X2. assert (en k - e <> 0) by lra. apply injective_projections; cbn; nra.
  Qed.
End Rates.

(** Through the programme. *)
Lemma path_entries V E st times Ms k O v : quench st V E times = Ok Ms -> (k < ncol (as_columns st))%nat -> nrow O = nrow V -> ncol O = nrow V -> exp_vals (Columns (nth k Ms (mzero 0 0))) O = Ok v ->
  forall a, (a < length times)%nat -> nth a v 0 = expect (nrow V) O (evolve V E (col (as_columns st) k) (nth a times 0)).
Proof. intros Q Hk O1 O2 X a Ha. rewrite (path_of V E st times Ms k O Q Hk O1 O2) in X. injection X as <-. rewrite map_seq_nth by exact Ha. reflexivity. Qed.
Theorem rates_api H V E O st k : eigenbasis H V E -> (k < ncol (as_columns st))%nat -> nrow O = nrow V -> ncol O = nrow V ->
  exists x x', (forall t, derivable_pt_lim x t (x' t)) /\
    forall times Ms v w, quench st V E times = Ok Ms -> exp_vals (Columns (nth k Ms (mzero 0 0))) O = Ok v -> exp_vals (Columns (nth k Ms (mzero 0 0))) (rate_op H O) = Ok w ->
      forall a, (a < length times)%nat -> nth a v 0 = x (nth a times 0) /\ nth a w 0 = x' (nth a times 0).
Proof.
  intros B Hk O1 O2. assert (HN : nrow H = nrow V) by apply B. exists (fun t => expect (nrow V) O (evolve V E (col (as_columns st) k) t)), (fun t => expect (nrow V) (rate_op H O) (evolve V E (col (as_columns st) k) t)). split; [intros t; apply (motion H V O E _ B)|].
  intros times Ms v w Q X Y a Ha. split; [apply (path_entries V E st times Ms k O v Q Hk O1 O2 X a Ha) | apply (path_entries V E st times Ms k (rate_op H O) w Q Hk HN HN Y a Ha)].
Qed.
Theorem conserved_api H V E O st k times Ms v v0 : eigenbasis H V E -> (k < ncol (as_columns st))%nat -> nrow O = nrow V -> ncol O = nrow V -> commute_on (nrow V) H O ->
  quench st V E times = Ok Ms -> exp_vals (Columns (nth k Ms (mzero 0 0))) O = Ok v -> exp_vals st O = Ok v0 -> forall a, (a < length times)%nat -> nth a v 0 = nth k v0 0.
Proof.
  intros B Hk O1 O2 C Q X Y a Ha. destruct (quench_ok _ _ _ _ _ Q) as (D1 & D2). rewrite (path_entries V E st times Ms k O v Q Hk O1 O2 X a Ha), (conserved H V O E _ B _ C). rewrite exp_vals_of in Y by congruence. injection Y as <-. rewrite map_seq_nth by exact Hk. rewrite O1. reflexivity.
Qed.
Theorem energy_commutes n H : commute_on n H H.
Proof. intros i j _ _. reflexivity. Qed.
Theorem stays_api H V E st k times Ms e : eigenbasis H V E -> (k < ncol (as_columns st))%nat -> stationary (nrow V) H (col (as_columns st) k) e -> quench st V E times = Ok Ms ->
  forall i a, (i < nrow V)%nat -> (a < length times)%nat -> ent (nth k Ms (mzero 0 0)) i a = @kmul CR _ (cos (nth a times 0 * e), - sin (nth a times 0 * e)) (ent (as_columns st) i k).
Proof.
  intros B Hk ST Q i a Hi Ha. destruct (quench_ok _ _ _ _ _ Q) as (D1 & D2). destruct (quench_entries st V E times D1 D2) as (Ms' & Q' & LM & X). rewrite Q in Q'. injection Q' as <-. destruct (X k ltac:(lia)) as (_ & _ & R3). rewrite R3 by assumption.
  rewrite (stays H V E _ B e) by assumption. unfold cexp. rewrite cos_neg, sin_neg. reflexivity.
Qed.
