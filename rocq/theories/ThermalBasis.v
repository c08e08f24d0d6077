(** Independence of the eigenbasis, and time evolution: proofs. *)
From Coq Require Import List Arith Lia Reals Lra Bool Sorting Permutation.
From Verif Require Import Scalars Res Matrix ModelGeometry ModelPhase ModelSymmetry SymBase ModelBase ModelThermal SpecThermal ThermalBase ThermalSectors.
Import ListNotations.
Local Open Scope R_scope.

Notation "x -c y" := (@ksub CR CR_StarRing x y) (at level 50, left associativity).

Lemma inner_conj n a b : conj (inner n a b) = inner n b a.
Proof. unfold inner. rewrite ksum_conj. apply ksum_ext. intros i _. rewrite kconj_mul, kconj_inv. ring. Qed.
Lemma inner_ext n a a' b b' : (forall i, (i < n)%nat -> a i = a' i) -> (forall i, (i < n)%nat -> b i = b' i) ->
  inner n a b = inner n a' b'.
Proof. intros H1 H2. apply ksum_ext. intros i Hi. rewrite H1, H2 by exact Hi. reflexivity. Qed.
Lemma inner_scale n a c b : inner n a (fun i => c *c b i) = c *c inner n a b.
Proof. unfold inner. rewrite <- ksum_mul_l. apply ksum_ext. intros i _. ring. Qed.
Lemma inner_sum n m a (b : nat -> nat -> CR) (c : nat -> CR) :
  inner n a (fun i => ksum m (fun l => b l i *c c l)) = ksum m (fun l => inner n a (b l) *c c l).
Proof.
  unfold inner.
  rewrite (ksum_ext n _ (fun i => ksum m (fun l => conj (a i) *c b l i *c c l)))
    by (intros i _; rewrite <- ksum_mul_l; apply ksum_ext; intros; ring).
  rewrite ksum_swap. apply ksum_ext. intros l _. apply (ksum_mul_r n).
Qed.
Lemma apply_ext n O a b i : (forall j, (j < n)%nat -> a j = b j) -> apply n O a i = apply n O b i.
Proof. intros H. apply ksum_ext. intros j Hj. rewrite H by exact Hj. reflexivity. Qed.
Lemma apply_sum n m O (b : nat -> nat -> CR) (c : nat -> CR) i :
  apply n O (fun i => ksum m (fun l => b l i *c c l)) i = ksum m (fun l => apply n O (b l) i *c c l).
Proof.
  unfold apply.
  rewrite (ksum_ext n _ (fun j => ksum m (fun l => ent O i j *c b l j *c c l)))
    by (intros j _; rewrite <- ksum_mul_l; apply ksum_ext; intros; ring).
  rewrite ksum_swap. apply ksum_ext. intros l _. apply (ksum_mul_r n).
Qed.
Lemma inner_apply_herm n H a b : hermitian n H -> inner n a (apply n H b) = inner n (apply n H a) b.
Proof.
  intros HH. unfold inner, apply.
  rewrite (ksum_ext n _ (fun i => ksum n (fun j => conj (a i) *c (ent H i j *c b j)))) by (intros; rewrite ksum_mul_l; reflexivity).
  rewrite ksum_swap. apply ksum_ext. intros j Hj. rewrite ksum_conj, <- ksum_mul_r. apply ksum_ext. intros i Hi.
  rewrite kconj_mul, <- HH by assumption. ring.
Qed.
Lemma complete_inner V a b : complete_basis V ->
  inner (nrow V) a b = ksum (ncol V) (fun k => inner (nrow V) a (col V k) *c inner (nrow V) (col V k) b).
Proof.
  intros C. rewrite (inner_ext _ a a b (fun i => ksum (ncol V) (fun k => col V k i *c inner (nrow V) (col V k) b))).
  - apply inner_sum.
  - reflexivity.
  - intros i Hi. apply C. exact Hi.
Qed.

Lemma fst_ksum n f : fst (ksum n f) = rsum n (fun i => fst (f i)).
Proof. induction n as [|n IH]; [reflexivity|]. cbn [ksum rsum]. rewrite <- IH. reflexivity. Qed.
Lemma rsum_total n f : rsum n f = total f (seq 0 n).
Proof.
  induction n as [|n IH]; [reflexivity|]. rewrite seq_S, total_app, <- IH. cbn [rsum Nat.add].
  rewrite total_cons, total_nil. ring.
Qed.

Section TwoBases.
  Variables (H V V' O : cmat) (E E' : list R).
  Hypothesis herm : hermitian (nrow V) H.
  Hypothesis eigV : eigenbasis H V E.
  Hypothesis eigV' : eigenbasis H V' E'.
  Hypothesis same : nrow V' = nrow V.

  Let n := nrow V.
  Let U k l := inner n (col V k) (col V' l).

  Lemma overlap_energy k l : (k < ncol V)%nat -> (l < ncol V')%nat -> U k l <> c0 -> nth k E 0 = nth l E' 0.
  Proof using herm eigV eigV' same.
    intros Hk Hl HU. destruct eigV as ((_ & _ & _ & EV) & _). destruct eigV' as ((_ & _ & _ & EV') & _).
    rewrite same in EV'. fold n in EV, EV'.
    pose proof (inner_apply_herm n H (col V k) (col V' l) herm) as X.
    rewrite (inner_ext n (col V k) (col V k) (apply n H (col V' l)) (fun i => (nth l E' 0, 0) *c col V' l i)) in X
      by (try reflexivity; intros i Hi; apply EV'; assumption).
    rewrite inner_scale in X. fold (U k l) in X.
    rewrite <- (inner_conj n) in X.
    rewrite (inner_ext n (col V' l) (col V' l) (apply n H (col V k)) (fun i => (nth k E 0, 0) *c col V k i)) in X
      by (try reflexivity; intros i Hi; apply EV; assumption).
    rewrite inner_scale, kconj_mul, inner_conj in X. fold (U k l) in X.
    change (conj (nth k E 0, 0)) with (conj (real (nth k E 0))) in X. rewrite real_conj in X.
    apply real_inj. apply (mul_cancel (U k l)); [exact HU|].
    change (nth l E' 0, 0) with (real (nth l E' 0)) in X.
    replace (U k l *c real (nth k E 0)) with (real (nth k E 0) *c U k l) by ring. rewrite <- X. ring.
  Qed.

  (** Trace of f(H) O. *)
  Lemma trace_indep (f : R -> R) :
    total (fun k => f (nth k E 0) * expect n O (col V k)) (seq 0 (ncol V)) =
    total (fun l => f (nth l E' 0) * expect n O (col V' l)) (seq 0 (ncol V')).
  Proof using herm eigV eigV' same.
    rewrite <- !rsum_total. unfold expect.
    assert (F : forall x z, x * fst z = fst (real x *c z)) by (intros x [a b]; cbn; ring).
    rewrite (rsum_ext (ncol V) _ (fun k => fst (real (f (nth k E 0)) *c inner n (col V k) (apply n O (col V k))))) by (intros; apply F).
    rewrite (rsum_ext (ncol V') _ (fun k => fst (real (f (nth k E' 0)) *c inner n (col V' k) (apply n O (col V' k))))) by (intros; apply F).
    rewrite <- !fst_ksum.
    match goal with |- fst ?a = fst ?b => enough (X : @eq CR a b) by (rewrite X; reflexivity) end.
    assert (Cm : complete_basis V) by apply eigV. assert (Cm' : complete_basis V') by apply eigV'.
    (* expand in the second basis *)
    transitivity (ksum (ncol V) (fun k => ksum (ncol V') (fun l =>
      real (f (nth l E' 0)) *c (conj (U k l) *c inner n (col V k) (apply n O (col V' l)))))).
    - apply ksum_ext. intros k Hk.
      rewrite (inner_ext n (col V k) (col V k) (apply n O (col V k))
                (fun i => ksum (ncol V') (fun l => apply n O (col V' l) i *c inner n (col V' l) (col V k)))).
      + rewrite (inner_sum n (ncol V') (col V k) (fun l => apply n O (col V' l))), <- ksum_mul_l. apply ksum_ext. intros l Hl.
        unfold U. rewrite inner_conj. fold n.
        destruct (cr_eq_dec (U k l) (0, 0)) as [Z|Z].
        * rewrite <- (inner_conj n (col V k) (col V' l)). fold (U k l). rewrite Z.
          change (conj ((0, 0) : CR)) with (conj c0). rewrite kconj_0. ring.
        * rewrite (overlap_energy k l Hk Hl Z). ring.
      + reflexivity.
      + intros i Hi. rewrite <- apply_sum. apply apply_ext. intros j Hj.
        unfold col at 1. rewrite (Cm' (fun j => ent V j k) j) by (rewrite same; exact Hj). rewrite same. reflexivity.
    - rewrite ksum_swap. apply ksum_ext. intros l Hl. rewrite ksum_mul_l. f_equal.
      etransitivity; [|symmetry; apply (complete_inner V (col V' l) (apply n O (col V' l)) Cm)].
      apply ksum_ext. intros k Hk.
      unfold U. rewrite inner_conj. reflexivity.
  Qed.

  Lemma norm_one k : (k < ncol V)%nat -> expect n (meye n) (col V k) = 1.
  Proof using eigV.
    intros Hk. unfold expect. destruct eigV as (_ & ON & _).
    rewrite (inner_ext n (col V k) (col V k) (apply n (meye n) (col V k)) (col V k)).
    - rewrite ON by assumption. rewrite Nat.eqb_refl. reflexivity.
    - reflexivity.
    - intros i Hi. unfold apply. cbn [meye ent].
      rewrite (ksum_single n i) by (try exact Hi; intros j Hj Ne; replace (i =? j)%nat with false by (symmetry; apply Nat.eqb_neq; congruence); cbn [kb]; ring).
      rewrite Nat.eqb_refl. cbn [kb]. ring.
  Qed.
  Lemma nonzero_overlap k : (k < ncol V)%nat -> exists l, (l < ncol V')%nat /\ U k l <> c0.
  Proof using eigV eigV' same.
    intros Hk.
    assert (D : (exists l, (l < ncol V')%nat /\ U k l <> c0) \/ forall l, (l < ncol V')%nat -> U k l = c0).
    { generalize (ncol V') as m. induction m as [|m [(l & Hl & X)|IH]].
      - right. intros l Hl. lia.
      - left. exists l. split; [lia | exact X].
      - destruct (cr_eq_dec (U k m) (0, 0)) as [Z|Z]; [right | left; exists m; split; [lia | exact Z]].
        intros l Hl. destruct (Nat.eq_dec l m) as [->|]; [exact Z | apply IH; lia]. }
    destruct D as [D|D]; [exact D|]. exfalso.
    destruct eigV as (_ & ON & _). destruct eigV' as (_ & _ & Cm').
    pose proof (ON k k Hk Hk) as X. rewrite Nat.eqb_refl in X. fold n in X.
    pose proof (complete_inner V' (col V k) (col V k) Cm') as Y. rewrite same in Y. fold n in Y.
    rewrite ksum_zero in Y.
    - rewrite Y in X. cbn [kb] in X. apply c1_neq_0. symmetry. exact X.
    - intros l Hl. fold (U k l). rewrite (D l Hl). ring.
  Qed.
  Lemma energies_sub x : In x E -> In x E'.
  Proof using herm eigV eigV' same.
    intros Hx. assert (LE : ncol V = length E) by apply eigV. assert (LE' : ncol V' = length E') by apply eigV'.
    apply (In_nth _ _ 0) in Hx as (k & Hk & <-). rewrite <- LE in Hk.
    destruct (nonzero_overlap k Hk) as (l & Hl & Ne). rewrite (overlap_energy k l Hk Hl Ne). apply nth_In. lia.
  Qed.
End TwoBases.

Lemma boltzmann_basis H V V' O E E' T : hermitian (nrow V) H -> eigenbasis H V E -> eigenbasis H V' E' -> nrow V' = nrow V ->
  boltzmann T (levels E V O) = boltzmann T (levels E' V' O).
Proof.
  intros hm e e' sm. unfold boltzmann, levels. rewrite !total_map. cbn [energy value fst snd].
  assert (LE : ncol V = length E) by apply e. assert (LE' : ncol V' = length E') by apply e'.
  rewrite sm, <- LE, <- LE'. f_equal.
  - apply (trace_indep H V V' O E E' hm e e' sm (fun x => exp (- x / T))).
  - pose proof (trace_indep H V V' (meye (nrow V)) E E' hm e e' sm (fun x => exp (- x / T))) as X.
    cbv beta in X.
    rewrite (total_ext (fun k : nat => exp (- nth k E 0 / T) * expect (nrow V) (meye (nrow V)) (col V k)) (fun k => exp (- nth k E 0 / T)) (seq 0 (ncol V))) in X.
    2:{ intros k Hk. apply in_seq in Hk. rewrite (norm_one H V E e) by lia. ring. }
    rewrite (total_ext (fun k : nat => exp (- nth k E' 0 / T) * expect (nrow V) (meye (nrow V)) (col V' k)) (fun k => exp (- nth k E' 0 / T)) (seq 0 (ncol V'))) in X.
    2:{ intros k Hk. apply in_seq in Hk. rewrite <- sm, (norm_one H V' E' e') by lia. ring. }
    exact X.
Qed.
Lemma average_basis H V V' O E E' x : hermitian (nrow V) H -> eigenbasis H V E -> eigenbasis H V' E' -> nrow V' = nrow V ->
  average_at x (levels E V O) = average_at x (levels E' V' O).
Proof.
  intros hm e e' sm. unfold average_at, levels. rewrite !total_map. cbn [energy value fst snd].
  assert (LE : ncol V = length E) by apply e. assert (LE' : ncol V' = length E') by apply e'.
  rewrite sm, <- LE, <- LE'. unfold at_energy. cbn [energy fst]. f_equal.
  - apply (trace_indep H V V' O E E' hm e e' sm (fun y => if Req_EM_T y x then 1 else 0)).
  - pose proof (trace_indep H V V' (meye (nrow V)) E E' hm e e' sm (fun y => if Req_EM_T y x then 1 else 0)) as X.
    cbv beta in X.
    rewrite (total_ext (fun k : nat => (if Req_EM_T (nth k E 0) x then 1 else 0) * expect (nrow V) (meye (nrow V)) (col V k)) (fun k => if Req_EM_T (nth k E 0) x then 1 else 0) (seq 0 (ncol V))) in X.
    2:{ intros k Hk. apply in_seq in Hk. rewrite (norm_one H V E e) by lia. ring. }
    rewrite (total_ext (fun k : nat => (if Req_EM_T (nth k E' 0) x then 1 else 0) * expect (nrow V) (meye (nrow V)) (col V' k)) (fun k => if Req_EM_T (nth k E' 0) x then 1 else 0) (seq 0 (ncol V'))) in X.
    2:{ intros k Hk. apply in_seq in Hk. rewrite <- sm, (norm_one H V' E' e') by lia. ring. }
    exact X.
Qed.


Lemma thermal_basis H V V' O E E' T : hermitian (nrow V) H -> eigenbasis H V E -> eigenbasis H V' E' -> nrow V' = nrow V ->
  fits V O E -> E' <> [] ->
  T <> 0 \/ (sorted_list E /\ sorted_list E' /\ apart gap13 E) ->
  exp_vals_thermal V O E T = exp_vals_thermal V' O E' T.
Proof.
  intros hm e e' sm F Ne HT.
  assert (LE' : ncol V' = length E') by apply e'.
  assert (F' : fits V' O E').
  { destruct F as (F1 & F2 & F3 & F4). repeat split; [congruence | congruence | exact LE' | exact Ne]. }
  destruct (Req_EM_T T 0) as [->|N].
  - destruct HT as [HT|(S1 & S2 & A)]; [congruence|].
    assert (sub' : forall x, In x E' -> In x E).
    { intros x. apply (energies_sub H V' V E' E); [rewrite sm; exact hm | exact e' | exact e | congruence]. }
    assert (A' : apart gap13 E') by (intros x y Hx Hy; apply A; apply sub'; assumption).
    rewrite !thermal_zero by assumption. f_equal.
    assert (M : nth 0 E 0 = nth 0 E' 0).
    { apply (smallest_unique _ _ E).
      - apply sorted_least; [apply F | exact S1].
      - destruct (sorted_least E' Ne S2) as [I L]. split; [apply sub', I|].
        intros x Hx. apply L. apply (energies_sub H V V' E E' hm e e' sm), Hx. }
    rewrite M. apply (average_basis H); assumption.
  - rewrite !thermal_finite by assumption. f_equal. apply (boltzmann_basis H); assumption.
Qed.

(** ** Time evolution *)
Lemma cexp_add a b : cexp (a + b) = cexp a *c cexp b.
Proof. unfold cexp. rewrite cos_plus, sin_plus. apply injective_projections; cbn; ring. Qed.
Lemma cexp_0 : cexp 0 = c1.
Proof. unfold cexp. rewrite cos_0, sin_0. reflexivity. Qed.
Lemma cexp_conj_mul a : conj (cexp a) *c cexp a = c1.
Proof. rewrite conj_mul_self, <- real_1. f_equal. unfold nsq, cexp. cbn [fst snd]. pose proof (sin2_cos2 a). unfold Rsqr in *. lra. Qed.

Section Evolve.
  Variables (V : cmat) (E : list R).
  Hypothesis ON : orthonormal V.
  Let n := nrow V.
  Let c psi k := inner n (col V k) psi.

  Lemma evolve_expand psi t i : evolve V E psi t i = ksum (ncol V) (fun k => col V k i *c (cexp (- (t * nth k E 0)) *c c psi k)).
  Proof. reflexivity. Qed.

  Lemma inner_expand a b :
    inner n (fun i => ksum (ncol V) (fun k => col V k i *c a k)) (fun i => ksum (ncol V) (fun k => col V k i *c b k)) =
    ksum (ncol V) (fun k => conj (a k) *c b k).
  Proof using ON.
    rewrite (inner_sum n (ncol V) _ (col V) b). apply ksum_ext. intros k Hk. f_equal.
    rewrite <- inner_conj. rewrite (inner_sum n (ncol V) (col V k) (col V) a). f_equal.
    rewrite (ksum_single (ncol V) k).
    - unfold n. rewrite ON by assumption. rewrite Nat.eqb_refl. cbn [kb]. ring.
    - exact Hk.
    - intros l Hl Ne. unfold n. rewrite ON by assumption.
      replace (k =? l)%nat with false by (symmetry; apply Nat.eqb_neq; congruence). cbn [kb]. ring.
  Qed.

  Lemma evolve_inner phi psi t :
    inner n (evolve V E phi t) (evolve V E psi t) = ksum (ncol V) (fun k => conj (c phi k) *c c psi k).
  Proof using ON.
    rewrite (inner_ext n _ (fun i => ksum (ncol V) (fun k => col V k i *c (cexp (- (t * nth k E 0)) *c c phi k)))
                         _ (fun i => ksum (ncol V) (fun k => col V k i *c (cexp (- (t * nth k E 0)) *c c psi k)))) by (intros; reflexivity).
    rewrite inner_expand. apply ksum_ext. intros k _. rewrite kconj_mul.
    transitivity (conj (cexp (- (t * nth k E 0))) *c cexp (- (t * nth k E 0)) *c (conj (c phi k) *c c psi k)); [ring|].
    rewrite cexp_conj_mul. ring.
  Qed.
  Lemma evolve_preserves phi psi t t' :
    inner n (evolve V E phi t) (evolve V E psi t) = inner n (evolve V E phi t') (evolve V E psi t').
  Proof using ON. rewrite !evolve_inner. reflexivity. Qed.

  Lemma evolve_coeff psi t k : (k < ncol V)%nat -> c (evolve V E psi t) k = cexp (- (t * nth k E 0)) *c c psi k.
  Proof using ON.
    intros Hk. unfold c at 1.
    rewrite (inner_ext n (col V k) (col V k) _ (fun i => ksum (ncol V) (fun k => col V k i *c (cexp (- (t * nth k E 0)) *c c psi k)))) by (intros; reflexivity).
    rewrite (inner_sum n (ncol V) (col V k) (col V)). rewrite (ksum_single (ncol V) k).
    - unfold n. rewrite ON by assumption. rewrite Nat.eqb_refl. cbn [kb]. ring.
    - exact Hk.
    - intros l Hl Ne. unfold n. rewrite ON by assumption.
      replace (k =? l)%nat with false by (symmetry; apply Nat.eqb_neq; congruence). cbn [kb]. ring.
  Qed.
  Lemma evolve_compose psi s t i : evolve V E (evolve V E psi s) t i = evolve V E psi (s + t) i.
  Proof using ON.
    rewrite !evolve_expand. apply ksum_ext. intros k Hk. rewrite evolve_coeff by exact Hk.
    replace (- ((s + t) * nth k E 0)) with (- (t * nth k E 0) + - (s * nth k E 0)) by ring. rewrite cexp_add. ring.
  Qed.

  Hypothesis CM : complete_basis V.
  Lemma evolve_start psi i : (i < n)%nat -> evolve V E psi 0 i = psi i.
  Proof using CM.
    intros Hi. rewrite evolve_expand, (CM psi i Hi). apply ksum_ext. intros k _.
    replace (- (0 * nth k E 0)) with 0 by ring. rewrite cexp_0. unfold c, n, col. ring.
  Qed.
  Lemma evolve_isometry phi psi t : inner n (evolve V E phi t) (evolve V E psi t) = inner n phi psi.
  Proof using ON CM.
    rewrite (evolve_preserves phi psi t 0). apply inner_ext; intros; apply evolve_start; assumption.
  Qed.

  Variable H : cmat.
  Hypothesis EG : eigen H V E.

  Lemma evolve_H psi t i : (i < n)%nat ->
    apply n H (evolve V E psi t) i = ksum (ncol V) (fun k => col V k i *c (real (nth k E 0) *c (cexp (- (t * nth k E 0)) *c c psi k))).
  Proof using EG.
    intros Hi. rewrite (apply_ext n H _ (fun i => ksum (ncol V) (fun k => col V k i *c (cexp (- (t * nth k E 0)) *c c psi k)))) by (intros; reflexivity).
    rewrite apply_sum. apply ksum_ext. intros k Hk. destruct EG as (_ & _ & _ & X). unfold n. rewrite X by assumption.
    change (nth k E 0, 0) with (real (nth k E 0)). unfold col. ring.
  Qed.

  (** The energy is conserved. *)
  Lemma evolve_energy psi t t' : expect n H (evolve V E psi t) = expect n H (evolve V E psi t').
  Proof using ON EG.
    unfold expect.
    assert (X : forall t, inner n (evolve V E psi t) (apply n H (evolve V E psi t)) =
      ksum (ncol V) (fun k => real (nth k E 0) *c (conj (c psi k) *c c psi k))).
    { intros u.
      rewrite (inner_ext n _ (fun i => ksum (ncol V) (fun k => col V k i *c (cexp (- (u * nth k E 0)) *c c psi k)))
        _ (fun i => ksum (ncol V) (fun k => col V k i *c (real (nth k E 0) *c (cexp (- (u * nth k E 0)) *c c psi k)))))
        by (intros; first [apply evolve_H; assumption | reflexivity]).
      rewrite inner_expand. apply ksum_ext. intros k _. rewrite kconj_mul.
      transitivity (conj (cexp (- (u * nth k E 0))) *c cexp (- (u * nth k E 0)) *c (real (nth k E 0) *c (conj (c psi k) *c c psi k))); [ring|].
      rewrite cexp_conj_mul. ring. }
    rewrite !X. reflexivity.
  Qed.

  (** Derivative of a finite sum. *)
  Lemma derive_rsum m (f g : nat -> R -> R) t : (forall k, (k < m)%nat -> derivable_pt_lim (f k) t (g k t)) ->
    derivable_pt_lim (fun t => rsum m (fun k => f k t)) t (rsum m (fun k => g k t)).
  Proof using.
    clear. induction m as [|m IH]; intros D; cbn [rsum]; [apply derivable_pt_lim_const|].
    apply (derivable_pt_lim_plus (fun t => rsum m (fun k => f k t)) (f m)); [apply IH; intros; apply D; lia | apply D; lia].
  Qed.
  Lemma derive_cos e t : derivable_pt_lim (fun t => cos (- (t * e))) t (sin (- (t * e)) * e).
  Proof using.
    replace (sin (- (t * e)) * e) with (- sin (- (t * e)) * (- e)) by ring.
    apply (derivable_pt_lim_comp (fun t => - (t * e)) cos).
    - replace (- e) with (- (1 * e + t * 0)) by ring.
      apply derivable_pt_lim_opp. apply (derivable_pt_lim_mult (fun t => t) (fun _ => e)); [apply derivable_pt_lim_id | apply derivable_pt_lim_const].
    - apply derivable_pt_lim_cos.
  Qed.
  Lemma derive_sin e t : derivable_pt_lim (fun t => sin (- (t * e))) t (- (cos (- (t * e)) * e)).
  Proof using.
    replace (- (cos (- (t * e)) * e)) with (cos (- (t * e)) * (- e)) by ring.
    apply (derivable_pt_lim_comp (fun t => - (t * e)) sin).
    - replace (- e) with (- (1 * e + t * 0)) by ring.
      apply derivable_pt_lim_opp. apply (derivable_pt_lim_mult (fun t => t) (fun _ => e)); [apply derivable_pt_lim_id | apply derivable_pt_lim_const].
    - apply derivable_pt_lim_sin.
  Qed.

  Lemma snd_ksum m f : snd (ksum m f) = rsum m (fun i => snd (f i)).
  Proof using. induction m as [|m IH]; [reflexivity|]. cbn [ksum rsum]. rewrite <- IH. reflexivity. Qed.

  Lemma derive_ext f g t l : (forall t, f t = g t) -> derivable_pt_lim f t l -> derivable_pt_lim g t l.
  Proof using. intros X D eps He. destruct (D eps He) as (d & Hd). exists d. intros h Hh1 Hh2. rewrite <- !X. apply Hd; assumption. Qed.

  (** i d psi / dt = H psi, real and imaginary part. *)
  Lemma evolve_schrodinger psi t i : (i < n)%nat ->
    derivable_pt_lim (fun t => fst (evolve V E psi t i)) t (snd (apply n H (evolve V E psi t) i)) /\
    derivable_pt_lim (fun t => snd (evolve V E psi t i)) t (- fst (apply n H (evolve V E psi t) i)).
  Proof using EG.
    intros Hi. rewrite evolve_H by exact Hi. split.
    - rewrite snd_ksum.
      apply (derive_ext (fun t => rsum (ncol V) (fun k => fst (col V k i *c (cexp (- (t * nth k E 0)) *c c psi k)))));
        [intros u; rewrite evolve_expand, fst_ksum; reflexivity|].
      apply (derive_rsum (ncol V) (fun k t => fst (col V k i *c (cexp (- (t * nth k E 0)) *c c psi k)))
        (fun k t => snd (col V k i *c (real (nth k E 0) *c (cexp (- (t * nth k E 0)) *c c psi k))))).
      intros k Hk. destruct (col V k i) as [a b]. destruct (c psi k) as [x y]. set (e := nth k E 0). cbn.
      apply (derive_ext (fun t => (a * x - b * y) * cos (- (t * e)) + (- a * y - b * x) * sin (- (t * e)))); [intros; ring|].
      replace (a * (e * (cos (- (t * e)) * y + sin (- (t * e)) * x) + 0 * (cos (- (t * e)) * x - sin (- (t * e)) * y)) +
               b * (e * (cos (- (t * e)) * x - sin (- (t * e)) * y) - 0 * (cos (- (t * e)) * y + sin (- (t * e)) * x)))
        with ((a * x - b * y) * (sin (- (t * e)) * e) + (- a * y - b * x) * (- (cos (- (t * e)) * e))) by ring.
      apply (derivable_pt_lim_plus (fun t => (a * x - b * y) * cos (- (t * e))) (fun t => (- a * y - b * x) * sin (- (t * e)))).
      + apply (derivable_pt_lim_scal (fun t => cos (- (t * e)))). apply derive_cos.
      + apply (derivable_pt_lim_scal (fun t => sin (- (t * e)))). apply derive_sin.
    - rewrite fst_ksum.
      apply (derive_ext (fun t => rsum (ncol V) (fun k => snd (col V k i *c (cexp (- (t * nth k E 0)) *c c psi k)))));
        [intros u; rewrite evolve_expand, snd_ksum; reflexivity|].
      assert (N : forall m f, - rsum m f = rsum m (fun k => - f k)) by (induction m as [|m IH]; intros; cbn [rsum]; [ring | rewrite <- IH; ring]).
      rewrite N.
      apply (derive_rsum (ncol V) (fun k t => snd (col V k i *c (cexp (- (t * nth k E 0)) *c c psi k)))
        (fun k t => - fst (col V k i *c (real (nth k E 0) *c (cexp (- (t * nth k E 0)) *c c psi k))))).
      intros k Hk. destruct (col V k i) as [a b]. destruct (c psi k) as [x y]. set (e := nth k E 0). cbn.
      apply (derive_ext (fun t => (a * y + b * x) * cos (- (t * e)) + (a * x - b * y) * sin (- (t * e)))); [intros; ring|].
      match goal with |- derivable_pt_lim _ _ ?l =>
        replace l with ((a * y + b * x) * (sin (- (t * e)) * e) + (a * x - b * y) * (- (cos (- (t * e)) * e))) by ring end.
      apply (derivable_pt_lim_plus (fun t => (a * y + b * x) * cos (- (t * e))) (fun t => (a * x - b * y) * sin (- (t * e)))).
      + apply (derivable_pt_lim_scal (fun t => cos (- (t * e)))). apply derive_cos.
      + apply (derivable_pt_lim_scal (fun t => sin (- (t * e)))). apply derive_sin.
  Qed.
End Evolve.
