(** Motion with one frequency: operators that shift energies. *)
From Coq Require Import List Arith Lia Reals Lra Bool.
From Verif Require Import Scalars Res Sums Matrix SpecMat ModelGeometry ModelPhase ModelSymmetry SymBase ModelBase ModelThermal
  SpecThermal ThermalBase ThermalFacts ThermalBasis ThermalResponse SpecPrecess.
From Verif Require SymAverage.
Import ListNotations.
Local Open Scope R_scope.

Lemma real_eq0 x (z : CR) : x <> 0 -> real x *c z = c0 -> z = c0.
Proof.
  intros Hx H. destruct z as (p, q). unfold real in H. cbn in H. unfold cr_mul in H. cbn in H. injection H as A B.
  apply injective_projections; cbn; apply (Rmult_eq_reg_l x); lra.
Qed.

Section Shift.
  Variables (H V O : mat CR) (E : list R) (n : nat) (c : R).
  Hypothesis basis : eigenbasis H V E.
  Hypothesis rows : nrow V = n.
  Hypothesis sh : shifts n H O c.
  Notation en k := (nth k E 0).
  Notation N := (length E).
  Lemma count : ncol V = N. Proof using basis. apply basis. Qed.
  Lemma sh_herm : hermitian n H.
  Proof using basis rows. pose proof (SymAverage.eigenbasis_hermitian H V E basis) as HH. rewrite rows in HH. exact HH. Qed.
  Lemma sh_eig k a : (k < N)%nat -> (a < n)%nat -> apply n H (col V k) a = real (en k) *c col V k a.
  Proof using basis rows. destruct basis as ((L & _ & _ & EV) & _). rewrite rows in EV. intros Hk Ha. apply EV; lia. Qed.
  Lemma sh_inner k b : (k < N)%nat -> inner n (col V k) (apply n H b) = real (en k) *c inner n (col V k) b.
  Proof using basis rows.
    intros Hk. rewrite (inner_apply_herm n H _ _ sh_herm), (inner_ext n _ (fun i => real (en k) *c col V k i) b b); [|intros i Hi; apply sh_eig; assumption | reflexivity].
    unfold inner. rewrite <- ksum_mul_l. apply ksum_ext. intros i _. destruct (col V k i) as (p, q), (b i) as (r, s). apply injective_projections; cbn; ring.
  Qed.
  Definition elem (k l : nat) : CR := inner n (col V k) (apply n O (col V l)).
  Lemma elem_shift k l : (k < N)%nat -> (l < N)%nat -> en k - en l = c \/ elem k l = c0.
  Proof using basis rows sh.
    intros Hk Hl. destruct (Req_EM_T (en k - en l) c) as [D|D]; [left; exact D | right].
    apply (real_eq0 (en k - en l - c)); [lra|].
    pose proof (sh_inner k (apply n O (col V l)) Hk) as A. fold (elem k l) in A.
    rewrite (inner_ext n (col V k) (col V k) _ (fun a => apply n O (col V l) a *c real (en l) +c apply n O (col V l) a *c real c)) in A.
    - unfold inner in A. rewrite (ksum_ext n _ (fun i => real (en l + c) *c (conj (col V k i) *c apply n O (col V l) i))) in A.
      + rewrite ksum_mul_l in A. fold (inner n (col V k) (apply n O (col V l))) in A. fold (elem k l) in A.
        replace (real (en k - en l - c)) with (real (en k) +c kopp (real (en l + c))) by (unfold real; cbn; unfold cr_add, cr_opp; cbn; f_equal; ring).
        transitivity (real (en k) *c elem k l +c kopp (real (en l + c) *c elem k l)); [ring|]. rewrite A. ring.
      + intros i _. replace (real (en l + c)) with (real (en l) +c real c) by (rewrite <- real_add; reflexivity). ring.
    - reflexivity.
    - intros a Ha. rewrite (sh (col V l) a Ha). change ((c, 0) : CR) with (real c). f_equal; [|ring].
      rewrite (apply_ext n O _ (fun a => real (en l) *c col V l a)) by (intros j Hj; apply sh_eig; assumption).
      unfold apply. rewrite <- ksum_mul_r. apply ksum_ext. intros j _. ring.
  Qed.

  (** Amplitude of a superposition. *)
  Lemma amplitude_sum (x : nat -> CR) :
    amplitude n O (fun i => ksum N (fun k => col V k i *c x k)) = ksum N (fun k => ksum N (fun l => conj (x k) *c (x l *c elem k l))).
  Proof using.
    clear. unfold amplitude.
    rewrite (inner_ext n _ (fun i => ksum N (fun k => col V k i *c x k)) _ (fun i => ksum N (fun l => apply n O (col V l) i *c x l))); [|reflexivity | intros i Hi; apply apply_sum].
    rewrite (inner_sum n N _ (fun l => apply n O (col V l))), (ksum_swap N N). apply ksum_ext. intros l Hl.
    rewrite <- inner_conj, (inner_sum n N _ (col V)), ksum_conj, <- ksum_mul_r. apply ksum_ext. intros k Hk.
    rewrite kconj_mul, inner_conj. unfold elem. ring.
  Qed.

  Lemma precess psi t : amplitude n O (evolve V E psi t) = cexp (c * t) *c amplitude n O psi.
  Proof using basis rows sh.
    pose proof count as CN. destruct basis as (_ & _ & CM).
    assert (A : amplitude n O psi = ksum N (fun k => ksum N (fun l => conj (inner n (col V k) psi) *c (inner n (col V l) psi *c elem k l)))).
    { rewrite <- (amplitude_sum (fun k => inner n (col V k) psi)). unfold amplitude.
      assert (P : forall i, (i < n)%nat -> psi i = ksum N (fun k => col V k i *c inner n (col V k) psi)) by (intros i Hi; rewrite <- rows, <- CN; apply CM; rewrite rows; exact Hi).
      apply inner_ext; [exact P|]. intros i Hi. apply apply_ext. exact P. }
    rewrite A.
    transitivity (amplitude n O (fun i => ksum N (fun k => col V k i *c (cexp (- (t * en k)) *c inner n (col V k) psi)))).
    { unfold amplitude. assert (P : forall i, evolve V E psi t i = ksum N (fun k => col V k i *c (cexp (- (t * en k)) *c inner n (col V k) psi))).
      { intros i. rewrite evolve_expand, CN, rows. reflexivity. }
      apply inner_ext; [intros; apply P|]. intros i Hi. apply apply_ext. intros; apply P. }
    rewrite amplitude_sum, <- ksum_mul_l. apply ksum_ext. intros k Hk. rewrite <- ksum_mul_l. apply ksum_ext. intros l Hl.
    destruct (elem_shift k l Hk Hl) as [D|D]; [|rewrite D; ring].
    rewrite kconj_mul. assert (X : conj (cexp (- (t * en k))) *c cexp (- (t * en l)) = cexp (c * t)).
    { replace (conj (cexp (- (t * en k)))) with (cexp (t * en k)) by (unfold cexp; rewrite cos_neg, sin_neg; apply injective_projections; cbn; ring).
      rewrite <- cexp_add. f_equal. rewrite <- D. ring. }
    rewrite <- X. ring.
  Qed.
  Lemma expect_precess psi t : expect n O (evolve V E psi t) = cos (c * t) * fst (amplitude n O psi) - sin (c * t) * snd (amplitude n O psi).
  Proof using basis rows sh.
    change (expect n O (evolve V E psi t)) with (fst (amplitude n O (evolve V E psi t))). rewrite precess. destruct (amplitude n O psi) as (p, q). cbn. ring.
  Qed.
  Lemma amplitude_moves psi t : amplitude n O (evolve V E psi t) = (cos (c * t) * fst (amplitude n O psi) - sin (c * t) * snd (amplitude n O psi), sin (c * t) * fst (amplitude n O psi) + cos (c * t) * snd (amplitude n O psi)).
  Proof using basis rows sh. rewrite precess. destruct (amplitude n O psi) as (p, q). apply injective_projections; cbn; ring. Qed.
End Shift.

(** Expectation values of states and of evolved states through the programme. *)
Lemma exp_vals_of st O : nrow O = nrow (as_columns st) -> ncol O = nrow (as_columns st) ->
  exp_vals st O = Ok (map (fun k => expect (nrow O) O (col (as_columns st) k)) (seq 0 (ncol (as_columns st)))).
Proof.
  intros H1 H2. unfold exp_vals. rewrite H1, H2, !Nat.eqb_refl. cbn [andb]. f_equal. apply map_ext. intros j.
  unfold col_exp, expect, inner, apply, mmul, col. cbn [ent]. rewrite H2. reflexivity.
Qed.
Lemma map_seq_nth (f : nat -> R) m k : (k < m)%nat -> nth k (map f (seq 0 m)) 0 = f k.
Proof. intros Hk. rewrite (nth_indep _ 0 (f 0%nat)) by (rewrite map_length, seq_length; exact Hk). rewrite (map_nth f), seq_nth by exact Hk. reflexivity. Qed.
Lemma expect_ext n O psi phi : (forall i, (i < n)%nat -> psi i = phi i) -> expect n O psi = expect n O phi.
Proof. intros P. unfold expect. f_equal. apply inner_ext; [exact P|]. intros i Hi. apply apply_ext. exact P. Qed.
Lemma path_of V E st times Ms k O : quench st V E times = Ok Ms -> (k < ncol (as_columns st))%nat -> nrow O = nrow V -> ncol O = nrow V ->
  exp_vals (Columns (nth k Ms (mzero 0 0))) O = Ok (map (fun a => expect (nrow V) O (evolve V E (col (as_columns st) k) (nth a times 0))) (seq 0 (length times))).
Proof.
  intros EQ Hk H1 H2. assert (SH : nrow V = nrow (as_columns st) /\ ncol V = length E).
  { unfold quench in EQ. destruct (Nat.eqb_spec (nrow V) (nrow (as_columns st))) as [A|A]; [|discriminate EQ]. destruct (Nat.eqb_spec (ncol V) (length E)) as [B|B]; [|discriminate EQ]. split; assumption. }
  destruct SH as (S1 & S2). destruct (quench_entries st V E times S1 S2) as (Ms' & EQ' & L & W). rewrite EQ in EQ'. injection EQ' as <-. destruct (W k ltac:(lia)) as (W1 & W2 & W3).
  rewrite (exp_vals_of (Columns (nth k Ms (mzero 0 0))) O) by (cbn [as_columns]; congruence). cbn [as_columns]. rewrite W2, H1. f_equal. apply map_ext_in. intros a Ha. apply in_seq in Ha.
  apply expect_ext. intros i Hi. unfold col at 1. apply W3; [exact Hi | lia].
Qed.
