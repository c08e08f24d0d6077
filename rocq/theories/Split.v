(** Two parts of a Hamiltonian that commute: evolution is the product of the evolutions. *)
From Coq Require Import List Arith Lia Reals Lra Bool.
From Verif Require Import Scalars Res Matrix Sums ModelGeometry ModelPhase ModelSymmetry SymBase ModelThermal SpecThermal ThermalBase ThermalBasis SpecPrecess Precess SpecLongtime Longtime SpecRates Rates.
From Verif Require SymAverage.
Import ListNotations.
Local Open Scope R_scope.

Section Split.
  Variables (N : nat) (HA HB H A B W : mat CR) (al be F : list R).
  Hypothesis ba : eigenbasis HA A al.
  Hypothesis bb : eigenbasis HB B be.
  Hypothesis bw : eigenbasis H W F.
  Hypothesis ra : nrow A = N.
  Hypothesis rb : nrow B = N.
  Hypothesis rw : nrow W = N.
  Hypothesis parts : forall a b, (a < N)%nat -> (b < N)%nat -> ent H a b = ent HA a b +c ent HB a b.
  Hypothesis comm : commute_on N HB HA.
  (** A function of the energies of the second part. *)
  Definition fn (f : nat -> CR) (psi : nat -> CR) (i : nat) : CR := ksum (ncol B) (fun j => col B j i *c (f j *c inner N (col B j) psi)).
  Lemma herm_A : hermitian N HA. Proof using ba ra. rewrite <- ra. exact (SymAverage.eigenbasis_hermitian _ _ _ ba). Qed.
  Lemma herm_B : hermitian N HB. Proof using bb rb. rewrite <- rb. exact (SymAverage.eigenbasis_hermitian _ _ _ bb). Qed.
  Lemma expand_B psi i : (i < N)%nat -> psi i = ksum (ncol B) (fun j => col B j i *c inner N (col B j) psi).
  Proof using bb rb. intros Hi. assert (C : complete_basis B) by apply bb. pose proof (C psi i) as X. rewrite rb in X. exact (X Hi). Qed.
  Lemma len_B : ncol B = length be. Proof using bb. apply bb. Qed.
  Lemma inner_fn f phi psi : inner N phi (fn f psi) = ksum (ncol B) (fun j => inner N phi (col B j) *c (f j *c inner N (col B j) psi)).
  Proof using. unfold fn. apply (inner_sum N (ncol B) phi (fun j => col B j) (fun j => f j *c inner N (col B j) psi)). Qed.
  Lemma fn_comm f psi i : (forall j l, (j < length be)%nat -> (l < length be)%nat -> nth j be 0 = nth l be 0 -> f j = f l) -> (i < N)%nat -> apply N HA (fn f psi) i = fn f (apply N HA psi) i.
  Proof using bb rb comm ba ra.
    intros RF Hi. unfold fn at 1. rewrite (apply_sum N (ncol B) HA (fun j => col B j) (fun j => f j *c inner N (col B j) psi) i).
    rewrite (ksum_ext (ncol B) _ (fun l => ksum (ncol B) (fun j => col B j i *c (inner N (col B j) (apply N HA (col B l)) *c (f l *c inner N (col B l) psi))))).
    2:{ intros l Hl. rewrite (expand_B (apply N HA (col B l)) i Hi). rewrite <- ksum_mul_r. apply ksum_ext. intros j _. ring. }
    rewrite ksum_swap. unfold fn. apply ksum_ext. intros j Hj. rewrite ksum_mul_l. f_equal.
    rewrite (inner_ext N (col B j) (col B j) (apply N HA psi) (fun i => ksum (ncol B) (fun l => apply N HA (col B l) i *c inner N (col B l) psi))); [|reflexivity|].
    2:{ intros k Hk. rewrite <- (apply_sum N (ncol B) HA (fun l => col B l) (fun l => inner N (col B l) psi) k). unfold apply. apply ksum_ext. intros q Hq. f_equal. apply (expand_B psi q Hq). }
    rewrite (inner_sum N (ncol B) (col B j) (fun l => apply N HA (col B l)) (fun l => inner N (col B l) psi)), <- ksum_mul_l. apply ksum_ext. intros l Hl. rewrite len_B in Hj, Hl.
    pose proof (commuting_elem HB B HA be bb j l) as X. rewrite rb in X. destruct (X comm Hj Hl) as [Q|Q].
    - rewrite (RF j l Hj Hl Q). ring.
    - unfold elem in Q. rewrite Q. ring.
  Qed.
  (** The energies add up. *)
  Lemma add_up f l k : (forall j m, (j < length be)%nat -> (m < length be)%nat -> nth j be 0 = nth m be 0 -> f j = f m) -> (l < length F)%nat -> (k < length al)%nat ->
    inner N (col W l) (fn (fun j => real (nth l F 0 - nth k al 0 - nth j be 0) *c f j) (col A k)) = c0.
  Proof using ba bb bw ra rb rw parts comm.
    intros RF Hl Hk. set (psi := fn f (col A k)).
    assert (X1 : inner N (col W l) (apply N H psi) = real (nth l F 0) *c inner N (col W l) psi).
    { pose proof (SymAverage.eigenbasis_hermitian _ _ _ bw) as HH. rewrite rw in HH. rewrite (inner_apply_herm N H (col W l) psi HH). destruct bw as ((L & _ & _ & EV) & _). rewrite rw in EV.
      rewrite (inner_ext N _ (fun i => real (nth l F 0) *c col W l i) psi psi); [|intros i Hi; apply EV; [exact Hi | lia] | reflexivity]. rewrite <- (inner_conj N), inner_scale, kconj_mul, inner_conj. f_equal. apply injective_projections; cbn; ring. }
    assert (X2 : inner N (col W l) (apply N HA psi) = real (nth k al 0) *c inner N (col W l) psi).
    { rewrite (inner_ext N (col W l) (col W l) (apply N HA psi) (fun i => real (nth k al 0) *c psi i)); [apply inner_scale | reflexivity|]. intros i Hi. unfold psi. rewrite (fn_comm f (col A k) i RF Hi). unfold fn. rewrite <- ksum_mul_l. apply ksum_ext. intros j _.
      destruct ba as ((L & _ & _ & EV) & _). rewrite ra in EV. rewrite (inner_ext N (col B j) (col B j) (apply N HA (col A k)) (fun i => real (nth k al 0) *c col A k i)); [rewrite inner_scale; ring | reflexivity | intros q Hq; apply EV; [exact Hq | lia]]. }
    assert (X3 : inner N (col W l) (apply N HB psi) = inner N (col W l) (fn (fun j => real (nth j be 0) *c f j) (col A k))).
    { apply inner_ext; [reflexivity|]. intros i Hi. unfold psi, fn. rewrite (apply_sum N (ncol B) HB (fun j => col B j) (fun j => f j *c inner N (col B j) (col A k)) i). apply ksum_ext. intros j Hj. destruct bb as ((L & _ & _ & EV) & _). rewrite rb in EV. rewrite (EV i j Hi Hj). unfold col at 1. change (ent B i j) with (col B j i). change ((nth j be 0, 0)) with (real (nth j be 0)). unfold col. ring. }
    assert (X4 : inner N (col W l) (apply N H psi) = inner N (col W l) (apply N HA psi) +c inner N (col W l) (apply N HB psi)).
    { unfold inner. rewrite <- ksum_add. apply ksum_ext. intros i Hi. unfold apply. transitivity (conj (col W l i) *c (ksum N (fun j => ent HA i j *c psi j) +c ksum N (fun j => ent HB i j *c psi j))); [|ring]. f_equal. rewrite <- ksum_add. apply ksum_ext. intros j Hj. rewrite (parts i j Hi Hj). ring. }
    rewrite X1, X2, X3 in X4. unfold psi in X4. rewrite !inner_fn in X4. rewrite inner_fn.
    rewrite (ksum_ext (ncol B) _ (fun j => (real (nth l F 0) -c real (nth k al 0)) *c (inner N (col W l) (col B j) *c (f j *c inner N (col B j) (col A k))) -c inner N (col W l) (col B j) *c (real (nth j be 0) *c f j *c inner N (col B j) (col A k)))).
    2:{ intros j _. replace (real (nth l F 0 - nth k al 0 - nth j be 0)) with (real (nth l F 0) -c real (nth k al 0) -c real (nth j be 0)) by (apply injective_projections; cbn; ring). ring. }
    assert (SB : forall m (f g : nat -> CR), ksum m (fun k => f k -c g k) = ksum m f -c ksum m g) by (induction m as [|m IH]; intros f0 g0; cbn [ksum]; [ring|]; rewrite IH; ring).
    rewrite SB, ksum_mul_l. revert X4. generalize (ksum (ncol B) (fun j => inner N (col W l) (col B j) *c (f j *c inner N (col B j) (col A k)))), (ksum (ncol B) (fun j => inner N (col W l) (col B j) *c (real (nth j be 0) *c f j *c inner N (col B j) (col A k)))).
    clear. intros x y X. transitivity (real (nth l F 0) *c x -c (real (nth k al 0) *c x +c y)); [ring|]. rewrite X. ring.
  Qed.
  Lemma one_state t k i : (k < length al)%nat -> (i < N)%nat -> evolve W F (col A k) t i = cexp (- (t * nth k al 0)) *c evolve B be (col A k) t i.
  Proof using ba bb bw ra rb rw parts comm.
    intros Hk Hi. assert (EB : forall i, evolve B be (col A k) t i = fn (fun j => cexp (- (t * nth j be 0))) (col A k) i) by (intros q; unfold fn; rewrite evolve_expand, rb; reflexivity).
    rewrite EB. assert (CW : complete_basis W) by apply bw. pose proof (CW (fn (fun j => cexp (- (t * nth j be 0))) (col A k)) i) as X. rewrite rw in X. rewrite (X Hi). rewrite evolve_expand, <- ksum_mul_l, rw. apply ksum_ext. intros l Hl.
    assert (LW : ncol W = length F) by apply bw. rewrite LW in Hl. change (ent W i l) with (col W l i).
    set (c := nth l F 0 - nth k al 0).
    assert (Y : inner N (col W l) (fn (fun j => cexp (- (t * nth j be 0))) (col A k)) = cexp (- (t * c)) *c inner N (col W l) (col A k)).
    { set (f := fun j => if Req_EM_T (nth j be 0) c then c0 else real (/ (c - nth j be 0)) *c (cexp (- (t * nth j be 0)) -c cexp (- (t * c)))).
      pose proof (add_up f l k) as Z. fold c in Z. rewrite inner_fn in Z. rewrite inner_fn.
      assert (RF : forall j m, (j < length be)%nat -> (m < length be)%nat -> nth j be 0 = nth m be 0 -> f j = f m) by (intros j m _ _ Q; unfold f; rewrite Q; reflexivity). specialize (Z RF Hl Hk).
      rewrite (ksum_ext (ncol B) _ (fun j => inner N (col W l) (col B j) *c (real (c - nth j be 0) *c f j *c inner N (col B j) (col A k)) +c cexp (- (t * c)) *c (inner N (col W l) (col B j) *c inner N (col B j) (col A k)))).
      - rewrite ksum_add, Z, ksum_mul_l. assert (C : complete_basis B) by apply bb. pose proof (complete_inner B (col W l) (col A k) C) as Q. rewrite rb in Q. rewrite Q. ring.
      - intros j _. unfold f. destruct (Req_EM_T (nth j be 0) c) as [->|NE]; [ring|].
        transitivity (inner N (col W l) (col B j) *c ((real (c - nth j be 0) *c real (/ (c - nth j be 0))) *c (cexp (- (t * nth j be 0)) -c cexp (- (t * c))) *c inner N (col B j) (col A k)) +c cexp (- (t * c)) *c (inner N (col W l) (col B j) *c inner N (col B j) (col A k))); [|ring].
        replace (real (c - nth j be 0) *c real (/ (c - nth j be 0))) with c1 by (apply injective_projections; cbn; field; lra). ring. }
    rewrite Y. replace (cexp (- (t * nth l F 0))) with (cexp (- (t * nth k al 0)) *c cexp (- (t * c))); [ring|]. rewrite <- cexp_add. f_equal. unfold c. ring.
  Qed.
  Theorem product psi t i : (i < N)%nat -> evolve W F psi t i = evolve B be (evolve A al psi t) t i.
  Proof using ba bb bw ra rb rw parts comm.
    intros Hi. assert (LA : ncol A = length al) by apply ba. assert (CA : complete_basis A) by apply ba.
    assert (LIN : forall X E (phi : nat -> nat -> CR) m, nrow X = N -> evolve X E (fun i => ksum m (fun k => phi k i)) t i = ksum m (fun k => evolve X E (phi k) t i)).
    { intros X E phi m RX. rewrite evolve_expand. rewrite (ksum_ext m _ (fun k => ksum (ncol X) (fun l => col X l i *c (cexp (- (t * nth l E 0)) *c inner N (col X l) (phi k))))) by (intros k _; rewrite evolve_expand, RX; reflexivity).
      rewrite ksum_swap. apply ksum_ext. intros l _. rewrite !ksum_mul_l. f_equal. f_equal. rewrite RX. unfold inner. rewrite (ksum_ext N _ (fun i => ksum m (fun k => conj (col X l i) *c phi k i))) by (intros q _; rewrite ksum_mul_l; reflexivity). rewrite ksum_swap. reflexivity. }
    assert (SC : forall X E z phi, evolve X E (fun i => z *c phi i) t i = z *c evolve X E phi t i).
    { intros X E z phi. rewrite !evolve_expand, <- ksum_mul_l. apply ksum_ext. intros l _. rewrite inner_scale. ring. }
    assert (EX : forall X E phi phi', nrow X = N -> (forall q, (q < N)%nat -> phi q = phi' q) -> evolve X E phi t i = evolve X E phi' t i).
    { intros X E phi phi' RX Q. rewrite !evolve_expand. apply ksum_ext. intros l _. f_equal. f_equal. rewrite RX. apply inner_ext; [reflexivity | exact Q]. }
    rewrite (EX W F psi (fun i => ksum (ncol A) (fun k => inner N (col A k) psi *c col A k i)) rw).
    2:{ intros q Hq. pose proof (CA psi q) as Q. rewrite ra in Q. rewrite (Q Hq). apply ksum_ext. intros k _. unfold col at 3. ring. }
    rewrite (LIN W F (fun k i => inner N (col A k) psi *c col A k i) (ncol A) rw).
    rewrite (EX B be (evolve A al psi t) (fun i => ksum (ncol A) (fun k => (cexp (- (t * nth k al 0)) *c inner N (col A k) psi) *c col A k i)) rb).
    2:{ intros q Hq. rewrite evolve_expand, ra. apply ksum_ext. intros k _. ring. }
    rewrite (LIN B be (fun k i => (cexp (- (t * nth k al 0)) *c inner N (col A k) psi) *c col A k i) (ncol A) rb).
    apply ksum_ext. intros k Hk. rewrite !SC. rewrite (one_state t k i ltac:(lia) Hi). ring.
  Qed.
  Theorem split_motion O psi t : commute_on N HB O -> expect N O (evolve W F psi t) = expect N O (evolve A al psi t).
  Proof using ba bb bw ra rb rw parts comm.
    intros CO. rewrite (expect_ext N O (evolve W F psi t) (evolve B be (evolve A al psi t) t)) by (intros i Hi; apply (product psi t i Hi)).
    pose proof (conserved HB B O be (evolve A al psi t) bb t) as X. rewrite rb in X. apply X, CO.
  Qed.
End Split.
