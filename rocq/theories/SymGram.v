(** Gram-Schmidt: an orthonormal basis of the row space of any matrix, showing
    that what is asked of the singular value decomposition can be met. *)
From Coq Require Import List Arith Lia Reals Lra Bool Ring.
From Verif Require Import Scalars Sums Matrix SpecMat ModelPhase ModelSymmetry SpecSymmetry SymBase SymMany.
Import ListNotations.
Local Open Scope R_scope.

Add Ring CRring : (@k_ring CR CR_StarRing).

Definition dot (n : nat) (u v : nat -> CR) : CR := ksum n (fun j => u j *c conj (v j)).
Definition norm2 (n : nat) (u : nat -> CR) : R := rsum n (fun j => nsq (u j)).
Definition resid (V : cmat) (u : nat -> CR) (j : nat) : CR :=
  u j +c kopp (ksum (nrow V) (fun a => dot (ncol V) u (ent V a) *c ent V a j)).
Definition snoc (V : cmat) (u : nat -> CR) : cmat :=
  Mat (S (nrow V)) (ncol V) (fun a j => if (a =? nrow V)%nat then u j else ent V a j).
Definition gs_step (V : cmat) (u : nat -> CR) : cmat :=
  let r := resid V u in let s := norm2 (ncol V) r in
  if Req_EM_T s 0 then V else snoc V (fun j => real (/ sqrt s) *c r j).
Fixpoint gs (M : cmat) (k : nat) : cmat :=
  match k with O => mzero 0 (ncol M) | S k' => gs_step (gs M k') (ent M k') end.
Definition gram_schmidt (M : cmat) : cmat := gs M (nrow M).

Lemma norm2_dot n u : dot n u u = real (norm2 n u).
Proof. unfold dot, norm2. rewrite <- ksum_real. apply ksum_ext. intros. apply mul_conj. Qed.
Lemma norm2_0 n u : norm2 n u = 0 -> forall j, (j < n)%nat -> u j = c0.
Proof.
  intros H j Hj. unfold norm2 in H. apply nsq_0.
  apply (rsum_0 n (fun j => nsq (u j))); [intros; apply nsq_ge|exact H|exact Hj].
Qed.
Lemma norm2_ge n u : 0 <= norm2 n u.
Proof. apply rsum_ge. intros. apply nsq_ge. Qed.

Definition good (M : cmat) (k : nat) (V : cmat) : Prop :=
  ncol V = ncol M /\
  (forall a b, (a < nrow V)%nat -> (b < nrow V)%nat -> dot (ncol M) (ent V a) (ent V b) = kb (a =? b)%nat) /\
  (forall a, (a < nrow V)%nat -> exists f, forall j, (j < ncol M)%nat -> ent V a j = ksum k (fun t => f t *c ent M t j)) /\
  (forall t j, (t < k)%nat -> (j < ncol M)%nat ->
     ksum (nrow V) (fun a => dot (ncol M) (ent M t) (ent V a) *c ent V a j) = ent M t j).

Lemma dot_add n u v w : dot n (fun j => u j +c v j) w = dot n u w +c dot n v w.
Proof. unfold dot. rewrite <- ksum_add. apply ksum_ext. intros. ring. Qed.
Lemma dot_scale n x u w : dot n (fun j => x *c u j) w = x *c dot n u w.
Proof. unfold dot. rewrite <- ksum_mul_l. apply ksum_ext. intros. ring. Qed.
Lemma dot_conj n u w : dot n u w = conj (dot n w u).
Proof. unfold dot. rewrite ksum_conj. apply ksum_ext. intros. rewrite kconj_mul, kconj_inv. ring. Qed.

Lemma good_step M k V : good M k V -> good M (S k) (gs_step V (ent M k)).
Proof.
  intros (G1 & G2 & G3 & G4). unfold gs_step. rewrite G1. set (N := ncol M) in *.
  set (u := ent M k) in *. set (r := resid V u).
  assert (Hr : forall j, r j = u j +c kopp (ksum (nrow V) (fun a => dot N u (ent V a) *c ent V a j))).
  { intros j. unfold r, resid. rewrite G1. reflexivity. }
  assert (Hrv : forall b, (b < nrow V)%nat -> dot N r (ent V b) = c0).
  { intros b Hb. transitivity (dot N u (ent V b) +c kopp (ksum (nrow V) (fun a => dot N u (ent V a) *c dot N (ent V a) (ent V b)))).
    - unfold dot at 1. rewrite (ksum_ext N _ (fun j => u j *c conj (ent V b j) +c kopp (ksum (nrow V) (fun a => dot N u (ent V a) *c (ent V a j *c conj (ent V b j)))))).
      + rewrite ksum_add. f_equal. 
        transitivity (kopp (ksum N (fun j => ksum (nrow V) (fun a => dot N u (ent V a) *c (ent V a j *c conj (ent V b j)))))).
        { apply ksum_opp. }
        f_equal. rewrite ksum_swap. apply ksum_ext. intros a _. rewrite ksum_mul_l. reflexivity.
      + intros j _. rewrite Hr. rewrite (ksum_ext (nrow V) (fun a => dot N u (ent V a) *c (ent V a j *c conj (ent V b j))) (fun a => (dot N u (ent V a) *c ent V a j) *c conj (ent V b j))) by (intros; ring).
        rewrite ksum_mul_r. ring.
    - rewrite (ksum_single (nrow V) b); [|assumption|].
      + rewrite G2, Nat.eqb_refl by assumption. cbn [kb]. ring.
      + intros a Ha Hne. rewrite G2 by assumption. destruct (Nat.eqb_spec a b); [congruence|]. cbn [kb]. ring. }
  destruct (Req_EM_T (norm2 N r) 0) as [E|E].
  - split; [exact G1|]. split; [exact G2|]. split.
    + intros a Ha. destruct (G3 a Ha) as (f & Hf). exists (fun t => if (t =? k)%nat then c0 else f t). intros j Hj.
      cbn [ksum]. rewrite Nat.eqb_refl, (Hf j Hj).
      rewrite (ksum_ext k (fun t => (if (t =? k)%nat then c0 else f t) *c ent M t j) (fun t => f t *c ent M t j)).
      * ring.
      * intros t Ht. destruct (Nat.eqb_spec t k); [lia|reflexivity].
    + intros t j Ht Hj. destruct (Nat.eq_dec t k) as [->|]; [|apply G4; [lia|assumption]].
      fold u. pose proof (norm2_0 _ _ E j Hj) as Hz. rewrite Hr in Hz.
      fold N. transitivity (u j +c kopp (u j +c kopp (ksum (nrow V) (fun a => dot N u (ent V a) *c ent V a j)))); [ring|].
      rewrite Hz. ring.
  - pose proof (norm2_ge N r) as Hge. set (s := sqrt (norm2 N r)).
    assert (Hs : s * s = norm2 N r) by (apply sqrt_sqrt; assumption).
    assert (Hs0 : s <> 0) by (intros X; rewrite X in Hs; lra).
    set (e := fun j => real (/ s) *c r j).
    assert (He : dot N e e = c1).
    { unfold e. rewrite dot_scale, dot_conj, dot_scale, kconj_mul, real_conj, <- dot_conj, norm2_dot, <- !real_mul, <- Hs.
      rewrite <- real_1. f_equal. field. assumption. }
    assert (Hev : forall b, (b < nrow V)%nat -> dot N e (ent V b) = c0).
    { intros b Hb. unfold e. rewrite dot_scale, Hrv by assumption. ring. }
    assert (Hve : forall b, (b < nrow V)%nat -> dot N (ent V b) e = c0).
    { intros b Hb. rewrite dot_conj, Hev by assumption. apply kconj_0. }
    assert (Hre : forall j, r j = real s *c e j).
    { intros j. unfold e. transitivity ((real (/ s) *c real s) *c r j); [rewrite real_inv by assumption; ring|ring]. }
    assert (Hrow : forall a, (a < nrow V)%nat -> forall j, ent (snoc V e) a j = ent V a j).
    { intros a Ha j. cbn [snoc ent]. destruct (Nat.eqb_spec a (nrow V)); [lia|reflexivity]. }
    assert (Hlast : forall j, ent (snoc V e) (nrow V) j = e j).
    { intros j. cbn [snoc ent]. rewrite Nat.eqb_refl. reflexivity. }
    assert (Hdr : forall x a, (a < nrow V)%nat -> dot N x (ent (snoc V e) a) = dot N x (ent V a)).
    { intros x a Ha. unfold dot. apply ksum_ext. intros j _. rewrite Hrow by assumption. reflexivity. }
    assert (Hdl : forall x, dot N x (ent (snoc V e) (nrow V)) = dot N x e).
    { intros x. unfold dot. apply ksum_ext. intros j _. rewrite Hlast. reflexivity. }
    split; [exact G1|]. split; [|split].
    + intros a b Ha Hb. cbn [nrow snoc] in Ha, Hb.
      destruct (Nat.eq_dec a (nrow V)) as [->|Na]; destruct (Nat.eq_dec b (nrow V)) as [->|Nb].
      * rewrite Hdl, Nat.eqb_refl. rewrite dot_conj, Hdl, He. cbn [kb]. apply kconj_1.
      * rewrite Hdr by lia. rewrite dot_conj, Hdl, Hve, kconj_0 by lia. destruct (Nat.eqb_spec (nrow V) b); [congruence|reflexivity].
      * rewrite Hdl, dot_conj, Hdr, Hev, kconj_0 by lia. destruct (Nat.eqb_spec a (nrow V)); [congruence|reflexivity].
      * rewrite Hdr, dot_conj, Hdr, G2 by lia. rewrite Nat.eqb_sym. destruct (a =? b)%nat; cbn [kb]; [apply kconj_1|apply kconj_0].
    + assert (Hspan : forall a, (a < nrow V)%nat -> exists f, forall j, (j < N)%nat -> ent V a j = ksum (S k) (fun t => f t *c ent M t j)).
      { intros a Ha. destruct (G3 a Ha) as (f & Hf). exists (fun t => if (t =? k)%nat then c0 else f t). intros j Hj.
        cbn [ksum]. rewrite Nat.eqb_refl, (Hf j Hj).
        rewrite (ksum_ext k (fun t => (if (t =? k)%nat then c0 else f t) *c ent M t j) (fun t => f t *c ent M t j)).
        - ring.
        - intros t Ht. destruct (Nat.eqb_spec t k); [lia|reflexivity]. }
      intros a Ha. cbn [nrow snoc] in Ha. destruct (Nat.eq_dec a (nrow V)) as [->|Na].
      * assert (Hcomb : forall n, (n <= nrow V)%nat -> forall x : nat -> CR, exists f, forall j, (j < N)%nat ->
          ksum n (fun b => x b *c ent V b j) = ksum (S k) (fun t => f t *c ent M t j)).
        { induction n as [|n IH]; intros Hn x.
          - exists (fun _ => c0). intros j _. symmetry. apply ksum_zero. intros. ring.
          - destruct (IH ltac:(lia) x) as (f & Hf). destruct (Hspan n ltac:(lia)) as (g & Hg).
            exists (fun t => f t +c x n *c g t). intros j Hj.
            change (ksum (S n) (fun b => x b *c ent V b j)) with (ksum n (fun b => x b *c ent V b j) +c x n *c ent V n j).
            rewrite (Hf j Hj), (Hg j Hj), <- ksum_mul_l, <- ksum_add. apply ksum_ext. intros. ring. }
        destruct (Hcomb (nrow V) (le_n _) (fun b => dot N u (ent V b))) as (f & Hf).
        exists (fun t => real (/ s) *c (kb (t =? k)%nat +c kopp (f t))). intros j Hj. rewrite Hlast. unfold e. rewrite Hr, (Hf j Hj).
        rewrite (ksum_ext (S k) (fun t => real (/ s) *c (kb (t =? k)%nat +c kopp (f t)) *c ent M t j)
          (fun t => real (/ s) *c (kb (t =? k)%nat *c ent M t j +c kopp (f t *c ent M t j)))) by (intros; ring).
        rewrite ksum_mul_l, ksum_add, ksum_opp. f_equal. f_equal.
        rewrite (ksum_single (S k) k); [rewrite Nat.eqb_refl; cbn [kb]; unfold u; ring|lia|].
        intros t Ht Hne. destruct (Nat.eqb_spec t k); [congruence|]. cbn [kb]. ring.
      * destruct (Hspan a ltac:(lia)) as (f & Hf). exists f. intros j Hj. rewrite Hrow by lia. apply Hf. assumption.
    + intros t j Ht Hj. fold N.
      assert (Hexp : ksum (nrow (snoc V e)) (fun a => dot N (ent M t) (ent (snoc V e) a) *c ent (snoc V e) a j) =
        ksum (nrow V) (fun a => dot N (ent M t) (ent V a) *c ent V a j) +c dot N (ent M t) e *c e j).
      { cbn [snoc nrow].
        change (ksum (S (nrow V)) (fun a => dot N (ent M t) (ent (snoc V e) a) *c ent (snoc V e) a j) =
          ksum (nrow V) (fun a => dot N (ent M t) (ent V a) *c ent V a j) +c dot N (ent M t) e *c e j).
        cbn [ksum]. rewrite Hdl, Hlast. f_equal. apply ksum_ext. intros a Ha. rewrite Hdr, Hrow by assumption. reflexivity. }
      rewrite Hexp. destruct (Nat.eq_dec t k) as [->|Nt].
      * fold u. assert (Hue : dot N u e = real s).
        { assert (Hu : dot N u e = dot N r e).
          { transitivity (dot N (fun j => r j +c ksum (nrow V) (fun a => dot N u (ent V a) *c ent V a j)) e).
            - unfold dot at 1 2. apply ksum_ext. intros i _. rewrite Hr. f_equal. ring.
            - rewrite dot_add. replace (dot N (fun i => ksum (nrow V) (fun a => dot N u (ent V a) *c ent V a i)) e) with c0; [ring|].
              unfold dot at 1. rewrite (ksum_ext N _ (fun i => ksum (nrow V) (fun a => dot N u (ent V a) *c (ent V a i *c conj (e i))))).
              + rewrite ksum_swap. symmetry. apply ksum_zero. intros a Ha. rewrite ksum_mul_l.
                change (ksum N (fun i => ent V a i *c conj (e i))) with (dot N (ent V a) e). rewrite Hve by assumption. ring.
              + intros i _. rewrite <- ksum_mul_r. apply ksum_ext. intros. ring. }
          rewrite Hu. transitivity (real s *c dot N e e); [|rewrite He; ring].
          rewrite <- dot_scale. unfold dot. apply ksum_ext. intros i _. rewrite Hre. reflexivity. }
        rewrite Hue, <- Hre, Hr. ring.
      * rewrite G4 by (assumption || lia).
        assert (Hte : dot N (ent M t) e = c0).
        { transitivity (dot N (fun j => ksum (nrow V) (fun a => dot N (ent M t) (ent V a) *c ent V a j)) e).
          - unfold dot at 1 2. apply ksum_ext. intros i Hi. rewrite G4 by (assumption || lia). reflexivity.
          - unfold dot at 1. rewrite (ksum_ext N _ (fun i => ksum (nrow V) (fun a => dot N (ent M t) (ent V a) *c (ent V a i *c conj (e i))))).
            + rewrite ksum_swap. apply ksum_zero. intros a Ha. rewrite ksum_mul_l.
              change (ksum N (fun i => ent V a i *c conj (e i))) with (dot N (ent V a) e). rewrite Hve by assumption. ring.
            + intros i _. rewrite <- ksum_mul_r. apply ksum_ext. intros. ring. }
        rewrite Hte. ring.
Qed.

Lemma gs_good M k : good M k (gs M k).
Proof.
  induction k as [|k IH]; [|exact (good_step M k _ IH)].
  cbn [gs]. split; [reflexivity|]. split; [|split]; cbn [nrow mzero]; intros; lia.
Qed.

Lemma pick_all {A} (d : A) (P : nat -> A -> Prop) n : (forall a, (a < n)%nat -> exists x, P a x) ->
  exists f, forall a, (a < n)%nat -> P a (f a).
Proof.
  induction n as [|n IH]; intros H.
  - exists (fun _ => d). intros; lia.
  - destruct IH as (f & Hf); [intros; apply H; lia|]. destruct (H n ltac:(lia)) as (x & Hx).
    exists (fun a => if (a =? n)%nat then x else f a). intros a Ha.
    destruct (Nat.eqb_spec a n) as [->|]; [assumption|apply Hf; lia].
Qed.

(** Every matrix has such a row basis. *)
Lemma gram_schmidt_ok M : row_basis M (gram_schmidt M).
Proof.
  unfold gram_schmidt. destruct (gs_good M (nrow M)) as (G1 & G2 & G3 & G4). set (V := gs M (nrow M)) in *.
  split; [exact G1|]. split; [|split].
  - split; [reflexivity|]. split; [reflexivity|]. intros a b Ha Hb. cbn [mmul madj nrow ncol ent meye] in *. rewrite G1. exact (G2 a b Ha Hb).
  - destruct (pick_all (fun _ => c0) (fun a f => forall j, (j < ncol M)%nat -> ent V a j = ksum (nrow M) (fun t => f t *c ent M t j)) (nrow V) G3) as (F & HF).
    exists (Mat (nrow V) (nrow M) F). split; [reflexivity|]. split; [reflexivity|].
    split; [reflexivity|]. split; [exact G1|]. intros a j Ha Hj. cbn [mmul ent ncol]. rewrite G1 in Hj. exact (HF a Ha j Hj).
  - split; [reflexivity|]. split; [exact G1|]. intros t j Ht Hj. cbn [mmul madj nrow ncol ent] in *. rewrite G1 in Hj.
    exact (G4 t j Ht Hj).
Qed.
