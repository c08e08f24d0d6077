(** Hamiltonians that differ by a conserved diagonal operator. *)
From Coq Require Import List Arith Lia Reals Lra Bool Permutation.
From Verif Require Import Scalars Res Matrix Sums SqMat SpecMat ModelBase ModelGeometry ModelPhase ModelSymmetry SymBase ModelThermal SpecThermal ThermalBase ThermalFacts ThermalBasis Precess.
From Verif Require SymAverage ChainSpectrum.
Import ListNotations.
Local Open Scope R_scope.

Section Block.
  Variables (n : nat) (H H' V V' : mat CR) (E E' : list R) (pd : nat -> bool) (s : R).
  Hypothesis basis : eigenbasis H V E.
  Hypothesis basis' : eigenbasis H' V' E'.
  Hypothesis rows : nrow V = n.
  Hypothesis rows' : nrow V' = n.
  Hypothesis block : forall p q, (p < n)%nat -> (q < n)%nat -> pd p = true -> pd q = false -> ent H p q = c0.
  Hypothesis block' : forall p q, (p < n)%nat -> (q < n)%nat -> pd p = true -> pd q = false -> ent H' p q = c0.
  Hypothesis rel : forall p q, (p < n)%nat -> (q < n)%nat -> pd p = true -> pd q = true -> ent H' p q = ent H p q +c (if (p =? q)%nat then real s else c0).
  Definition cut (psi : nat -> CR) (p : nat) : CR := if pd p then psi p else c0.
  Lemma herm : hermitian n H. Proof using basis rows. rewrite <- rows. exact (SymAverage.eigenbasis_hermitian _ _ _ basis). Qed.
  Lemma cut_eigen l i : (l < ncol V')%nat -> (i < n)%nat -> apply n H (cut (col V' l)) i = real (nth l E' 0 - s) *c cut (col V' l) i.
  Proof using basis basis' rows rows' block block' rel.
    intros Hl Hi. destruct basis' as ((_ & _ & _ & EV) & _). specialize (EV i l ltac:(lia) Hl). rewrite rows' in EV. unfold apply in *. unfold cut at 2. destruct (pd i) eqn:Pi.
    - rewrite (ksum_ext n _ (fun j => ent H' i j *c col V' l j +c (if (i =? j)%nat then real (- s) *c col V' l j else c0))).
      + rewrite ksum_add. etransitivity; [apply f_equal2; [exact EV | apply (ksum_single n i); [exact Hi|]]|].
        * intros j Hj NE. rewrite (proj2 (Nat.eqb_neq i j)) by auto. reflexivity.
        * rewrite Nat.eqb_refl. unfold col. apply injective_projections; cbn; ring.
      + intros j Hj. unfold cut. destruct (pd j) eqn:Pj.
        * rewrite (rel i j Hi Hj Pi Pj). destruct (i =? j)%nat; [generalize (col V' l j), (ent H i j); intros; apply injective_projections; cbn; ring | ring].
        * rewrite (block' i j Hi Hj Pi Pj). destruct (Nat.eqb_spec i j) as [->|]; [congruence | ring].
    - rewrite ksum_zero; [apply injective_projections; cbn; ring|]. intros j Hj. unfold cut. destruct (pd j) eqn:Pj; [|ring]. rewrite (herm i j Hi Hj), (block j i Hj Hi Pj Pi). apply injective_projections; cbn; ring.
  Qed.
  Lemma cut_energy k l : (k < ncol V)%nat -> (l < ncol V')%nat -> inner n (col V k) (cut (col V' l)) <> c0 -> nth l E' 0 = nth k E 0 + s.
  Proof using basis basis' rows rows' block block' rel.
    intros Hk Hl NZ. destruct basis as ((_ & _ & _ & EV) & _). rewrite rows in EV. pose proof (inner_apply_herm n H (col V k) (cut (col V' l)) herm) as X.
    rewrite (inner_ext n (col V k) (col V k) (apply n H (cut (col V' l))) (fun i => real (nth l E' 0 - s) *c cut (col V' l) i)) in X by (try reflexivity; intros i Hi; apply cut_eigen; assumption).
    rewrite inner_scale in X. set (z := inner n (col V k) (cut (col V' l))) in *. rewrite <- (inner_conj n) in X.
    rewrite (inner_ext n (cut (col V' l)) (cut (col V' l)) (apply n H (col V k)) (fun i => real (nth k E 0) *c col V k i)) in X by (try reflexivity; intros i Hi; apply EV; assumption).
    rewrite inner_scale, kconj_mul, inner_conj, real_conj in X. fold z in X.
    destruct (Req_EM_T (nth l E' 0 - s - nth k E 0) 0) as [Q|Q]; [lra|]. exfalso. apply NZ. apply (real_eq0 _ z Q). transitivity (real (nth l E' 0 - s) *c z -c real (nth k E 0) *c z); [apply injective_projections; cbn; ring|]. rewrite X. ring.
  Qed.
  Lemma cut_move a b : inner n a (cut b) = inner n (cut a) b.
  Proof using. unfold inner. apply ksum_ext. intros i Hi. unfold cut. destruct (pd i); [reflexivity | apply injective_projections; cbn; ring]. Qed.
  Theorem block_evolve psi t p : (p < n)%nat -> pd p = true ->
    evolve V' E' psi t p = cexp (- (t * s)) *c ksum (ncol V) (fun k => col V k p *c (cexp (- (t * nth k E 0)) *c inner n (cut (col V k)) psi)).
  Proof using basis basis' rows rows' block block' rel.
    intros Hp Pp. rewrite evolve_expand, rows'. assert (C : complete_basis V) by apply basis. assert (C' : complete_basis V') by apply basis'.
    rewrite (ksum_ext (ncol V') _ (fun l => ksum (ncol V) (fun k => cexp (- (t * s)) *c (col V k p *c (cexp (- (t * nth k E 0)) *c (inner n (cut (col V k)) (col V' l) *c inner n (col V' l) psi)))))).
    - rewrite ksum_swap, <- ksum_mul_l. apply ksum_ext. intros k Hk. rewrite ksum_mul_l. f_equal. rewrite ksum_mul_l. f_equal. rewrite ksum_mul_l. f_equal.
      pose proof (complete_inner V' (cut (col V k)) psi C') as Q. rewrite rows' in Q. symmetry. exact Q.
    - intros l Hl. pose proof (C (cut (col V' l)) p ltac:(lia)) as Q. cbn beta in Q. rewrite rows in Q. unfold cut at 1 in Q. rewrite Pp in Q. etransitivity; [apply f_equal2; [exact Q | reflexivity]|].
      rewrite <- ksum_mul_r. apply ksum_ext. intros k Hk. rewrite <- cut_move. change (ent V p k) with (col V k p).
      destruct (Req_EM_T (nsq (inner n (col V k) (cut (col V' l)))) 0) as [Q0|Q0]; [apply nsq_0 in Q0; rewrite Q0; ring|].
      rewrite (cut_energy k l Hk Hl) by (intros X; apply Q0; apply nsq_0; exact X). replace (- (t * (nth k E 0 + s))) with (- (t * s) + - (t * nth k E 0)) by ring. rewrite cexp_add. ring.
  Qed.
End Block.

Section Conserved.
  Variables (n : nat) (H H' V V' : mat CR) (E E' : list R) (d : nat -> R).
  Hypothesis basis : eigenbasis H V E.
  Hypothesis basis' : eigenbasis H' V' E'.
  Hypothesis rows : nrow V = n.
  Hypothesis rows' : nrow V' = n.
  Hypothesis keeps : forall p q, (p < n)%nat -> (q < n)%nat -> d p <> d q -> ent H p q = c0.
  Hypothesis rel : forall p q, (p < n)%nat -> (q < n)%nat -> ent H' p q = ent H p q +c (if (p =? q)%nat then real (d p) else c0).
  Theorem conserved_evolve psi t p : (p < n)%nat -> evolve V' E' psi t p = cexp (- (t * d p)) *c evolve V E psi t p.
  Proof using basis basis' rows rows' keeps rel.
    intros Hp. set (pd := fun q => if Req_EM_T (d q) (d p) then true else false).
    assert (PT : forall q, pd q = true -> d q = d p) by (intros q; unfold pd; destruct (Req_EM_T (d q) (d p)); [auto | discriminate]).
    assert (PF : forall q, pd q = false -> d q <> d p) by (intros q; unfold pd; destruct (Req_EM_T (d q) (d p)); [discriminate | auto]).
    assert (Pp : pd p = true) by (unfold pd; destruct (Req_EM_T (d p) (d p)); congruence).
    assert (B : forall a b, (a < n)%nat -> (b < n)%nat -> pd a = true -> pd b = false -> ent H a b = c0) by (intros a b Ha Hb Pa Pb; apply keeps; try assumption; rewrite (PT a Pa); apply not_eq_sym, PF, Pb).
    assert (B' : forall a b, (a < n)%nat -> (b < n)%nat -> pd a = true -> pd b = false -> ent H' a b = c0).
    { intros a b Ha Hb Pa Pb. rewrite rel by assumption. rewrite (B a b) by assumption. destruct (Nat.eqb_spec a b) as [->|]; [congruence | ring]. }
    rewrite (block_evolve n H H' V V' E E' pd (d p) basis basis' rows rows' B B') with (psi := psi) (t := t) (p := p); try assumption.
    - f_equal. rewrite (block_evolve n H H V V E E pd 0 basis basis rows rows B B) with (psi := psi) (t := t) (p := p); try assumption.
      + replace (- (t * 0)) with 0 by ring. rewrite cexp_0. ring.
      + intros a b Ha Hb _ _. destruct (a =? b)%nat; apply injective_projections; cbn; ring.
    - intros a b Ha Hb Pa Pb. rewrite rel by assumption. rewrite (PT a Pa). reflexivity.
  Qed.
  Variable O : mat CR.
  Hypothesis okeeps : forall p q, (p < n)%nat -> (q < n)%nat -> d p <> d q -> ent O p q = c0.
  Theorem conserved_path psi t : expect n O (evolve V' E' psi t) = expect n O (evolve V E psi t).
  Proof using basis basis' rows rows' keeps rel okeeps.
    unfold expect. f_equal. unfold inner, apply. apply ksum_ext. intros p Hp. rewrite <- !ksum_mul_l. apply ksum_ext. intros q Hq. rewrite !conserved_evolve by assumption.
    destruct (Req_EM_T (d p) (d q)) as [->|NE]; [|rewrite (okeeps p q Hp Hq NE); ring].
    rewrite kconj_mul. transitivity ((conj (cexp (- (t * d q))) *c cexp (- (t * d q))) *c (conj (evolve V E psi t p) *c (ent O p q *c evolve V E psi t q))); [ring|]. rewrite cexp_conj_mul. ring.
  Qed.
End Conserved.
