(** Python exceptions as values. *)
From Coq Require Import List Arith.
Import ListNotations.

Inductive exc :=
| GenericException | ValueError | AttributeError | TypeError | IndexError | KeyError
| NotImplementedError | OutOfFuel
(** not an exception: numpy goes on computing with inf or nan *)
| NotFinite.

Inductive res (A : Type) := Ok (a : A) | Raise (e : exc).
Arguments Ok {A}. Arguments Raise {A}.

Definition bind {A B} (m : res A) (f : A -> res B) : res B :=
  match m with Ok a => f a | Raise e => Raise e end.
Notation "x <- m ;; k" := (bind m (fun x => k)) (at level 61, m at next level, right associativity).

(** [for a in l: s = f(s, a)], stopping at the first exception. *)
Fixpoint rfold {S A} (f : S -> A -> res S) (l : list A) (s : S) : res S :=
  match l with [] => Ok s | a :: t => s' <- f s a ;; rfold f t s' end.

Fixpoint rmap {A B} (f : A -> res B) (l : list A) : res (list B) :=
  match l with
  | [] => Ok []
  | a :: t => b <- f a ;; bs <- rmap f t ;; Ok (b :: bs)
  end.

Definition is_ok {A} (m : res A) : bool := match m with Ok _ => true | Raise _ => false end.

Lemma bind_ok {A B} (m : res A) (f : A -> res B) b :
  bind m f = Ok b <-> exists a, m = Ok a /\ f a = Ok b.
Proof.
  destruct m; simpl; split.
  - intros H; eauto.
  - intros (a' & H1 & H2). congruence.
  - discriminate.
  - intros (a' & H1 & _). discriminate.
Qed.

Lemma rfold_app {S A} (f : S -> A -> res S) l1 l2 s :
  rfold f (l1 ++ l2) s = bind (rfold f l1 s) (rfold f l2).
Proof.
  revert s. induction l1 as [|a l1 IH]; intros s; simpl; [reflexivity|].
  destruct (f s a); simpl; [apply IH|reflexivity].
Qed.

(** Invariant rule. *)
Lemma rfold_inv {S A} (f : S -> A -> res S) (I : list A -> S -> Prop) l :
  (forall pre a post s, l = pre ++ a :: post -> I pre s ->
     exists s', f s a = Ok s' /\ I (pre ++ [a]) s') ->
  forall s, I [] s -> exists s', rfold f l s = Ok s' /\ I l s'.
Proof.
  intros Hstep s0 H0.
  assert (G : forall post pre s, l = pre ++ post -> I pre s ->
      exists s', rfold f post s = Ok s' /\ I l s').
  { induction post as [|a post IH]; intros pre s Hl Hs; simpl.
    - rewrite app_nil_r in Hl. subst. eauto.
    - destruct (Hstep pre a post s Hl Hs) as (s' & Hf & Hi). rewrite Hf. simpl.
      apply (IH (pre ++ [a]) s'); [|assumption]. rewrite <- app_assoc. assumption. }
  apply (G l []); auto.
Qed.
