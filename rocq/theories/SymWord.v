(** Finite groups given by generators and rewriting rules; a check by
    computation gives the representation and the character relations. *)
From Coq Require Import List Arith Lia ZArith Reals Lra Bool Ring Setoid Morphisms Permutation.
From Verif Require Import Scalars Sums Res Matrix SpecMat ModelPhase ModelSymmetry SpecSymmetry
  SymBase SymReduce SymMany SymGroup SymRep SymTable SymZn.
Import ListNotations.
Local Open Scope nat_scope.

Add Ring CRring : (@k_ring CR CR_StarRing).

(** ** Words and rewriting *)
Fixpoint nats_eq (a b : list nat) : bool :=
  match a, b with [], [] => true | x :: s, y :: t => (x =? y) && nats_eq s t | _, _ => false end.
Lemma nats_eq_true a b : nats_eq a b = true -> a = b.
Proof.
  revert b. induction a as [|x a IH]; intros [|y b] H; simpl in H; try discriminate; [reflexivity|].
  apply andb_true_iff in H as (H1 & H2). apply Nat.eqb_eq in H1. f_equal; auto.
Qed.

Fixpoint strip (l w : list nat) : option (list nat) :=
  match l, w with
  | [], _ => Some w
  | x :: l', y :: w' => if x =? y then strip l' w' else None
  | _, [] => None
  end.
Fixpoint rewrite_here (rules : list (list nat * list nat)) (w : list nat) : option (list nat) :=
  match rules with
  | [] => None
  | (l, r) :: t => match strip l w with Some w' => Some (r ++ w') | None => rewrite_here t w end
  end.
Fixpoint rewrite_step (rules : list (list nat * list nat)) (w : list nat) : option (list nat) :=
  match rewrite_here rules w with
  | Some w' => Some w'
  | None => match w with
            | [] => None
            | g :: t => match rewrite_step rules t with Some t' => Some (g :: t') | None => None end
            end
  end.
Fixpoint normal (rules : list (list nat * list nat)) (fuel : nat) (w : list nat) : list nat :=
  match fuel with
  | O => w
  | S k => match rewrite_step rules w with Some w' => normal rules k w' | None => w end
  end.

(** Expressions in the generators, as the class lists of the code write them. *)
Inductive wexp := WOne | WGen (g : nat) | WMul (a b : wexp) | WPow (a : wexp) (k : nat).
Fixpoint flat (e : wexp) : list nat :=
  match e with
  | WOne => [] | WGen g => [g] | WMul a b => flat a ++ flat b
  | WPow a k => concat (repeat (flat a) k)
  end.

Section Words.
  Variables (N : nat) (G : nat -> cmat).

  Fixpoint weval (w : list nat) : cmat :=
    match w with [] => meye N | g :: t => mmul (G g) (weval t) end.
  Fixpoint xeval (e : wexp) : cmat :=
    match e with
    | WOne => meye N | WGen g => G g | WMul a b => mmul (xeval a) (xeval b)
    | WPow a k => op_pow (xeval a) k
    end.

  Variable ng : nat.
  Hypothesis HG : forall g, g < ng -> signed N (G g).

  Definition ok_word (w : list nat) : Prop := forall g, In g w -> g < ng.

  Lemma signed_eye : signed N (meye N).
  Proof.
    split; [apply moves_eye|]. intros i j _ _. cbn [meye ent]. destruct (i =? j); [right; left; reflexivity|left; reflexivity].
  Qed.
  Lemma signed_mul A B : signed N A -> signed N B -> signed N (mmul A B).
  Proof.
    intros (A1 & A2) (B1 & B2). split; [apply moves_mul; assumption|].
    intros i j Hi Hj. cbn [mmul ent]. destruct (proj1 (proj1 A1)) as (Ar & Ac). rewrite Ac.
    destruct (existsb (fun k => kneb (ent A i k) c0) (seq 0 N)) eqn:E.
    - apply existsb_exists in E as (k & Hk & E). apply in_seq in Hk. apply kneb_true in E.
      rewrite (ksum_single N k); [|lia|].
      + destruct (A2 i k Hi ltac:(lia)) as [X|[X|X]]; [contradiction| |]; rewrite X;
          destruct (B2 k j ltac:(lia) Hj) as [Y|[Y|Y]]; rewrite Y.
        * left; ring. * right; left; ring. * right; right; ring. * left; ring. * right; right; ring. * right; left; ring.
      + intros l Hl Hne. destruct (A2 i l Hi Hl) as [X|[X|X]]; [rewrite X; ring| |]; exfalso; apply Hne; symmetry;
          apply (proj2 A1 i k l); auto; try lia; rewrite X; intros Z; apply c1_neq_0; [exact Z|].
        transitivity (kopp (kopp c1)); [ring|]. change (@k0 CR CR_StarRing) with c0 in Z. rewrite Z. ring.
    - left. apply ksum_zero. intros k Hk.
      assert (F : kneb (ent A i k) c0 = false).
      { destruct (kneb (ent A i k) c0) eqn:F; [|reflexivity]. rewrite <- E. symmetry. apply existsb_exists.
        exists k. split; [apply in_seq; lia|exact F]. }
      assert (X : ent A i k = c0).
      { destruct (cr_eq_dec (ent A i k) c0) as [X|X]; [exact X|]. apply kneb_true in X. congruence. }
      rewrite X. ring.
  Qed.
  Lemma signed_sq A : signed N A -> square N A.
  Proof. intros H. apply H. Qed.

  Lemma weval_signed w : ok_word w -> signed N (weval w).
  Proof.
    induction w as [|g w IH]; intros H; [apply signed_eye|]. cbn [weval].
    apply signed_mul; [apply HG, H; left; reflexivity|apply IH; intros x Hx; apply H; right; assumption].
  Qed.
  Lemma weval_sq w : ok_word w -> square N (weval w).
  Proof. intros H. apply signed_sq, weval_signed, H. Qed.

  Lemma ok_app a b : ok_word (a ++ b) -> ok_word a /\ ok_word b.
  Proof. intros H. split; intros x Hx; apply H, in_or_app; auto. Qed.
  Lemma ok_app' a b : ok_word a -> ok_word b -> ok_word (a ++ b).
  Proof. intros Ha Hb x Hx. apply in_app_iff in Hx as [Hx|Hx]; auto. Qed.

  Lemma weval_app a b : ok_word a -> ok_word b -> meq (weval (a ++ b)) (mmul (weval a) (weval b)).
  Proof.
    intros Ha Hb. destruct (weval_sq b Hb) as (B1 & B2). induction a as [|g a IH]; cbn [weval app].
    - symmetry. apply mmul_eye_l. assumption.
    - assert (Ha' : ok_word a) by (intros x Hx; apply Ha; right; assumption).
      destruct (weval_sq a Ha') as (A1 & A2). destruct (signed_sq _ (HG g (Ha g (or_introl eq_refl)))) as (G1 & G2).
      etransitivity; [|symmetry; apply mmul_assoc; congruence].
      apply mm; [reflexivity| |apply IH; assumption].
      destruct (weval_sq (a ++ b) (ok_app' _ _ Ha' Hb)) as (C1 & C2). congruence.
  Qed.

  Lemma xeval_sq e : ok_word (flat e) -> (forall a k, e = WPow a k -> True) -> meq (xeval e) (weval (flat e)) -> square N (xeval e).
  Proof.
    intros H _ (E1 & E2 & _). destruct (weval_sq _ H) as (W1 & W2). split; congruence.
  Qed.

  Fixpoint ok_exp (e : wexp) : Prop :=
    match e with WOne => True | WGen g => g < ng | WMul a b => ok_exp a /\ ok_exp b | WPow a _ => ok_exp a end.
  Lemma ok_flat e : ok_exp e -> ok_word (flat e).
  Proof.
    induction e as [|g|a IHa b IHb|a IHa k]; cbn [ok_exp flat]; intros H.
    - intros x [].
    - intros x [<-|[]]. exact H.
    - destruct H. apply ok_app'; auto.
    - induction k as [|k IHk]; [intros x []|]. cbn [repeat concat]. apply ok_app'; auto.
  Qed.
  Lemma xeval_flat e : ok_exp e -> meq (xeval e) (weval (flat e)).
  Proof.
    induction e as [|g|a IHa b IHb|a IHa k]; cbn [ok_exp flat xeval]; intros H.
    - reflexivity.
    - cbn [weval]. destruct (signed_sq _ (HG g H)) as (G1 & G2). symmetry. apply mmul_eye_r. assumption.
    - destruct H as (Ha & Hb). specialize (IHa Ha). specialize (IHb Hb).
      destruct (weval_sq _ (ok_flat a Ha)) as (A1 & A2). destruct (weval_sq _ (ok_flat b Hb)) as (B1 & B2).
      etransitivity; [|symmetry; apply weval_app; apply ok_flat; assumption].
      apply mm; [exact IHa| |exact IHb]. rewrite (meq_nrow _ _ IHb), (meq_ncol _ _ IHa). congruence.
    - specialize (IHa H). destruct (weval_sq _ (ok_flat a H)) as (A1 & A2).
      assert (Hk : forall k, ok_word (concat (repeat (flat a) k))) by (intros k0; exact (ok_flat (WPow a k0) H)).
      assert (Hc : forall k, meq (op_pow (xeval a) k) (weval (concat (repeat (flat a) k))) /\
        meq (weval (concat (repeat (flat a) (S k)))) (mmul (weval (concat (repeat (flat a) k))) (weval (flat a)))).
      { induction k0 as [|k0 (I1 & I2)].
        - cbn [op_pow repeat concat weval]. rewrite (meq_nrow _ _ IHa), A1. split; [reflexivity|].
          rewrite app_nil_r. symmetry. apply mmul_eye_l. assumption.
        - destruct (weval_sq _ (Hk k0)) as (K1 & K2). destruct (weval_sq _ (Hk (S k0))) as (L1 & L2). split.
          + cbn [op_pow]. etransitivity; [|symmetry; exact I2]. apply mm; [exact I1| |exact IHa].
            rewrite (meq_nrow _ _ IHa), (meq_ncol _ _ I1). congruence.
          + change (concat (repeat (flat a) (S (S k0)))) with (flat a ++ concat (repeat (flat a) (S k0))).
            etransitivity; [apply weval_app; [apply ok_flat; assumption|apply Hk]|].
            etransitivity; [apply mm; [reflexivity|congruence|exact I2]|].
            etransitivity; [symmetry; apply mmul_assoc; congruence|].
            apply mm; [|cbn; congruence|reflexivity].
            etransitivity; [symmetry; apply weval_app; [apply ok_flat; assumption|apply Hk]|]. reflexivity. }
      apply Hc.
  Qed.

  Variable rules : list (list nat * list nat).
  Hypothesis Hok : forall l r, In (l, r) rules -> ok_word l /\ ok_word r.
  Hypothesis Hrules : forall l r, In (l, r) rules -> meq (weval l) (weval r).

  Lemma strip_ok l w w' : strip l w = Some w' -> w = l ++ w'.
  Proof.
    revert w. induction l as [|x l IH]; intros w H; [injection H as ->; reflexivity|].
    destruct w as [|y w]; cbn [strip] in H; [discriminate|]. destruct (Nat.eqb_spec x y) as [->|]; [|discriminate].
    cbn [app]. f_equal. apply IH. assumption.
  Qed.

  Lemma here_sound w w' : ok_word w -> rewrite_here rules w = Some w' -> ok_word w' /\ meq (weval w) (weval w').
  Proof.
    intros Hw.
    assert (Hgen : forall rs, (forall l r, In (l, r) rs -> In (l, r) rules) -> rewrite_here rs w = Some w' ->
      ok_word w' /\ meq (weval w) (weval w')).
    { induction rs as [|(l & r) rs IH]; intros Hin H; cbn [rewrite_here] in H; [discriminate|].
      destruct (strip l w) as [v|] eqn:E.
      - injection H as <-. apply strip_ok in E. subst w. apply ok_app in Hw as (H1 & H2).
        pose proof (Hin l r (or_introl eq_refl)) as Hlr. destruct (Hok l r Hlr) as (O1 & O2). pose proof (Hrules l r Hlr) as E.
        split; [apply ok_app'; assumption|].
        etransitivity; [apply weval_app; assumption|]. etransitivity; [|symmetry; apply weval_app; assumption].
        destruct (weval_sq v H2), (weval_sq l O1). apply mm; [exact E|congruence|reflexivity].
      - apply IH; [intros; apply Hin; right; assumption|assumption]. }
    apply (Hgen rules). auto.
  Qed.

  Lemma step_sound w w' : ok_word w -> rewrite_step rules w = Some w' -> ok_word w' /\ meq (weval w) (weval w').
  Proof.
    revert w'. induction w as [|g w IH]; intros w' Hw H; cbn [rewrite_step] in H.
    - destruct (rewrite_here rules []) as [v|] eqn:E; [|discriminate]. injection H as <-. apply here_sound; assumption.
    - destruct (rewrite_here rules (g :: w)) as [v|] eqn:E.
      + injection H as <-. apply here_sound; assumption.
      + assert (Hw' : ok_word w) by (intros x Hx; apply Hw; right; assumption).
        destruct (rewrite_step rules w) as [t|]; [|discriminate]. injection H as <-.
        destruct (IH t Hw' eq_refl) as (T1 & T2).
        split; [intros x [<-|Hx]; [apply Hw; left; reflexivity|apply T1; assumption]|].
        cbn [weval]. apply mm; [reflexivity| |exact T2].
        destruct (weval_sq w Hw'), (signed_sq _ (HG g (Hw g (or_introl eq_refl)))). congruence.
  Qed.

  Lemma normal_sound fuel w : ok_word w -> ok_word (normal rules fuel w) /\ meq (weval w) (weval (normal rules fuel w)).
  Proof.
    revert w. induction fuel as [|k IH]; intros w Hw; cbn [normal]; [split; [assumption|reflexivity]|].
    destruct (rewrite_step rules w) as [v|] eqn:E; [|split; [assumption|reflexivity]].
    destruct (step_sound w v Hw E) as (V1 & V2). destruct (IH v V1) as (I1 & I2). split; [assumption|].
    etransitivity; eassumption.
  Qed.

  (** ** The group *)
  Variables (fuel : nat) (words : list (list nat)) (mut : list (list nat)) (invt : list nat).
  Definition mu_of (i j : nat) : nat := nth j (nth i mut []) O.
  Definition inv_of (i : nat) : nat := nth i invt O.
  Definition word (i : nat) : list nat := nth i words [].
  Definition all (m : nat) (p : nat -> bool) : bool := forallb p (seq 0 m).
  Definition in_range (w : list nat) : bool := forallb (fun g => g <? ng) w.
  Definition check_group : bool :=
    let m := length words in
    (0 <? m) && nats_eq (word 0) [] && forallb in_range words &&
    forallb (fun lr => in_range (fst lr) && in_range (snd lr)) rules &&
    all m (fun i => all m (fun j =>
      (mu_of i j <? m) && nats_eq (normal rules fuel (word i ++ word j)) (word (mu_of i j)))) &&
    all m (fun i => (inv_of i <? m) && (inv_of (inv_of i) =? i) && (mu_of i (inv_of i) =? 0)) &&
    all m (fun i => let k := inv_of i in let row := nth k mut [] in all m (fun j => nth (mu_of i j) row O =? j)).

  Lemma all_ok m p : all m p = true -> forall i, i < m -> p i = true.
  Proof. unfold all. rewrite forallb_forall. intros H i Hi. apply H, in_seq. lia. Qed.
  Lemma in_range_ok w : in_range w = true -> ok_word w.
  Proof. unfold in_range. rewrite forallb_forall. intros H g Hg. apply Nat.ltb_lt, H, Hg. Qed.

  Hypothesis Hcheck : check_group = true.
  Let m := length words.
  Let rho (e : nat) : cmat := weval (word e).

  Lemma checked : 0 < m /\ word 0 = [] /\ (forall i, ok_word (word i)) /\
    (forall i j, i < m -> j < m -> mu_of i j < m /\ normal rules fuel (word i ++ word j) = word (mu_of i j)) /\
    (forall i, i < m -> inv_of i < m /\ inv_of (inv_of i) = i /\ mu_of i (inv_of i) = 0) /\
    (forall i j, i < m -> j < m -> mu_of (inv_of i) (mu_of i j) = j).
  Proof.
    pose proof Hcheck as H. unfold check_group in H. fold m in H. rewrite !andb_true_iff in H.
    destruct H as ((((((H1 & H2) & H3) & H4) & H5) & H6) & H7).
    split; [apply Nat.ltb_lt; assumption|]. split; [apply nats_eq_true; assumption|]. split.
    { intros i. rewrite forallb_forall in H3. destruct (Nat.lt_ge_cases i m) as [Hi|Hi].
      - apply in_range_ok, H3, nth_In, Hi.
      - unfold word. rewrite nth_overflow by exact Hi. intros x []. }
    split.
    { intros i j Hi Hj. pose proof (all_ok _ _ (all_ok _ _ H5 i Hi) j Hj) as E. apply andb_true_iff in E as (E1 & E2).
      split; [apply Nat.ltb_lt; assumption|apply nats_eq_true; assumption]. }
    split.
    { intros i Hi. pose proof (all_ok _ _ H6 i Hi) as E. rewrite !andb_true_iff in E. destruct E as ((E1 & E2) & E3).
      split; [apply Nat.ltb_lt; assumption|]. split; apply Nat.eqb_eq; assumption. }
    intros i j Hi Hj. pose proof (all_ok _ _ (all_ok _ _ H7 i Hi) j Hj) as E. apply Nat.eqb_eq. exact E.
  Qed.

  Lemma word_grp : grp m mu_of inv_of.
  Proof.
    destruct checked as (C1 & C2 & C3 & C4 & C5 & C6). split; auto.
    - intros a b Ha Hb. apply C4; assumption.
    - intros a Ha. apply C5; assumption.
    - intros a Ha. apply C5; assumption.
    - intros a Ha. apply C5; assumption.
  Qed.

  Lemma word_mul a b : a < m -> b < m -> meq (mmul (rho a) (rho b)) (rho (mu_of a b)).
  Proof.
    intros Ha Hb. destruct checked as (C1 & C2 & C3 & C4 & C5 & C6). destruct (C4 a b Ha Hb) as (_ & E).
    etransitivity; [symmetry; apply weval_app; apply C3|]. unfold rho. rewrite <- E.
    apply normal_sound. apply ok_app'; apply C3.
  Qed.

  Lemma word_rep : rep N m mu_of inv_of rho.
  Proof.
    destruct checked as (C1 & C2 & C3 & C4 & C5 & C6). split.
    - apply word_grp.
    - intros e _. apply weval_sq, C3.
    - unfold rho. rewrite C2. reflexivity.
    - apply word_mul.
    - intros a Ha. destruct (C5 a Ha) as (I1 & I2 & I3).
      destruct (weval_sq _ (C3 a)) as (A1 & A2). destruct (weval_sq _ (C3 (inv_of a))) as (B1 & B2).
      destruct (proj1 (proj1 (weval_signed _ (C3 a)))) as (_ & U1 & U2).
      assert (E : meq (mmul (rho a) (rho (inv_of a))) (meye N)).
      { etransitivity; [apply word_mul; assumption|]. rewrite I3. unfold rho. rewrite C2. reflexivity. }
      fold (rho a) in *. fold (rho (inv_of a)) in *.
      etransitivity; [symmetry; apply mmul_eye_r; exact A1|].
      etransitivity; [apply mm; [reflexivity|exact (eq_sym A1)|symmetry; exact E]|].
      etransitivity; [symmetry; apply mmul_assoc; cbn; congruence|].
      etransitivity; [apply mm; [|cbn; congruence|reflexivity]|apply mmul_eye_l; exact B1].
      first [exact U1|exact U2].
    - intros e i j k He Hi Hj Hk. apply (proj2 (proj1 (weval_signed _ (C3 e)))); assumption.
  Qed.

  Lemma word_signs e i j : i < N -> j < N -> ent (rho e) i j = c0 \/ ent (rho e) i j = c1 \/ ent (rho e) i j = kopp c1.
  Proof. destruct checked as (_ & _ & C3 & _). apply (weval_signed _ (C3 e)). Qed.

  Lemma word_commute H e : square N H -> (forall g, g < ng -> meq (mmul (G g) H) (mmul H (G g))) ->
    meq (mmul (rho e) H) (mmul H (rho e)).
  Proof.
    intros (H1 & H2) Hc. unfold rho. destruct checked as (_ & _ & C3 & _). specialize (C3 e). revert C3.
    induction (word e) as [|g w IH]; intros Hw; cbn [weval].
    - etransitivity; [apply mmul_eye_l; assumption|]. symmetry. apply mmul_eye_r. assumption.
    - assert (Hw' : ok_word w) by (intros x Hx; apply Hw; right; assumption).
      destruct (weval_sq w Hw') as (W1 & W2). pose proof (Hw g (or_introl eq_refl)) as Hg.
      destruct (signed_sq _ (HG g Hg)) as (G1 & G2).
      etransitivity; [apply mmul_assoc; congruence|].
      etransitivity; [apply mm; [reflexivity|cbn; congruence|apply IH; assumption]|].
      etransitivity; [symmetry; apply mmul_assoc; congruence|].
      etransitivity; [apply mm; [apply Hc; assumption|cbn; congruence|reflexivity]|].
      apply mmul_assoc; congruence.
  Qed.

  (** The classes of the code. *)
  Variables (exps : list (list wexp)) (cls : list (list nat)).
  Fixpoint in_exp (e : wexp) : bool :=
    match e with WOne => true | WGen g => g <? ng | WMul a b => in_exp a && in_exp b | WPow a _ => in_exp a end.
  Fixpoint both {A B} (p : A -> B -> bool) (l : list A) (l' : list B) : bool :=
    match l, l' with [], [] => true | x :: t, y :: t' => p x y && both p t t' | _, _ => false end.
  Definition check_classes : bool :=
    both (both (fun e i => in_exp e && nats_eq (normal rules fuel (flat e)) (word i))) exps cls.

  Lemma in_exp_ok e : in_exp e = true -> ok_exp e.
  Proof.
    induction e as [|g|a IHa b IHb|a IHa k]; cbn [in_exp ok_exp]; intros H; auto.
    - apply Nat.ltb_lt; assumption.
    - apply andb_true_iff in H as (H1 & H2). auto.
  Qed.
  Lemma both_ok {A B} (p : A -> B -> bool) l l' : both p l l' = true -> Forall2 (fun x y => p x y = true) l l'.
  Proof.
    revert l'. induction l as [|x l IH]; intros [|y l'] H; cbn [both] in H; try discriminate; [constructor|].
    apply andb_true_iff in H as (H1 & H2). constructor; auto.
  Qed.
  Lemma Forall2_map_l {A B C} (f : A -> B) (R : B -> C -> Prop) l l' : Forall2 (fun x y => R (f x) y) l l' -> Forall2 R (map f l) l'.
  Proof. induction 1; cbn [map]; constructor; assumption. Qed.
  Lemma Forall2_weaken {A B} (R S : A -> B -> Prop) l l' : (forall x y, R x y -> S x y) -> Forall2 R l l' -> Forall2 S l l'.
  Proof. intros H. induction 1; constructor; auto. Qed.

  Lemma word_classes : check_classes = true ->
    Forall2 (Forall2 (fun A e => meq A (rho e))) (map (map xeval) exps) cls.
  Proof.
    intros H. apply both_ok in H. apply Forall2_map_l. refine (Forall2_weaken _ _ _ _ _ H). intros l l' Hl.
    apply both_ok in Hl. apply Forall2_map_l. refine (Forall2_weaken _ _ _ _ _ Hl). intros e i E.
    apply andb_true_iff in E as (E1 & E2). apply in_exp_ok in E1. apply nats_eq_true in E2.
    etransitivity; [apply xeval_flat; assumption|]. unfold rho. rewrite <- E2. apply normal_sound, ok_flat, E1.
  Qed.
End Words.
