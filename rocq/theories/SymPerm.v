(** Operators which permute basis states. *)
From Coq Require Import List Arith Lia ZArith Reals Lra Bool Ring Setoid Permutation.
From Verif Require Import Scalars Sums Res Matrix SpecMat ModelPhase ModelSymmetry SpecSymmetry
  SymBase SymReduce SymMany SymGroup SymTable SymZn SymWord.
Import ListNotations.
Local Open Scope nat_scope.

Add Ring CRring : (@k_ring CR CR_StarRing).

(** State [j] goes to state [f j]. *)
Definition perm_mat (n : nat) (f : nat -> nat) : cmat := Mat n n (fun i j => kb (i =? f j)).

Definition below (n : nat) (f : nat -> nat) : Prop := forall j, j < n -> f j < n.
Definition below_b (n : nat) (f : nat -> nat) : bool := forallb (fun j => f j <? n) (seq 0 n).
Definition same_b (n : nat) (f g : nat -> nat) : bool := forallb (fun j => f j =? g j) (seq 0 n).

Lemma below_ok n f : below_b n f = true -> below n f.
Proof. intros H j Hj. unfold below_b in H. rewrite forallb_forall in H. apply Nat.ltb_lt, H, in_seq. lia. Qed.

Lemma perm_eq n f g : same_b n f g = true -> meq (perm_mat n f) (perm_mat n g).
Proof.
  intros H. split; [reflexivity|]. split; [reflexivity|]. intros i j Hi Hj. cbn in Hi, Hj. cbn [perm_mat ent].
  unfold same_b in H. rewrite forallb_forall in H. assert (E : f j =? g j = true) by (apply H, in_seq; lia).
  apply Nat.eqb_eq in E. rewrite E. reflexivity.
Qed.
Lemma perm_mul n f g : below n g -> meq (mmul (perm_mat n f) (perm_mat n g)) (perm_mat n (fun j => f (g j))).
Proof.
  intros Hg. split; [reflexivity|]. split; [reflexivity|]. intros i j Hi Hj. cbn in Hi, Hj. cbn [mmul perm_mat ent ncol].
  rewrite (ksum_single n (g j)); [|apply Hg; assumption|].
  - rewrite Nat.eqb_refl. unfold kb. destruct (i =? f (g j)); ring.
  - intros k Hk Hne. rewrite (proj2 (Nat.eqb_neq k (g j)) Hne). unfold kb at 2. ring.
Qed.
Lemma perm_id n : meq (perm_mat n (fun j => j)) (meye n).
Proof. split; [reflexivity|]. split; [reflexivity|]. intros i j _ _. reflexivity. Qed.

Definition piter (f : nat -> nat) (k : nat) (j : nat) : nat := Nat.iter k f j.
Lemma piter_below n f k : below n f -> below n (piter f k).
Proof. intros H j Hj. unfold piter. induction k as [|k IH]; simpl; auto. Qed.
Lemma perm_pow n f k : below n f -> meq (mpow n (perm_mat n f) k) (perm_mat n (piter f k)).
Proof.
  intros H. induction k as [|k IH].
  - symmetry. exact (perm_id n).
  - cbn [mpow]. etransitivity; [apply mm; [reflexivity| |exact IH]|].
    + destruct IH as (X & _). rewrite X. reflexivity.
    + etransitivity; [apply perm_mul, piter_below, H|]. reflexivity.
Qed.

(** A bijection with the inverse [g]. *)
Lemma perm_signed n f g : below_b n f = true -> below_b n g = true ->
  same_b n (fun j => f (g j)) (fun j => j) = true -> same_b n (fun j => g (f j)) (fun j => j) = true ->
  signed n (perm_mat n f).
Proof.
  intros Hf Hg H1 H2. apply below_ok in Hf. apply below_ok in Hg.
  assert (HA : meq (madj (perm_mat n f)) (perm_mat n g)).
  { split; [reflexivity|]. split; [reflexivity|]. intros i j Hi Hj. cbn in Hi, Hj. cbn [madj perm_mat ent].
    unfold same_b in H1, H2. rewrite forallb_forall in H1, H2.
    assert (E1 : f (g j) =? j = true) by (apply H1, in_seq; lia). assert (E2 : g (f i) =? i = true) by (apply H2, in_seq; lia).
    apply Nat.eqb_eq in E1, E2. destruct (Nat.eqb_spec j (f i)) as [E0|N1]; destruct (Nat.eqb_spec i (g j)) as [E|N2].
    - apply kconj_1.
    - congruence.
    - subst i. congruence.
    - apply kconj_0. }
  split; [split|].
  - split; [split; reflexivity|]. split.
    + etransitivity; [apply mm; [exact HA|reflexivity|reflexivity]|]. etransitivity; [apply perm_mul; assumption|].
      etransitivity; [apply perm_eq; exact H2|]. apply perm_id.
    + etransitivity; [apply mm; [reflexivity| |exact HA]|].
      { reflexivity. }
      etransitivity; [apply perm_mul; assumption|].
      etransitivity; [apply perm_eq; exact H1|]. apply perm_id.
  - intros i j k Hi Hj Hk Ej Ek. cbn [perm_mat ent] in Ej, Ek. unfold kb in Ej, Ek.
    destruct (Nat.eqb_spec i (f j)) as [E1|]; [|contradiction]. destruct (Nat.eqb_spec i (f k)) as [E2|]; [|contradiction].
    unfold same_b in H2. rewrite forallb_forall in H2.
    assert (F1 : g (f j) =? j = true) by (apply H2, in_seq; lia). assert (F2 : g (f k) =? k = true) by (apply H2, in_seq; lia).
    apply Nat.eqb_eq in F1, F2. congruence.
  - intros i j _ _. cbn [perm_mat ent]. unfold kb. destruct (i =? f j); auto.
Qed.

(** Words of permutations. *)
Fixpoint feval (F : nat -> nat -> nat) (e : wexp) : nat -> nat :=
  match e with
  | WOne => fun j => j
  | WGen g => F g
  | WMul a b => fun j => feval F a (feval F b j)
  | WPow a k => piter (feval F a) k
  end.
Lemma feval_below n F e : (forall g, below n (F g)) -> below n (feval F e).
Proof.
  intros H. induction e as [|g|a IHa b IHb|a IHa k]; cbn [feval]; [intros j Hj; exact Hj|apply H|intros j Hj; auto|apply piter_below; assumption].
Qed.
Lemma perm_xeval n F G e : (forall g, below n (F g)) -> (forall g, meq (G g) (perm_mat n (F g))) ->
  meq (xeval n G e) (perm_mat n (feval F e)).
Proof.
  intros HF HG. induction e as [|g|a IHa b IHb|a IHa k]; cbn [xeval feval].
  - symmetry. apply perm_id.
  - apply HG.
  - etransitivity; [apply mm; [exact IHa| |exact IHb]|].
    + destruct IHa as (_ & X & _). destruct IHb as (Y & _). rewrite X, Y. reflexivity.
    + apply perm_mul, feval_below, HF.
  - pose proof IHa as (A1 & A2 & _). assert (Hs : square n (xeval n G a)) by (split; assumption).
    pose proof (feval_below n F a HF) as Hb. clear - IHa Hs Hb A1.
    induction k as [|k IH]; cbn [op_pow].
    + rewrite A1. symmetry. apply perm_id.
    + etransitivity; [apply mm; [exact IH| |exact IHa]|].
      * destruct IH as (_ & X & _). rewrite X, A1. reflexivity.
      * etransitivity; [apply perm_mul, Hb|]. split; [reflexivity|]. split; [reflexivity|]. intros i j _ _.
        cbn [perm_mat ent]. f_equal. f_equal. unfold piter. clear. induction k; simpl; [reflexivity|]. rewrite IHk. reflexivity.
Qed.

(** Number of operators of a class which take [j] to [i]. *)
Definition hits (F : nat -> nat -> nat) (l : list wexp) (i j : nat) : nat :=
  length (filter (fun e => i =? feval F e j) l).

Lemma perm_class n F G l i j : (forall g, below n (F g)) -> (forall g, meq (G g) (perm_mat n (F g))) -> i < n -> j < n ->
  ent (op_sum n (map (xeval n G) l)) i j = real (INR (hits F l i j)).
Proof.
  intros HF HG Hi Hj. rewrite op_sum_ent. unfold hits. induction l as [|e l IH]; cbn [map klsum filter]; [reflexivity|].
  rewrite IH. destruct (perm_xeval n F G e HF HG) as (X1 & X2 & X3). rewrite X3; [|rewrite X1; exact Hi|rewrite X2; exact Hj].
  cbn [perm_mat ent]. unfold kb. destruct (i =? feval F e j).
  - cbn [length]. rewrite S_INR, real_add, real_1. ring.
  - ring.
Qed.

Lemma perm_sector n F G T exps a i j : (forall g, below n (F g)) -> (forall g, meq (G g) (perm_mat n (F g))) -> i < n -> j < n ->
  ncol T = length exps ->
  ent (sector_op n T (map (map (xeval n G)) exps) a) i j =
  ksum (length exps) (fun k => conj (ent T a k) *c real (INR (hits F (nth k exps []) i j))).
Proof.
  intros HF HG Hi Hj Hn. unfold sector_op. rewrite op_sum_ent, klsum_map, Hn. rewrite map_map.
  assert (Hgen : forall exps s, klsum (combine (seq s (length exps)) (map (fun x => op_sum n (map (xeval n G) x)) exps))
      (fun a0 => ent (mscale (cr_conj (ent T a (fst a0))) (snd a0)) i j) =
    ksum (length exps) (fun k => conj (ent T a (s + k)) *c real (INR (hits F (nth k exps []) i j)))).
  { clear exps Hn. induction exps as [|c exps IH] using rev_ind; intros s; [reflexivity|].
    rewrite app_length. cbn [length]. rewrite Nat.add_1_r, seq_S, map_app. cbn [map].
    assert (Hcomb : forall (l1 : list nat) (l2 : list cmat) x y, length l1 = length l2 -> combine (l1 ++ [x]) (l2 ++ [y]) = combine l1 l2 ++ [(x, y)]).
    { clear. induction l1 as [|a l1 IH]; intros [|b l2] x y E; simpl in *; try discriminate; [reflexivity|]. rewrite IH by lia. reflexivity. }
    rewrite Hcomb by (rewrite seq_length, map_length; reflexivity).
    rewrite klsum_app, IH. cbn [klsum fst snd ksum]. f_equal.
    - apply ksum_ext. intros k Hk. rewrite app_nth1 by assumption. reflexivity.
    - rewrite app_nth2 by lia. rewrite Nat.sub_diag. cbn [nth mscale ent].
      rewrite (perm_class n F G c i j HF HG Hi Hj). change cr_conj with (@kconj CR CR_StarRing). ring. }
  rewrite Hgen. apply ksum_ext. intros. reflexivity.
Qed.

Lemma perm_related n F G exps i j : (forall g, below n (F g)) -> (forall g, meq (G g) (perm_mat n (F g))) -> i < n -> j < n ->
  ent (related n (map (map (xeval n G)) exps)) i j = real (INR (list_sum (map (fun l => hits F l i j) exps))).
Proof.
  intros HF HG Hi Hj. unfold related. rewrite op_sum_ent, klsum_map, klsum_map.
  induction exps as [|l exps IH]; cbn [klsum map list_sum fold_right]; [reflexivity|]. rewrite IH, plus_INR, real_add. f_equal.
  clear IH. rewrite op_sum_ent, !klsum_map. unfold hits. induction l as [|e l IH]; cbn [klsum filter]; [reflexivity|].
  rewrite IH. destruct (perm_xeval n F G e HF HG) as (X1 & X2 & X3). cbn [op_abs ent].
  rewrite X3; [|rewrite X1; exact Hi|rewrite X2; exact Hj]. cbn [perm_mat ent]. unfold kb.
  destruct (i =? feval F e j).
  - cbn [length]. rewrite S_INR, real_add, real_1. rewrite modulus_1; [|unfold nsq; cbn; ring]. rewrite real_1. ring.
  - rewrite (proj2 (modulus_0 c0) eq_refl), real_0. ring.
Qed.
