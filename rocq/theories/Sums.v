(** Sums over lists and reindexing. *)
From Coq Require Import List Arith Lia Bool QArith Ring Permutation.
From Verif Require Import Scalars.
Import ListNotations.
Local Open Scope nat_scope.

Lemma NoDup_map_in {A B} (f : A -> B) l :
  (forall x y, In x l -> In y l -> f x = f y -> x = y) -> NoDup l -> NoDup (map f l).
Proof.
  induction l as [|a l IH]; intros H ND; cbn; [constructor|]. inversion ND; subst. constructor.
  - intros X. apply in_map_iff in X. destruct X as (y & E & Hy).
    apply H in E; [subst; contradiction|right; assumption|left; reflexivity].
  - apply IH; [|assumption]. intros; apply H; auto; right; assumption.
Qed.

Section Sums.
  Context {K : Type} {SR : StarRing K}.
  Add Ring KringS0 : (@k_ring K SR).

  Fixpoint klsum {A} (l : list A) (f : A -> K) : K :=
    match l with [] => k0 | a :: t => kadd (f a) (klsum t f) end.

  Lemma klsum_app {A} (l1 l2 : list A) f : klsum (l1 ++ l2) f = kadd (klsum l1 f) (klsum l2 f).
  Proof. induction l1 as [|a l IH]; cbn; [ring|]. rewrite IH. ring. Qed.
  Lemma klsum_ext {A} (l : list A) f g : (forall x, In x l -> f x = g x) -> klsum l f = klsum l g.
  Proof.
    induction l as [|a l IH]; intros H; cbn; [reflexivity|]. rewrite H by (left; reflexivity).
    rewrite IH; [reflexivity|]. intros; apply H; right; assumption.
  Qed.
  Lemma klsum_zero {A} (l : list A) f : (forall x, In x l -> f x = k0) -> klsum l f = k0.
  Proof.
    induction l as [|a l IH]; intros H; cbn; [reflexivity|]. rewrite H by (left; reflexivity).
    rewrite IH; [ring|]. intros; apply H; right; assumption.
  Qed.
  Lemma klsum_map {A B} (g : A -> B) (l : list A) f : klsum (map g l) f = klsum l (fun x => f (g x)).
  Proof. induction l as [|a l IH]; cbn; [reflexivity|]. rewrite IH. reflexivity. Qed.
  Lemma klsum_add {A} (l : list A) f g : klsum l (fun x => kadd (f x) (g x)) = kadd (klsum l f) (klsum l g).
  Proof. induction l as [|a l IH]; cbn; [ring|]. rewrite IH. ring. Qed.
  Lemma klsum_opp {A} (l : list A) f : klsum l (fun x => kopp (f x)) = kopp (klsum l f).
  Proof. induction l as [|a l IH]; cbn; [ring|]. rewrite IH. ring. Qed.
  Lemma klsum_mul_l {A} (l : list A) f c : klsum l (fun x => kmul c (f x)) = kmul c (klsum l f).
  Proof. induction l as [|a l IH]; cbn; [ring|]. rewrite IH. ring. Qed.
  Lemma klsum_mul_r {A} (l : list A) f c : klsum l (fun x => kmul (f x) c) = kmul (klsum l f) c.
  Proof. induction l as [|a l IH]; cbn; [ring|]. rewrite IH. ring. Qed.
  Lemma klsum_conj {A} (l : list A) f : kconj (klsum l f) = klsum l (fun x => kconj (f x)).
  Proof. induction l as [|a l IH]; cbn; [apply kconj_0|]. rewrite kconj_add, IH. reflexivity. Qed.
  Lemma klsum_filter {A} (p : A -> bool) (l : list A) f :
    klsum (filter p l) f = klsum l (fun x => if p x then f x else k0).
  Proof. induction l as [|a l IH]; cbn; [reflexivity|]. destruct (p a); cbn; rewrite IH; ring. Qed.
  Lemma klsum_prod {A B} (l1 : list A) (l2 : list B) f :
    klsum (list_prod l1 l2) f = klsum l1 (fun a => klsum l2 (fun b => f (a, b))).
  Proof.
    induction l1 as [|a l IH]; cbn; [reflexivity|]. rewrite klsum_app, klsum_map, IH. reflexivity.
  Qed.
  Lemma klsum_seq n f : klsum (seq 0 n) f = ksum n f.
  Proof.
    induction n as [|n IH]; [reflexivity|]. rewrite seq_S, klsum_app. cbn [klsum Nat.add ksum].
    rewrite IH. ring.
  Qed.
  Lemma klsum_ksum {A} (l : list A) n f :
    klsum l (fun x => ksum n (f x)) = ksum n (fun i => klsum l (fun x => f x i)).
  Proof.
    induction l as [|a l IH]; cbn; [symmetry; apply ksum_0|]. rewrite IH, ksum_add. reflexivity.
  Qed.
  Lemma klsum_perm {A} (l1 l2 : list A) f : Permutation l1 l2 -> klsum l1 f = klsum l2 f.
  Proof. induction 1; cbn; try congruence; try ring. Qed.

  Lemma ksum_le n m f : m <= n -> ksum n (fun j => if j <? m then f j else k0) = ksum m f.
  Proof.
    intros H. replace n with (m + (n - m)) by lia. rewrite ksum_plus.
    rewrite (ksum_ext m _ f) by (intros i Hi; rewrite (proj2 (Nat.ltb_lt i m) Hi); reflexivity).
    rewrite (ksum_zero (n - m)); [ring|]. intros i Hi. rewrite (proj2 (Nat.ltb_ge (m + i) m)) by lia. reflexivity.
  Qed.

  (** A sum over [0..n-1] may be reindexed by an injective self-map. *)
  Lemma ksum_reindex n (pi : nat -> nat) f :
    (forall i, i < n -> pi i < n) -> (forall i j, i < n -> j < n -> pi i = pi j -> i = j) ->
    ksum n (fun i => f (pi i)) = ksum n f.
  Proof.
    intros H1 H2. rewrite <- !klsum_seq, <- (klsum_map pi (seq 0 n) f). apply klsum_perm.
    apply NoDup_Permutation_bis.
    - apply NoDup_map_in; [|apply seq_NoDup].
      intros x y Hx Hy. apply in_seq in Hx, Hy. apply H2; lia.
    - rewrite map_length. lia.
    - intros y Hy. apply in_map_iff in Hy. destruct Hy as (x & <- & Hx). apply in_seq in Hx.
      apply in_seq. specialize (H1 x). lia.
  Qed.

  (** Symmetric double sums. *)
  Lemma ksum_lower_double n (f : nat -> nat -> K) :
    (forall i j, i < n -> j < n -> f i j = f j i) ->
    kadd (kadd (ksum n (fun i => ksum i (f i))) (ksum n (fun i => ksum i (f i)))) (ksum n (fun i => f i i)) =
    ksum n (fun i => ksum n (f i)).
  Proof.
    induction n as [|n IH]; intros Hs; cbn [ksum]; [ring|].
    rewrite ksum_add. rewrite <- IH by (intros; apply Hs; lia).
    rewrite (ksum_ext n (fun i => f i n) (f n)) by (intros; apply Hs; lia).
    ring.
  Qed.

  Lemma half_inj (a b : K) : kadd a a = kadd b b -> a = b.
  Proof.
    intros H. assert (E : forall x : K, kmul (kQ (1 # 2)) (kadd x x) = x).
    { intros x. transitivity (kmul (kadd (kQ (1 # 2)) (kQ (1 # 2))) x); [ring|]. rewrite khalf2. ring. }
    rewrite <- (E a), <- (E b), H. reflexivity.
  Qed.
End Sums.
