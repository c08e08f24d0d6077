(** No two sectors of a ring of spins carry the same numbers. *)
From Coq Require Import List Arith Lia Reals Lra Bool.
From Verif Require Import Scalars Res Matrix SpecMat ModelBase ModelPhase ModelSymmetry SpecSymmetry SubspaceProofs ModelChain SpecChain RingSectors.
Import ListNotations.
Local Open Scope R_scope.

Lemma firstn_in {A} (l : list A) k x : In x (firstn k l) -> In x l.
Proof. intros H. rewrite <- (firstn_skipn k l). apply in_or_app. left. exact H. Qed.
Lemma snd_combine {A B} (l : list A) (l' : list B) : map snd (combine l l') = firstn (length l) l'.
Proof. revert l'. induction l as [|a l IH]; intros [|b l']; try reflexivity. cbn. rewrite IH. reflexivity. Qed.
Lemma nodup_combine {A B} (l : list A) (l' : list B) : NoDup l' -> NoDup (map snd (combine l l')).
Proof.
  rewrite snd_combine. revert l. induction l' as [|b l' IH]; intros l N; [rewrite firstn_nil; constructor|]. destruct l as [|a l]; [constructor|]. cbn.
  apply NoDup_cons_iff in N as (N1 & N2). constructor; [intros H; apply N1, (firstn_in _ _ _ H)|apply IH; assumption].
Qed.
Lemma parts_nodup {X L K} (f : X -> res (list sector)) (lab : sector -> L) (key : L -> K) (kx : X -> K) (l : list X) parts :
  rmap f l = Ok parts -> NoDup (map kx l) -> (forall x p, In x l -> f x = Ok p -> NoDup (map lab p) /\ forall s, In s p -> key (lab s) = kx x) ->
  NoDup (map lab (concat parts)) /\ forall s, In s (concat parts) -> exists x, In x l /\ key (lab s) = kx x.
Proof.
  revert parts. induction l as [|x l IH]; intros parts E N F; cbn [rmap] in E; [injection E as <-; split; [constructor|intros s []]|].
  destruct (f x) as [p|] eqn:P; [|discriminate]. cbn [bind] in E. destruct (rmap f l) as [ps|] eqn:Q; [|discriminate]. injection E as <-.
  cbn [map] in N. apply NoDup_cons_iff in N as (N1 & N2). destruct (IH ps eq_refl N2) as (A & B); [intros y q Hy; apply F; right; exact Hy|].
  destruct (F x p (or_introl eq_refl) P) as (C & D). cbn [concat]. rewrite map_app. split.
  - assert (Z : forall a, In a (map lab p) -> ~ In a (map lab (concat ps))).
    { intros a H1 H2. apply in_map_iff in H1 as (s & <- & Hs). apply in_map_iff in H2 as (t & E & Ht). destruct (B t Ht) as (y & Hy & Ky).
      rewrite E, (D s Hs) in Ky. apply N1. rewrite Ky. apply in_map. exact Hy. }
    clear - C A Z. revert C Z. generalize (map lab p). intros m. induction m as [|a m IH]; intros C Z; [exact A|]. apply NoDup_cons_iff in C as (C1 & C2). cbn. constructor.
    + intros H. apply in_app_or in H as [H|H]; [tauto|]. apply (Z a (or_introl eq_refl) H).
    + apply IH; [exact C2|]. intros b Hb. apply Z. right. exact Hb.
  - intros s Hs. apply in_app_or in Hs as [Hs|Hs]; [exists x; split; [left; reflexivity|apply D; exact Hs]|]. destruct (B s Hs) as (y & Hy & Ky). exists y. split; [right; exact Hy|exact Ky].
Qed.

Definition label (s : sector) : CR * R * R * R := (se_mz s, se_k s, se_spin s, se_space s).
Lemma ks_nodup n : (0 < n)%nat -> NoDup (zn_ks n).
Proof.
  intros Hn. unfold zn_ks. pose proof PI_RGT_0. assert (0 < INR n) by (apply lt_0_INR; exact Hn).
  assert (IJ : forall a b, 2 * PI * INR a / INR n = 2 * PI * INR b / INR n -> a = b).
  { intros a b E. apply INR_eq. apply (Rmult_eq_reg_l (2 * PI / INR n)); [|apply Rgt_not_eq; apply Rdiv_lt_0_compat; lra].
    transitivity (2 * PI * INR a / INR n); [field; lra|]. rewrite E. field. lra. }
  assert (W : forall l, NoDup l -> NoDup (map (fun k => 2 * PI * INR k / INR n) l)).
  { induction l as [|a l IH]; intros N; [constructor|]. apply NoDup_cons_iff in N as (N1 & N2). cbn. constructor; [|apply IH; exact N2].
    intros H1. apply in_map_iff in H1 as (b & E & Hb). apply IJ in E. subst b. contradiction. }
  apply W, seq_NoDup.
Qed.
Lemma parity_nodup : NoDup (map parity (zn_ks 2)).
Proof.
  unfold zn_ks. cbn [seq map]. unfold parity. replace (2 * PI * INR 0 / INR 2) with 0 by (cbn; field). replace (2 * PI * INR 1 / INR 2) with PI by (cbn; field).
  rewrite cos_0, cos_PI. constructor; [intros [H|[]]; lra|]. constructor; [intros []|constructor].
Qed.
Lemma parity_combine {A} (l : list A) : NoDup (map (fun x => parity (snd x)) (combine l (zn_ks 2))).
Proof.
  assert (E : map (fun x : A * R => parity (snd x)) (combine l (zn_ks 2)) = map parity (firstn (length l) (zn_ks 2))) by (rewrite <- snd_combine, map_map; reflexivity).
  rewrite E. pose proof parity_nodup as N. rewrite <- (firstn_skipn (length l) (zn_ks 2)), map_app in N. revert N. generalize (map parity (skipn (length l) (zn_ks 2))). intros m.
  generalize (map parity (firstn (length l) (zn_ks 2))). induction l0 as [|a l0 IH]; intros N; [constructor|]. apply NoDup_cons_iff in N as (N1 & N2). constructor; [intros H; apply N1, in_or_app; left; exact H|apply IH; exact N2].
Qed.

Section Svd.
  Variable svd : cmat -> cmat.
  Lemma inversion_labels inv C mz k spin ss : by_inversion svd inv C mz k spin = Ok ss ->
    NoDup (map label ss) /\ forall s, In s ss -> se_mz s = mz /\ se_k s = k /\ se_spin s = spin.
  Proof.
    unfold by_inversion. destruct (nrow C =? 0)%nat; [intros [= <-]; split; [constructor|intros s []]|]. destruct (at_rest k).
    - destruct (zn_projectors svd _ 2) as [qs|]; [|discriminate]. cbn [bind]. intros [= <-]. split.
      + assert (W : forall (f : sector -> bool) l, NoDup (map label l) -> NoDup (map label (filter f l))).
        { intros f l. induction l as [|a l IH]; intros N; [constructor|]. cbn in *. apply NoDup_cons_iff in N as (N1 & N2). destruct (f a); [|apply IH; exact N2]. cbn. constructor; [|apply IH; exact N2].
          intros H. apply N1. apply in_map_iff in H as (b & E & Hb). apply filter_In in Hb as (Hb & _). rewrite <- E. apply in_map. exact Hb. }
        apply W. rewrite map_map. unfold label. cbn [se_mz se_k se_spin se_space].
        pose proof (parity_combine qs) as N. revert N. generalize (combine qs (zn_ks 2)). induction l as [|a l IH]; intros N; [constructor|]. cbn in *. apply NoDup_cons_iff in N as (N1 & N2). constructor; [|apply IH; exact N2].
        intros H. apply N1. apply in_map_iff in H as (b & E & Hb). injection E as E. rewrite <- E. apply (in_map (fun x => parity (snd x))). exact Hb.
      + intros s Hs. apply filter_In in Hs as (Hs & _). apply in_map_iff in Hs as (x & <- & _). repeat split.
    - intros [= <-]. split; [cbn; constructor; [intros []|constructor]|]. intros s [<-|[]]. repeat split.
  Qed.
  Lemma flip_labels flip inv C mz k ss : by_flip svd flip inv C mz k = Ok ss -> NoDup (map label ss) /\ forall s, In s ss -> se_mz s = mz /\ se_k s = k.
  Proof.
    unfold by_flip. destruct (keq_dec mz k0).
    - destruct (zn_projectors svd _ 2) as [qs|]; [|discriminate]. cbn [bind]. destruct (rmap _ _) as [parts|] eqn:E; [|discriminate]. cbn [bind]. intros [= <-].
      split.
      + apply (parts_nodup _ label (fun x => snd (fst x)) (fun x => parity (snd x)) _ _ E (parity_combine qs)). intros x p _ P. apply inversion_labels in P as (P1 & P2). split; [exact P1|]. intros s Hs. apply (P2 s Hs).
      + intros s Hs. clear - E Hs. revert parts E Hs. induction (combine qs (zn_ks 2)) as [|x l IH]; intros parts E Hs; cbn [rmap] in E; [injection E as <-; destruct Hs|].
        destruct (by_inversion _ _ _ _ _ _) as [p|] eqn:P in E; [|discriminate]. cbn [bind] in E. destruct (rmap _ l) as [ps|]; [|discriminate]. injection E as <-.
        cbn [concat] in Hs. apply in_app_or in Hs as [Hs|Hs]; [apply inversion_labels in P as (_ & P2); destruct (P2 s Hs) as (A & B & _); split; assumption|apply (IH ps eq_refl Hs)].
    - intros P. apply inversion_labels in P as (P1 & P2). split; [exact P1|]. intros s Hs. destruct (P2 s Hs) as (A & B & _). split; assumption.
  Qed.
  Lemma momentum_labels tx flip inv n p mz ss : (0 < n)%nat -> by_momentum svd tx flip inv n p mz = Ok ss -> NoDup (map label ss) /\ forall s, In s ss -> se_mz s = mz.
  Proof.
    intros Hn. unfold by_momentum. destruct (zn_projectors svd _ n) as [qs|]; [|discriminate]. cbn [bind]. destruct (rmap _ _) as [parts|] eqn:E; [|discriminate]. cbn [bind]. intros [= <-].
    split.
    - apply (parts_nodup _ label (fun x => snd (fst (fst x))) snd _ _ E (nodup_combine qs _ (ks_nodup n Hn))). intros x q _ P. apply flip_labels in P as (P1 & P2). split; [exact P1|]. intros s Hs. apply (P2 s Hs).
    - intros s Hs. clear - E Hs. revert parts E Hs. induction (combine qs (zn_ks n)) as [|x l IH]; intros parts E Hs; cbn [rmap] in E; [injection E as <-; destruct Hs|].
      destruct (by_flip _ _ _ _ _ _) as [q|] eqn:P in E; [|discriminate]. cbn [bind] in E. destruct (rmap _ l) as [ps|]; [|discriminate]. injection E as <-.
      cbn [concat] in Hs. apply in_app_or in Hs as [Hs|Hs]; [apply flip_labels in P as (_ & P2); apply (P2 s Hs)|apply (IH ps eq_refl Hs)].
  Qed.
  Theorem labels_distinct N n Sz T F I ss : (0 < n)%nat -> diagonal_mat N Sz -> chain_sectors svd Sz T F I n = Ok ss ->
    NoDup (map (fun s => (se_mz s, se_k s, se_spin s, se_space s)) ss).
  Proof.
    intros Hn DS. unfold chain_sectors. destruct (projs_spec N Sz None DS) as (ps & vs & E & HL & _ & HV & _). destruct (HV eq_refl) as (ND & _). rewrite E. cbn [bind fst snd].
    destruct (rmap _ _) as [parts|] eqn:P; [|discriminate]. cbn [bind]. intros [= <-].
    apply (parts_nodup _ label (fun x => fst (fst (fst x))) snd _ _ P (nodup_combine ps vs ND)). intros x q _ Q. apply momentum_labels in Q as (Q1 & Q2); [|exact Hn]. split; [exact Q1|]. intros s Hs. apply (Q2 s Hs).
  Qed.
End Svd.
