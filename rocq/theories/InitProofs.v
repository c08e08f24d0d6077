(** Lemmas about the constructor of the fermion class. *)
From Coq Require Import List Arith Lia Bool QArith.
From Verif Require Import Scalars Res Matrix ModelBase ModelFermions OpsProofs.
Import ListNotations.
Local Open Scope nat_scope.

Lemma list_nat_eqb_eq a b : list_nat_eqb a b = true <-> a = b.
Proof.
  revert b. induction a as [|x a IH]; destruct b as [|y b]; cbn; split; intros H; try congruence; try discriminate.
  - apply andb_true_iff in H as [H1 H2]. apply Nat.eqb_eq in H1. apply IH in H2. congruence.
  - inversion H; subst. rewrite Nat.eqb_refl. apply IH. reflexivity.
Qed.

Section Init.
  Context {K : Type} {SR : StarRing K}.
  Add Ring KringI : (@k_ring K SR).

  Lemma kneb_false (a b : K) : kneb a b = false <-> a = b.
  Proof. unfold kneb. destruct (keq_dec a b); split; congruence. Qed.

  Lemma kre_conj (x : K) : kre (kconj x) = kre x.
  Proof. unfold kre. rewrite kconj_inv. ring. Qed.

  Lemma kb_conj b : kconj (kb b : K) = kb b.
  Proof. destruct b; cbn; [apply kconj_1|apply kconj_0]. Qed.

  Lemma hopping_mat_ok (g : fgeom K) m (t : nd K) :
    (forall i j, fg_phase g j i = kconj (fg_phase g i j)) -> (forall i j, fg_adj g j i = fg_adj g i j) ->
    (forall k, kconj (flat t k) = flat t k) ->
    hopping_mat g m t = Ok (fun i j k => kre (kmul (if nd_size t =? 1 then flat t 0 else flat t k)
                                               (kmul (kb (fg_adj g i j)) (fg_phase g i j)))).
  Proof.
    intros Hp Ha Ht. unfold hopping_mat.
    match goal with |- (if ?b then _ else _) = _ => assert (E : b = true) end.
    { apply forallb_forall. intros k _. apply forallb_forall. intros i _. apply forallb_forall. intros j _.
      apply negb_true_iff, kneb_false. rewrite kre_real, (Hp i j), (Ha i j). rewrite <- kre_conj.
      rewrite !kconj_mul, kb_conj. f_equal. destruct (nd_size t =? 1); rewrite Ht; reflexivity. }
    rewrite E. reflexivity.
  Qed.

  Lemma twist_real (g : fgeom K) m (ts : nd K) :
    (forall i j, fg_phase g j i = kconj (fg_phase g i j)) -> (forall i j, fg_adj g j i = fg_adj g i j) ->
    nd_size ts = 1 \/ nd_size ts = m -> (forall k, kconj (flat ts k) = flat ts k) ->
    exists h, init_ts g m ts = Ok h /\
      forall i j k, let t := if nd_size ts =? 1 then flat ts 0 else flat ts k in
        (fg_adj g i j = false -> h i j k = k0) /\
        (fg_adj g i j = true -> kconj (kmul t (fg_phase g i j)) = kmul t (fg_phase g i j) ->
           h i j k = kmul t (fg_phase g i j)).
  Proof.
    intros Hp Ha Hs Ht. eexists. split.
    - unfold init_ts.
      assert (E : (nd_size ts =? m) || (nd_size ts =? 1) = true)
        by (destruct Hs as [->| ->]; rewrite Nat.eqb_refl; auto using orb_true_r).
      rewrite E. apply hopping_mat_ok; assumption.
    - intros i j k t. cbn beta. fold t. split; intros A.
      + rewrite A. unfold kb. replace (kmul t (kmul k0 (fg_phase g i j))) with (k0 : K) by ring.
        apply kre_of_real, kconj_0.
      + intros R. rewrite A. unfold kb. replace (kmul t (kmul k1 (fg_phase g i j))) with (kmul t (fg_phase g i j)) by ring.
        apply kre_of_real, R.
  Qed.

  (** ** Potentials *)
  Lemma assign_loop n (v : nat -> K) (Hn : n <> 0) : forall l p, (forall x, In x l -> x < n) ->
    exists p', rfold (fun p ii => assign_row n n p ii (v ii)) l p = Ok p' /\
      forall i k, (In i l -> p' i k = v i) /\ (~ In i l -> p' i k = p i k).
  Proof.
    induction l as [|x l IH]; intros p Hl.
    - exists p. split; [reflexivity|]. intros i k. split; [intros []|reflexivity].
    - cbn [rfold]. unfold assign_row at 1.
      rewrite (proj2 (Nat.leb_gt n x)) by (apply Hl; left; reflexivity). rewrite Nat.eqb_refl. cbn [orb bind].
      destruct (IH (fun i k => if i =? x then v x else p i k)) as (p' & E & F).
      { intros y Hy. apply Hl. right. assumption. }
      exists p'. split; [exact E|]. intros i k. destruct (F i k) as [F1 F2]. split.
      + intros [->|Hi]; [|auto]. destruct (in_dec Nat.eq_dec i l) as [Hi|Hi]; [auto|].
        rewrite F2 by assumption. rewrite Nat.eqb_refl. reflexivity.
      + intros Hi. rewrite F2 by (intros C; apply Hi; right; assumption).
        destruct (Nat.eqb_spec i x); [|reflexivity]. exfalso. apply Hi. left. congruence.
  Qed.

  Lemma per_species_potential (g : fgeom K) m (pot : nd K) :
    2 <= m -> nd_size pot = m ->
    (fg_nsites g <> m -> exists e, init_pot g m pot = Raise e) /\
    (fg_nsites g = m -> exists p, init_pot g m pot = Ok p /\ forall i k, i < m -> p i k = flat pot i).
  Proof.
    intros Hm Hs. unfold init_pot. rewrite Hs, (proj2 (Nat.eqb_neq m 1)) by lia. rewrite Nat.eqb_refl.
    split; intros Hn.
    - destruct m as [|[|m]]; try lia. cbn [seq rfold]. unfold assign_row.
      destruct (Nat.leb_spec (fg_nsites g) 0); [eexists; reflexivity|].
      rewrite (proj2 (Nat.eqb_neq (fg_nsites g) (S (S m)))) by assumption. cbn [orb].
      destruct (Nat.eqb_spec (fg_nsites g) 1) as [E|E]; [|eexists; reflexivity].
      rewrite E. cbn. eexists; reflexivity.
    - rewrite Hn. destruct (assign_loop m (flat pot) ltac:(lia) (seq 0 m) (fun _ _ => k0)) as (p & E & F).
      { intros x Hx. apply in_seq in Hx. lia. }
      exists p. split; [exact E|]. intros i k Hi. apply F, in_seq. lia.
  Qed.

  (** ** Dispatch on the argument shapes *)
  Lemma kre_0 : kre k0 = k0 :> K.
  Proof. apply kre_of_real. apply kconj_0. Qed.

  Lemma shape_dispatch (g : fgeom K) us ts ns mus pot same m f :
    let n := fg_nsites g in
    fermions_init g us ts ns mus pot same m = Ok f ->
    ((nd_size ts = 1 \/ nd_size ts = m) /\
   (forall i j k, f_ts f i j k =
      if fg_adj g i j then kre (kmul (flat ts (if nd_size ts =? 1 then 0 else k)) (fg_phase g i j)) else k0) \/
     (nd_size ts <> 1 /\ nd_size ts <> m /\ (shape ts = [n; n; m] \/ (shape ts = [n; n] /\ m = 1)) /\
      forall i j k, f_ts f i j k = flat ts ((i * n + j) * m + k))) /\
    ((nd_size us = 1 /\ forall i, f_us f i = flat us 0) \/ (nd_size us = n /\ forall i, f_us f i = flat us i)) /\
    ((nd_size same = 1 \/ nd_size same = m) /\
   (forall i j k, f_same f i j k =
      if fg_adj g i j then kre (flat same (if nd_size same =? 1 then 0 else k)) else k0) \/
     (nd_size same <> 1 /\ nd_size same <> m /\ (shape same = [n; n; m] \/ (shape same = [n; n] /\ m = 1)) /\
      forall i j k, f_same f i j k = flat same ((i * n + j) * m + k))) /\
    ((nd_size mus = 1 /\ forall k, f_mus f k = flat mus 0) \/ (nd_size mus = m /\ forall k, f_mus f k = flat mus k)) /\
    ((nd_size pot = 1 /\ forall i k, f_pot f i k = flat pot 0) \/ nd_size pot = m \/
     (shape pot = [n; m] /\ forall i k, f_pot f i k = flat pot (i * m + k)) \/
     (shape pot = [n] /\ m = 1 /\ forall i, f_pot f i 0 = flat pot i)) /\
    match ns with Some l => length l = m | None => True end.
  Proof.
    intros n H. unfold fermions_init in H.
    apply bind_ok in H as (t' & Ht & H). apply bind_ok in H as (u' & Hu & H). apply bind_ok in H as (s' & Hs & H).
    apply bind_ok in H as (m' & Hm & H). apply bind_ok in H as (p' & Hp & H). apply bind_ok in H as (P & HP & H).
    inversion H; subst f; clear H. cbn [f_ts f_us f_same f_mus f_pot].
    splits.
    - unfold init_ts in Ht. fold n in Ht.
      assert (HM : hopping_mat g m ts = Ok t' -> forall i j k, t' i j k =
        if fg_adj g i j then kre (kmul (flat ts (if nd_size ts =? 1 then 0 else k)) (fg_phase g i j)) else k0).
      { unfold hopping_mat. destruct (forallb _ _); [|discriminate]. intros E i j k. injection E as <-.
        destruct (fg_adj g i j); cbn [kb].
        - f_equal. destruct (nd_size ts =? 1); ring.
        - etransitivity; [|exact kre_0]. f_equal. ring. }
      destruct (Nat.eqb_spec (nd_size ts) m) as [A|A]; [left; auto|].
      destruct (nd_size ts =? 1) eqn:B0; [apply Nat.eqb_eq in B0; left; auto|]. apply Nat.eqb_neq in B0. rename B0 into B.
      cbn [orb] in Ht. right. splits; auto.
      + destruct (list_nat_eqb (shape ts) [n; n; m]) eqn:E; [left; apply list_nat_eqb_eq, E|].
        destruct (list_nat_eqb (shape ts) [n; n]) eqn:E2; [|discriminate].
        right. split; [apply list_nat_eqb_eq, E2|]. destruct (Nat.eqb_spec m 1); [assumption|discriminate].
      + destruct (list_nat_eqb (shape ts) [n; n; m]); [inversion Ht; reflexivity|].
        destruct (list_nat_eqb (shape ts) [n; n]); [|discriminate].
        destruct (Nat.eqb_spec m 1) as [->|]; [|discriminate]. inversion Ht; reflexivity.
    - unfold init_us in Hu. fold n in Hu. destruct (Nat.eqb_spec (nd_size us) 1); [left; inversion Hu; auto|].
      destruct (Nat.eqb_spec (nd_size us) n); [right; inversion Hu; auto|discriminate].
    - unfold init_same in Hs. fold n in Hs.
      assert (SM : Ok (samespecies_int_mat g m same) = Ok s' -> forall i j k, s' i j k =
        if fg_adj g i j then kre (flat same (if nd_size same =? 1 then 0 else k)) else k0).
      { intros E i j k. injection E as <-. unfold samespecies_int_mat. destruct (fg_adj g i j); cbn [kb].
        - f_equal. destruct (nd_size same =? 1); ring.
        - etransitivity; [|exact kre_0]. f_equal. ring. }
      destruct (nd_size same =? 1) eqn:B0; [apply Nat.eqb_eq in B0; left; auto|]. apply Nat.eqb_neq in B0. rename B0 into B.
      destruct (Nat.eqb_spec (nd_size same) m) as [A|A]; [left; auto|].
      cbn [orb] in Hs. right. splits; auto.
      + destruct (list_nat_eqb (shape same) [n; n; m]) eqn:E; [left; apply list_nat_eqb_eq, E|].
        destruct (list_nat_eqb (shape same) [n; n]) eqn:E2; [|discriminate].
        right. split; [apply list_nat_eqb_eq, E2|]. destruct (Nat.eqb_spec m 1); [assumption|discriminate].
      + destruct (list_nat_eqb (shape same) [n; n; m]); [inversion Hs; reflexivity|].
        destruct (list_nat_eqb (shape same) [n; n]); [|discriminate].
        destruct (Nat.eqb_spec m 1) as [->|]; [|discriminate]. inversion Hs; reflexivity.
    - unfold init_mus in Hm. destruct (Nat.eqb_spec (nd_size mus) 1); [left; inversion Hm; auto|].
      destruct (Nat.eqb_spec (nd_size mus) m); [right; inversion Hm; auto|discriminate].
    - unfold init_pot in Hp. fold n in Hp. destruct (Nat.eqb_spec (nd_size pot) 1); [left; inversion Hp; auto|].
      destruct (Nat.eqb_spec (nd_size pot) m); [auto|].
      destruct (list_nat_eqb (shape pot) [n; m]) eqn:E.
      { right. right. left. split; [apply list_nat_eqb_eq, E|]. inversion Hp; reflexivity. }
      destruct (list_nat_eqb (shape pot) [n]) eqn:E2; [|discriminate].
      destruct (Nat.eqb_spec m 1); [|discriminate]. right. right. right. splits; auto; [apply list_nat_eqb_eq, E2|].
      inversion Hp; reflexivity.
    - destruct ns as [l|]; [|exact I]. unfold n_projector in HP. cbn [fsys s_nspecies] in HP.
      destruct (Nat.eqb_spec (length l) m); [assumption|discriminate].
  Qed.

  Lemma accepts (g : fgeom K) us ts mus pot same m :
    let n := fg_nsites g in
    (nd_size ts <> 1 -> nd_size ts <> m -> shape ts = [n; n; m] \/ (shape ts = [n; n] /\ m = 1)) ->
    (nd_size ts = 1 \/ nd_size ts = m ->
       (forall k, kconj (flat ts k) = flat ts k) /\
       (forall i j, fg_phase g j i = kconj (fg_phase g i j)) /\ (forall i j, fg_adj g j i = fg_adj g i j)) ->
    nd_size us = 1 \/ nd_size us = n ->
    nd_size same = 1 \/ nd_size same = m \/ shape same = [n; n; m] \/ (shape same = [n; n] /\ m = 1) ->
    nd_size mus = 1 \/ nd_size mus = m ->
    nd_size pot = 1 \/ (nd_size pot <> m /\ shape pot = [n; m]) ->
    exists f, fermions_init g us ts None mus pot same m = Ok f /\ f_geom f = g /\ f_nspecies f = m.
  Proof.
    intros n Ht Ht' Hu Hs Hm Hp. unfold fermions_init.
    assert (T : exists h, init_ts g m ts = Ok h).
    { destruct (Nat.eq_dec (nd_size ts) 1) as [A|A].
      { destruct (Ht' (or_introl A)) as (R & P & S). destruct (twist_real g m ts) as (h & E & _); eauto. }
      destruct (Nat.eq_dec (nd_size ts) m) as [B|B].
      { destruct (Ht' (or_intror B)) as (R & P & S). destruct (twist_real g m ts) as (h & E & _); eauto. }
      unfold init_ts. fold n. rewrite (proj2 (Nat.eqb_neq _ _) A), (proj2 (Nat.eqb_neq _ _) B). cbn [orb].
      destruct (Ht A B) as [E|[E ->]].
      - rewrite (proj2 (list_nat_eqb_eq _ _) E). eauto.
      - destruct (list_nat_eqb (shape ts) [n; n; 1]); [eauto|]. rewrite (proj2 (list_nat_eqb_eq _ _) E). cbn. eauto. }
    destruct T as (h & ->). cbn [bind].
    assert (U : exists u, init_us g us = Ok u).
    { unfold init_us. fold n. destruct (Nat.eqb_spec (nd_size us) 1); [eauto|].
      destruct (Nat.eqb_spec (nd_size us) n); [eauto|]. lia. }
    destruct U as (u & ->). cbn [bind].
    assert (S : exists h, init_same g m same = Ok h).
    { unfold init_same. fold n. destruct (Nat.eqb_spec (nd_size same) 1); [cbn; eauto|].
      destruct (Nat.eqb_spec (nd_size same) m); [cbn; eauto|]. cbn [orb].
      destruct Hs as [E|[E|[E|[E ->]]]]; try lia.
      - rewrite (proj2 (list_nat_eqb_eq _ _) E). eauto.
      - destruct (list_nat_eqb (shape same) [n; n; 1]); [eauto|]. rewrite (proj2 (list_nat_eqb_eq _ _) E). cbn. eauto. }
    destruct S as (s & ->). cbn [bind].
    assert (M : exists u, init_mus m mus = Ok u).
    { unfold init_mus. destruct (Nat.eqb_spec (nd_size mus) 1); [eauto|].
      destruct (Nat.eqb_spec (nd_size mus) m); [eauto|]. lia. }
    destruct M as (mm & ->). cbn [bind].
    assert (P : exists p, init_pot g m pot = Ok p).
    { unfold init_pot. fold n. destruct (Nat.eqb_spec (nd_size pot) 1); [eauto|].
      destruct Hp as [E|[A E]]; [lia|]. rewrite (proj2 (Nat.eqb_neq _ _) A), (proj2 (list_nat_eqb_eq _ _) E). eauto. }
    destruct P as (p & ->). cbn [bind n_projector]. eexists. splits; reflexivity.
  Qed.
End Init.
