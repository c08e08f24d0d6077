(** Proofs about the operator builders of ModelBase. *)
From Coq Require Import List Arith Lia Bool QArith Setoid Morphisms Ring.
From Verif Require Import Scalars Res Matrix ModelBase SpecFock.
Import ListNotations.
Local Open Scope nat_scope.
Arguments Nat.div : simpl never.
Arguments Nat.modulo : simpl never.
Arguments Nat.pow : simpl never.

(** ** Index arithmetic *)
Lemma spinful_lt site n ns spin : site < n -> spin < ns -> spinful2spinless site n spin < n * ns.
Proof. unfold spinful2spinless. intros. nia. Qed.

Lemma spinless_spinful site n spin :
  site < n -> spinless2spinful (spinful2spinless site n spin) n = (site, spin).
Proof.
  intros H. unfold spinless2spinful, spinful2spinless.
  assert (E : (n * spin + site) mod n = site).
  { rewrite Nat.add_comm, Nat.mul_comm, Nat.mod_add by lia. apply Nat.mod_small; lia. }
  rewrite E. f_equal. replace (n * spin + site - site) with (spin * n) by lia.
  apply Nat.div_mul. lia.
Qed.

Lemma spinful_spinless idx n :
  n <> 0 -> let (site, spin) := spinless2spinful idx n in
  site < n /\ spinful2spinless site n spin = idx.
Proof.
  intros H. unfold spinless2spinful, spinful2spinless.
  assert (idx mod n < n) by (apply Nat.mod_upper_bound; lia). split; [assumption|].
  pose proof (Nat.div_mod idx n H). pose proof (Nat.mod_le idx n H).
  replace (idx - idx mod n) with (idx / n * n) by lia.
  rewrite Nat.div_mul by lia. lia.
Qed.

Lemma spinless_species_lt idx n ns :
  idx < n * ns -> snd (spinless2spinful idx n) < ns.
Proof.
  intros H. unfold spinless2spinful. simpl. assert (n <> 0) by nia.
  apply Nat.div_lt_upper_bound; [lia|]. pose proof (Nat.mod_le idx n H0). lia.
Qed.

Ltac splits := repeat match goal with |- _ /\ _ => split end.

Section Ops.
  Context {K : Type} {SR : StarRing K}.
  Add Ring Kring2 : (@k_ring K SR).

  Lemma parity_square : square 2 (parity_op (K:=K)).
  Proof. split; reflexivity. Qed.

  Lemma parity_sq : meq (mmul (parity_op (K:=K)) parity_op) (meye 2).
  Proof.
    repeat split. intros i j Hi Hj. cbn in Hi, Hj.
    destruct i as [|[|i]]; [| |lia]; (destruct j as [|[|j]]; [| |lia]); cbn; ring.
  Qed.

  Lemma parity_loop_chain n : meq (parity_loop (K:=K) n) (kchain (repeat parity_op n)).
  Proof.
    induction n as [|n IH]; simpl; [reflexivity|].
    rewrite IH.
    transitivity (kchain (repeat (parity_op (K:=K)) n ++ [parity_op])).
    - rewrite kchain_app, kchain_single. reflexivity.
    - replace (repeat parity_op n ++ [parity_op (K:=K)]) with (repeat (parity_op (K:=K)) (n + 1)).
      2:{ rewrite repeat_app. reflexivity. }
      rewrite Nat.add_1_r. reflexivity.
  Qed.

  (** The chain of factors of a single-site operator. *)
  Definition site_chain (nl q : nat) (op tail : mat K) : list (mat K) :=
    repeat (meye 2) q ++ op :: repeat tail (nl - q - 1).

  Lemma site_chain_length nl q op tail : q < nl -> length (site_chain nl q op tail) = nl.
  Proof. intros. unfold site_chain. rewrite app_length. simpl. rewrite !repeat_length. lia. Qed.

  Lemma Forall_repeat (P : mat K -> Prop) A n : P A -> Forall P (repeat A n).
  Proof. intros H. induction n; simpl; constructor; auto. Qed.

  Lemma eye_square d : square d (meye (K:=K) d).
  Proof. split; reflexivity. Qed.

  Lemma site_chain_square nl q op tail :
    square 2 op -> square 2 tail -> Forall (square 2) (site_chain nl q op tail).
  Proof.
    intros. apply Forall_app. split; [apply Forall_repeat, eye_square|].
    constructor; auto. apply Forall_repeat; auto.
  Qed.

  Definition fmt_tail (f : fmt) : mat K := match f with Fermion => parity_op | _ => meye 2 end.

  Lemma fmt_tail_square f : square 2 (fmt_tail f).
  Proof. destruct f; split; reflexivity. Qed.

  Lemma eye_pow_ok b a c : c < a -> eye_pow (K:=K) b a c = meye (b ^ (a - c - 1)).
  Proof. intros. unfold eye_pow. rewrite (proj2 (Nat.ltb_ge a (c + 1))) by lia. reflexivity. Qed.

  Definition two_state (s : sys) : Prop := s_nbasis s = 2.

  Lemma single_site_chain s site spc op f :
    two_state s -> f <> OtherFormat -> site < s_nsites s -> spc < s_nspecies s ->
    exists A, single_site_op s site spc op f = Ok A /\
      meq A (kchain (site_chain (nlog s) (spinful2spinless site (s_nsites s) spc) op (fmt_tail f))).
  Proof.
    intros Hb Hf Hs Hp.
    pose proof (spinful_lt site (s_nsites s) (s_nspecies s) spc Hs Hp) as Hq.
    change (s_nsites s * s_nspecies s) with (nlog s) in Hq.
    unfold single_site_op. rewrite Hb. set (q := spinful2spinless site (s_nsites s) spc) in *.
    assert (E : forall E', meq E' (kchain (repeat (fmt_tail f) (nlog s - q - 1))) ->
       meq (mkron (mkron (meye (2 ^ q)) op) E') (kchain (site_chain (nlog s) q op (fmt_tail f)))).
    { intros E' HE. unfold site_chain.
      rewrite kchain_app. simpl. rewrite <- mkron_assoc, kchain_eye, HE. reflexivity. }
    destruct f; [| |congruence]; simpl; eexists; split; try reflexivity; apply E.
    - apply parity_loop_chain.
    - rewrite eye_pow_ok by assumption. simpl. rewrite kchain_eye. reflexivity.
  Qed.

  (** The chain of factors of a two-site operator (sites [qa < qb]). *)
  Definition pair_chain (nl qa qb : nat) (opa mid opb : mat K) : list (mat K) :=
    repeat (meye 2) qa ++ opa :: (repeat mid (qb - qa - 1) ++ opb :: repeat (meye 2) (nl - qb - 1)).

  Lemma pair_chain_meq nl qa qb opa mid opb M :
    meq M (kchain (repeat mid (qb - qa - 1))) ->
    meq (mkron (mkron (mkron (meye (2 ^ qa)) opa) M) (mkron opb (meye (2 ^ (nl - qb - 1)))))
        (kchain (pair_chain nl qa qb opa mid opb)).
  Proof.
    intros HM. unfold pair_chain. rewrite kchain_app. simpl. rewrite kchain_app. simpl.
    rewrite !kchain_eye, HM, !mkron_assoc. reflexivity.
  Qed.

  (** Multiplying two single-site chains. *)
  Lemma site_chain_mul_lt nl qa qb A B T :
    qa < qb -> qb < nl -> square 2 A -> square 2 B -> square 2 T ->
    meq (mmul T T) (meye 2) ->
    meq (mmul (kchain (site_chain nl qa A T)) (kchain (site_chain nl qb B T)))
        (kchain (pair_chain nl qa qb A T (mmul T B))).
  Proof.
    intros Hab Hb HA HB HT HTT.
    rewrite (kchain_mul 2).
    2:{ rewrite !site_chain_length by lia. reflexivity. }
    2:{ apply site_chain_square; auto. }
    2:{ apply site_chain_square; auto. }
    apply kchain_meq. unfold site_chain, pair_chain.
    replace (nl - qa - 1) with ((qb - qa - 1) + (1 + (nl - qb - 1))) by lia.
    replace (repeat (meye 2) qb) with (repeat (meye (K:=K) 2) (qa + (1 + (qb - qa - 1)))) by (f_equal; lia).
    rewrite !repeat_app. simpl (repeat T 1). simpl (repeat (meye 2) 1).
    rewrite <- !app_assoc.
    rewrite zipmul_app by reflexivity. simpl app.
    simpl zipmul. rewrite zipmul_app by (rewrite !repeat_length; reflexivity).
    simpl zipmul. rewrite !zipmul_repeat.
    apply Forall2_app; [|constructor; [|apply Forall2_app; [|constructor]]].
    - apply Forall2_repeat. apply mmul_eye_l. reflexivity.
    - apply mmul_eye_r. apply HA.
    - apply Forall2_repeat. apply mmul_eye_r. apply HT.
    - reflexivity.
    - apply Forall2_repeat. exact HTT.
  Qed.

  Lemma site_chain_mul_gt nl qa qb A B T :
    qa < qb -> qb < nl -> square 2 A -> square 2 B -> square 2 T ->
    meq (mmul T T) (meye 2) ->
    meq (mmul (kchain (site_chain nl qb B T)) (kchain (site_chain nl qa A T)))
        (kchain (pair_chain nl qa qb A T (mmul B T))).
  Proof.
    intros Hab Hb HA HB HT HTT.
    rewrite (kchain_mul 2).
    2:{ rewrite !site_chain_length by lia. reflexivity. }
    2:{ apply site_chain_square; auto. }
    2:{ apply site_chain_square; auto. }
    apply kchain_meq. unfold site_chain, pair_chain.
    replace (nl - qa - 1) with ((qb - qa - 1) + (1 + (nl - qb - 1))) by lia.
    replace (repeat (meye 2) qb) with (repeat (meye (K:=K) 2) (qa + (1 + (qb - qa - 1)))) by (f_equal; lia).
    rewrite !repeat_app. simpl (repeat T 1). simpl (repeat (meye 2) 1).
    rewrite <- !app_assoc.
    rewrite zipmul_app by reflexivity. simpl app.
    simpl zipmul. rewrite zipmul_app by (rewrite !repeat_length; reflexivity).
    simpl zipmul. rewrite !zipmul_repeat.
    apply Forall2_app; [|constructor; [|apply Forall2_app; [|constructor]]].
    - apply Forall2_repeat. apply mmul_eye_l. reflexivity.
    - apply mmul_eye_l. apply HA.
    - apply Forall2_repeat. apply mmul_eye_l. apply HT.
    - reflexivity.
    - apply Forall2_repeat. exact HTT.
  Qed.

  Lemma site_chain_mul_same nl q A B T :
    q < nl -> square 2 A -> square 2 B -> square 2 T -> meq (mmul T T) (meye 2) ->
    meq (mmul (kchain (site_chain nl q A T)) (kchain (site_chain nl q B T)))
        (kchain (site_chain nl q (mmul A B) (meye 2))).
  Proof.
    intros Hb HA HB HT HTT.
    rewrite (kchain_mul 2).
    2:{ rewrite !site_chain_length by lia. reflexivity. }
    2:{ apply site_chain_square; auto. }
    2:{ apply site_chain_square; auto. }
    apply kchain_meq. unfold site_chain. rewrite zipmul_app by reflexivity. simpl zipmul.
    rewrite !zipmul_repeat. apply Forall2_app; [|constructor].
    - apply Forall2_repeat. apply mmul_eye_l. reflexivity.
    - reflexivity.
    - apply Forall2_repeat. exact HTT.
  Qed.

  Lemma fmt_tail_sq f : meq (mmul (fmt_tail f) (fmt_tail f)) (meye 2).
  Proof. destruct f; [apply parity_sq| |]; apply mmul_eye_l; reflexivity. Qed.

  Lemma mul_square n A B : square n A -> square n B -> square n (mmul (K:=K) A B).
  Proof. intros [] []. split; simpl; auto. Qed.

  Lemma cmul_ok n A B : square n A -> square n B -> cmul (K:=K) A B = Ok (mmul A B).
  Proof. intros [] []. unfold cmul. rewrite H0, H1, Nat.eqb_refl. reflexivity. Qed.

  Lemma site_chain_sq_kchain nl q A T : q < nl -> square 2 A -> square 2 T ->
    square (2 ^ nl) (kchain (site_chain nl q A T)).
  Proof.
    intros Hq HA HT. pose proof (kchain_dims 2 _ (site_chain_square nl q A T HA HT)) as [H1 H2].
    rewrite site_chain_length in * by assumption. split; assumption.
  Qed.

  (** C02 / C04: two-site operators are products of single-site operators. *)
  Lemma two_site_product s site1 sp1 site2 sp2 op1 op2 f :
    two_state s -> f <> OtherFormat ->
    site1 < s_nsites s -> sp1 < s_nspecies s -> site2 < s_nsites s -> sp2 < s_nspecies s ->
    square 2 op1 -> square 2 op2 ->
    exists T A B,
      two_site_op s site1 sp1 site2 sp2 op1 op2 f = Ok T /\
      single_site_op s site1 sp1 op1 f = Ok A /\
      single_site_op s site2 sp2 op2 f = Ok B /\
      square (nstates s) A /\ square (nstates s) B /\ meq T (mmul A B).
  Proof.
    intros Hb Hf H1 G1 H2 G2 Hop1 Hop2.
    destruct (single_site_chain s site1 sp1 op1 f Hb Hf H1 G1) as (A & EA & HA).
    destruct (single_site_chain s site2 sp2 op2 f Hb Hf H2 G2) as (B & EB & HB).
    pose proof (spinful_lt site1 (s_nsites s) (s_nspecies s) sp1 H1 G1) as Hq1.
    pose proof (spinful_lt site2 (s_nsites s) (s_nspecies s) sp2 H2 G2) as Hq2.
    change (s_nsites s * s_nspecies s) with (nlog s) in *.
    assert (Hns : nstates s = 2 ^ nlog s) by (unfold nstates; rewrite Hb; reflexivity).
    assert (SA : square (nstates s) A).
    { rewrite Hns. pose proof (site_chain_sq_kchain _ _ _ _ Hq1 Hop1 (fmt_tail_square f)) as [X Y].
      split; rewrite HA; assumption. }
    assert (SB : square (nstates s) B).
    { rewrite Hns. pose proof (site_chain_sq_kchain _ _ _ _ Hq2 Hop2 (fmt_tail_square f)) as [X Y].
      split; rewrite HB; assumption. }
    assert (PAB : meq (mmul A B) (mmul
       (kchain (site_chain (nlog s) (spinful2spinless site1 (s_nsites s) sp1) op1 (fmt_tail f)))
       (kchain (site_chain (nlog s) (spinful2spinless site2 (s_nsites s) sp2) op2 (fmt_tail f))))).
    { apply mmul_meq; auto. destruct SA, SB; congruence. }
    unfold two_site_op.
    set (q1 := spinful2spinless site1 (s_nsites s) sp1) in *.
    set (q2 := spinful2spinless site2 (s_nsites s) sp2) in *.
    destruct (Nat.eqb_spec q1 q2) as [Eq|Ne].
    - rewrite (cmul_ok 2) by assumption. simpl.
      destruct (single_site_chain s site1 sp1 (mmul op1 op2) Boson Hb) as (T & ET & HT); auto.
      { discriminate. }
      rewrite ET. exists T, A, B. splits; auto.
      rewrite HT, PAB. fold q1. rewrite <- Eq. simpl.
      symmetry. apply site_chain_mul_same; [assumption|assumption|assumption|apply fmt_tail_square|apply fmt_tail_sq].
    - destruct (Nat.eqb_spec q1 (Nat.min q1 q2)) as [Emin|Nmin].
      + assert (Hlt : q1 < q2) by lia.
        replace (Nat.min q1 q2) with q1 by lia. replace (Nat.max q1 q2) with q2 by lia.
        rewrite eye_pow_ok by assumption. rewrite Hb.
        destruct f; [| |congruence]; simpl.
        * rewrite (cmul_ok 2) by (assumption || apply parity_square). simpl.
          eexists _, A, B. splits; eauto.
          rewrite PAB, site_chain_mul_lt; auto using parity_square, parity_sq.
          apply pair_chain_meq. apply parity_loop_chain.
        * eexists _, A, B. splits; eauto.
          rewrite PAB. simpl fmt_tail.
          rewrite site_chain_mul_lt; auto using eye_square, (fmt_tail_sq Boson).
          rewrite pair_chain_meq with (mid := meye 2).
          2:{ symmetry. apply kchain_eye. }
          apply kchain_meq. apply Forall2_app; [apply Forall2_meq_refl|].
          constructor; [reflexivity|]. apply Forall2_app; [apply Forall2_meq_refl|].
          constructor; [|apply Forall2_meq_refl]. symmetry. apply mmul_eye_l, Hop2.
      + assert (Hlt : q2 < q1) by lia.
        replace (Nat.min q1 q2) with q2 by lia. replace (Nat.max q1 q2) with q1 by lia.
        rewrite eye_pow_ok by assumption. rewrite Hb.
        destruct f; [| |congruence]; simpl.
        * rewrite (cmul_ok 2) by (assumption || apply parity_square). simpl.
          eexists _, A, B. splits; eauto.
          rewrite PAB, site_chain_mul_gt; auto using parity_square, parity_sq.
          apply pair_chain_meq. apply parity_loop_chain.
        * eexists _, A, B. splits; eauto.
          rewrite PAB. simpl fmt_tail.
          rewrite site_chain_mul_gt; auto using eye_square, (fmt_tail_sq Boson).
          rewrite pair_chain_meq with (mid := meye 2).
          2:{ symmetry. apply kchain_eye. }
          apply kchain_meq. apply Forall2_app; [apply Forall2_meq_refl|].
          constructor; [reflexivity|]. apply Forall2_app; [apply Forall2_meq_refl|].
          constructor; [|apply Forall2_meq_refl]. symmetry. apply mmul_eye_r, Hop1.
  Qed.
End Ops.
