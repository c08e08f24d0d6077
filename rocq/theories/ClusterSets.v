(** Connected sets grow one site at a time. *)
From Coq Require Import List Arith Lia ZArith Permutation Bool.
From Verif Require Import SpecCluster.
Import ListNotations.

Section Grow.
  Context {A : Type} (dec : forall a b : A, {a = b} + {a <> b}) (adj : A -> A -> Prop).

  Lemma walk_in S p q : walk adj S p q -> In p S /\ In q S.
  Proof. induction 1; tauto. Qed.
  Lemma walk_incl S T p q : incl S T -> walk adj S p q -> walk adj T p q.
  Proof. intros HI. induction 1; [apply walk_stay|eapply walk_step]; eauto. Qed.
  Lemma walk_trans S p q r : walk adj S p q -> walk adj S q r -> walk adj S p r.
  Proof. induction 1; intros H'; [assumption|]. eapply walk_step; eauto. Qed.
  Lemma walk_sym S p q : (forall a b, adj a b -> adj b a) -> walk adj S p q -> walk adj S q p.
  Proof.
    intros Hs. induction 1 as [p Hp|p q r Hp Ha Hw IH]; [apply walk_stay; assumption|].
    eapply walk_trans; [exact IH|]. eapply walk_step; [exact (proj1 (walk_in _ _ _ Hw))|apply Hs; exact Ha|].
    apply walk_stay. assumption.
  Qed.

  (** A walk which leaves [T] crosses its boundary. *)
  Lemma crossing S T p q : walk adj S p q -> In p T -> ~ In q T ->
    exists a b, In a T /\ In b S /\ ~ In b T /\ adj a b.
  Proof.
    induction 1 as [p Hp|p q r Hp Ha Hw IH]; intros H1 H2; [contradiction|].
    destruct (in_dec dec q T) as [Hq|Hq]; [apply IH; assumption|].
    exists p, q. repeat split; try assumption. exact (proj1 (walk_in _ _ _ Hw)).
  Qed.

  Lemma connected_add S p q : (forall a b, adj a b -> adj b a) -> connected adj S -> In p S -> adj p q -> ~ In q S ->
    connected adj (S ++ [q]).
  Proof.
    intros Hs (H0 & Hnd & Hw) Hp Ha Hq. split; [destruct S; discriminate|]. split.
    - apply (Permutation_NoDup (l := q :: S)); [apply Permutation_cons_append|constructor; assumption].
    - assert (Hinc : incl S (S ++ [q])) by (intros x Hx; apply in_or_app; left; exact Hx).
      assert (Hqq : In q (S ++ [q])) by (apply in_or_app; right; left; reflexivity).
      assert (Hto : forall a, In a S -> walk adj (S ++ [q]) a q).
      { intros a Ha'. eapply walk_trans; [apply (walk_incl S); [exact Hinc|apply Hw; [exact Ha'|exact Hp]]|].
        eapply walk_step; [apply Hinc; exact Hp|exact Ha|]. apply walk_stay. exact Hqq. }
      intros a b Ha' Hb'. apply in_app_or in Ha', Hb'. destruct Ha' as [Ha'|[<-|[]]]; destruct Hb' as [Hb'|[<-|[]]].
      + apply (walk_incl S); auto.
      + apply Hto. assumption.
      + apply walk_sym; [exact Hs|]. apply Hto. assumption.
      + apply walk_stay. assumption.
  Qed.

  Lemma connected_same S T : same_set S T -> NoDup T -> connected adj S -> connected adj T.
  Proof.
    intros HS HT (H0 & Hnd & Hw). split; [|split; [assumption|]].
    - intros ->. destruct S as [|a S]; [congruence|]. destruct (proj1 (HS a)). left; reflexivity.
    - intros p q Hp Hq. apply (walk_incl S). { intros x. apply HS. } apply Hw; apply HS; assumption.
  Qed.

  (** A connected part can be enlarged inside a connected set. *)
  Lemma grow_one S T : (forall a b, adj a b -> adj b a) -> connected adj S -> connected adj T -> proper_part T S ->
    exists a b, In a T /\ In b S /\ ~ In b T /\ adj a b /\ connected adj (T ++ [b]).
  Proof.
    intros Hs HS HT [Hi Hn]. destruct HT as (T0 & Tn & Tw).
    assert (Hex : exists q, In q S /\ ~ In q T).
    { clear - Hn dec. assert (HH : forall l, ~ incl l T -> exists q, In q l /\ ~ In q T).
      { induction l as [|x l IH]; intros H; [exfalso; apply H; intros y []|].
        destruct (in_dec dec x T) as [Hx|Hx]; [|exists x; split; [left; reflexivity|assumption]].
        destruct IH as (q & Hq & Hq'); [intros Hl; apply H; intros y [<-|Hy]; auto|]. exists q. split; [right|]; assumption. }
      apply HH. exact Hn. }
    destruct Hex as (q & Hq & Hq'). destruct T as [|p T]; [congruence|].
    destruct (crossing S (p :: T) p q) as (a & b & Ha & Hb & Hb' & Hab).
    - destruct HS as (_ & _ & Hw). apply Hw; [apply Hi; left; reflexivity|assumption].
    - left; reflexivity.
    - assumption.
    - exists a, b. repeat split; try assumption.
      + destruct T; discriminate.
      + apply (Permutation_NoDup (l := b :: p :: T)); [apply Permutation_cons_append|constructor; assumption].
      + apply (connected_add (p :: T) a b Hs); [split; [discriminate|split; assumption]|assumption..].
  Qed.

  Lemma grow_to S T k : (forall a b, adj a b -> adj b a) -> connected adj S -> connected adj T -> incl T S ->
    length T <= k <= length S -> exists T', connected adj T' /\ incl T T' /\ incl T' S /\ length T' = k.
  Proof.
    intros Hs HS HT Hi [H1 H2]. replace k with (length T + (k - length T)) in H2 |- * by lia.
    generalize (k - length T), H2. clear k H1 H2. intros d. revert T HT Hi. induction d as [|d IH]; intros T HT Hi Hd.
    - exists T. rewrite Nat.add_0_r. repeat split; auto; try apply HT. intros x; auto.
    - destruct (grow_one S T Hs HS HT) as (a & b & Ha & Hb & Hb' & Hab & HT').
      + split; [assumption|]. intros H. pose proof (NoDup_incl_length (proj1 (proj2 HS)) H). lia.
      + destruct (IH (T ++ [b])) as (T' & C1 & C2 & C3 & C4).
        * exact HT'.
        * intros x Hx. apply in_app_or in Hx as [Hx|[<-|[]]]; auto.
        * rewrite app_length. simpl. lia.
        * exists T'. split; [exact C1|]. split; [intros x Hx; apply C2, in_or_app; left; exact Hx|]. split; [exact C3|].
          rewrite C4, app_length. simpl. lia.
  Qed.

  Lemma connected_one p : connected adj [p].
  Proof.
    split; [discriminate|]. split; [constructor; [intros []|constructor]|].
    intros a b [<-|[]] [<-|[]]. apply walk_stay. left; reflexivity.
  Qed.

  (** A site can be taken away (from around a given connected part). *)
  Lemma shrink S T : (forall a b, adj a b -> adj b a) -> connected adj S -> connected adj T -> proper_part T S ->
    exists S' a b, connected adj S' /\ incl T S' /\ In a S' /\ ~ In b S' /\ adj a b /\ Permutation S (S' ++ [b]).
  Proof.
    intros Hs HS HT [Hi Hn].
    assert (Hlt : length T < length S).
    { destruct (le_lt_dec (length S) (length T)) as [Hl|Hl]; [|assumption]. exfalso. apply Hn.
      apply NoDup_length_incl; [apply HT|assumption..]. }
    destruct (grow_to S T (length S - 1) Hs HS HT Hi) as (S' & C1 & C2 & C3 & C4); [lia|].
    destruct (grow_one S S' Hs HS C1) as (a & b & Ha & Hb & Hb' & Hab & HC).
    - split; [assumption|]. intros H. pose proof (NoDup_incl_length (proj1 (proj2 HS)) H). lia.
    - exists S', a, b. split; [exact C1|]. split; [exact C2|]. split; [exact Ha|]. split; [exact Hb'|]. split; [exact Hab|].
      symmetry. apply NoDup_Permutation_bis.
      + apply HC.
      + rewrite app_length. simpl. lia.
      + intros x Hx. apply in_app_or in Hx as [Hx|[<-|[]]]; auto.
  Qed.
End Grow.
