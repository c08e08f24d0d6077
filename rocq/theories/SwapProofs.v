(** Fermion swap operators and site-permutation operators. *)
From Coq Require Import List Arith Lia Bool QArith Setoid Morphisms Ring Ncring Ncring_tac.
From Verif Require Import Scalars Res Matrix ModelBase ModelFermions SpecFock SpecPerm OpsProofs SqMat
  CarAlgebra FockProofs FermiOps.
Import ListNotations.
Local Open Scope nat_scope.
Arguments Nat.div : simpl never.
Arguments Nat.modulo : simpl never.
Arguments Nat.pow : simpl never.

Notation tr := exchange (only parsing).

Section SqExtra.
  Context {K : Type} {SR : StarRing K} {N : nat}.
  Add Ring KringW0 : (@k_ring K SR).

  Lemma sadj_mul (A B : sq K N) : seqv (sadj (smul A B)) (smul (sadj B) (sadj A)).
  Proof.
    intros i j Hi Hj. unfold sadj, smul. rewrite ksum_conj. apply ksum_ext. intros.
    rewrite kconj_mul. ring.
  Qed.
  Lemma sadj_add (A B : sq K N) : seqv (sadj (sadd A B)) (sadd (sadj A) (sadj B)).
  Proof. intros i j Hi Hj. apply kconj_add. Qed.
  Lemma sadj_sub (A B : sq K N) : seqv (sadj (ssub A B)) (ssub (sadj A) (sadj B)).
  Proof. intros i j Hi Hj. apply kconj_sub. Qed.
  Lemma sadj_scale c (A : sq K N) : seqv (sadj (sscale c A)) (sscale (kconj c) (sadj A)).
  Proof. intros i j Hi Hj. apply kconj_mul. Qed.
  Lemma sadj_1 : seqv (sadj (s1 (K:=K) (N:=N))) s1.
  Proof. intros i j Hi Hj. unfold sadj, s1. rewrite kb_conj, Nat.eqb_sym. reflexivity. Qed.
  Lemma sadj_0 : seqv (sadj (s0 (K:=K) (N:=N))) s0.
  Proof. intros i j Hi Hj. apply kconj_0. Qed.
  Lemma sadj_inv (A : sq K N) : seqv (sadj (sadj A)) A.
  Proof. intros i j Hi Hj. apply kconj_inv. Qed.
  Lemma smul_assoc (A B C : sq K N) : seqv (smul (smul A B) C) (smul A (smul B C)).
  Proof. non_commutative_ring. Qed.
  Lemma smul_1_l (A : sq K N) : seqv (smul s1 A) A.
  Proof. non_commutative_ring. Qed.
  Lemma smul_1_r (A : sq K N) : seqv (smul A s1) A.
  Proof. non_commutative_ring. Qed.
  Lemma sscale_mul_l c (A B : sq K N) : seqv (smul (sscale c A) B) (sscale c (smul A B)).
  Proof. intros i j Hi Hj. unfold smul, sscale. rewrite <- ksum_mul_l. apply ksum_ext. intros. ring. Qed.
  Lemma sscale_mul_r c (A B : sq K N) : seqv (smul A (sscale c B)) (sscale c (smul A B)).
  Proof. intros i j Hi Hj. unfold smul, sscale. rewrite <- ksum_mul_l. apply ksum_ext. intros. ring. Qed.
  Lemma smul_add_l (A B C : sq K N) : seqv (smul (sadd A B) C) (sadd (smul A C) (smul B C)).
  Proof. non_commutative_ring. Qed.
  Lemma smul_add_r (A B C : sq K N) : seqv (smul C (sadd A B)) (sadd (smul C A) (smul C B)).
  Proof. non_commutative_ring. Qed.

  (** Vectors. *)
  Definition sapply (A : sq K N) (v : nat -> K) : nat -> K := fun i => ksum N (fun k => kmul (A i k) (v k)).
  Lemma sapply_ext (A B : sq K N) v w i : i < N -> seqv A B -> (forall j, j < N -> v j = w j) -> sapply A v i = sapply B w i.
  Proof. intros Hi H G. apply ksum_ext. intros k Hk. rewrite H, G by assumption. reflexivity. Qed.
  Lemma sapply_mul (A B : sq K N) v i : sapply (smul A B) v i = sapply A (sapply B v) i.
  Proof.
    unfold sapply, smul.
    rewrite (ksum_ext N _ (fun k => ksum N (fun l => kmul (kmul (A i l) (B l k)) (v k)))).
    2:{ intros. rewrite ksum_mul_r. reflexivity. }
    rewrite ksum_swap. apply ksum_ext. intros l Hl. rewrite <- ksum_mul_l. apply ksum_ext. intros. ring.
  Qed.
  Lemma sapply_unit (A : sq K N) k i : k < N -> sapply A (unit_vec k) i = A i k.
  Proof.
    intros H. unfold sapply, unit_vec. rewrite (ksum_single _ k) by
      (auto; intros j Hj Hne; rewrite (proj2 (Nat.eqb_neq j k) Hne); ring).
    rewrite Nat.eqb_refl. ring.
  Qed.
End SqExtra.

Section Swap.
  Context {K : Type} {SR : StarRing K}.
  Add Ring KringW1 : (@k_ring K SR).
  Variable nl : nat.
  Notation N := (2 ^ nl).
  Notation Cd := (Cd (K:=K) nl).
  Notation Ca := (Ca (K:=K) nl).
  Notation Nn := (Nn (K:=K) nl).

  Lemma sadj_Cd q : q < nl -> seqv (sadj (Cd q)) (Ca q).
  Proof.
    intros Hq i j Hi Hj. unfold sadj. rewrite cdag_entry, c_entry by auto. cbn.
    destruct (_ && _); [apply ksign_conj|apply kconj_0].
  Qed.
  Lemma sadj_Ca q : q < nl -> seqv (sadj (Ca q)) (Cd q).
  Proof. intros Hq. rewrite <- (sadj_Cd q Hq). apply sadj_inv. Qed.
  Lemma sadj_Nn q : q < nl -> seqv (sadj (Nn q)) (Nn q).
  Proof.
    intros Hq. rewrite <- (Cd_Ca nl q Hq). rewrite sadj_mul, (sadj_Cd q Hq), (sadj_Ca q Hq). reflexivity.
  Qed.

  Definition swapS (p q : nat) : sq K N :=
    ssub (ssub (sadd (sadd (smul (Cd p) (Ca q)) (smul (Cd q) (Ca p))) s1) (Nn p)) (Nn q).

  Lemma swapS_swp p q : p < nl -> q < nl ->
    seqv (swapS p q) (swp (T:=sq K N) (Cd p) (Ca p) (Cd q) (Ca q)).
  Proof.
    intros Hp Hq. unfold swapS. rewrite <- (Cd_Ca nl p Hp), <- (Cd_Ca nl q Hq). reflexivity.
  Qed.

  Lemma swapS_adj p q : p < nl -> q < nl -> seqv (sadj (swapS p q)) (swapS p q).
  Proof.
    intros Hp Hq. unfold swapS.
    rewrite !sadj_sub, !sadj_add, !sadj_mul, sadj_1, !sadj_Nn, !sadj_Cd, !sadj_Ca by assumption.
    assert (E : seqv (sadd (smul (Cd q) (Ca p)) (smul (Cd p) (Ca q))) (sadd (smul (Cd p) (Ca q)) (smul (Cd q) (Ca p)))).
    { intros i j _ _. unfold sadd. ring. }
    rewrite E. reflexivity.
  Qed.

  Ltac car := first
    [ apply Ca_Cd_same; assumption | apply Ca_Ca_ne; (assumption || congruence)
    | apply Ca_Cd_ne; (assumption || congruence) | apply Cd_Ca_ne; (assumption || congruence)
    | apply Cd_Cd_ne; (assumption || congruence) | apply Ca_sq; assumption | apply Cd_sq; assumption ].


  Lemma swapS_Cd p q x : p < nl -> q < nl -> x < nl ->
    seqv (smul (swapS p q) (Cd x)) (smul (Cd (tr p q x)) (swapS p q)).
  Proof.
    intros Hp Hq Hx. rewrite (swapS_swp p q Hp Hq). unfold exchange.
    destruct (Nat.eqb_spec x p) as [->|Np]; [|destruct (Nat.eqb_spec x q) as [->|Nq]].
    - destruct (Nat.eq_dec p q) as [->|Hne].
      + rewrite (swp_self (Rr:=sq_ring (N:=N))).
        rewrite smul_1_l, smul_1_r. reflexivity.
      + apply (swp_a' (Rr:=sq_ring (N:=N))); car.
    - apply (swp_b' (Rr:=sq_ring (N:=N))); car.
    - destruct (Nat.eq_dec p q) as [->|Hne].
      + rewrite (swp_self (Rr:=sq_ring (N:=N))). rewrite smul_1_l, smul_1_r. reflexivity.
      + apply (swp_other (Rr:=sq_ring (N:=N))); car.
  Qed.

  Lemma swapS_Ca p q x : p < nl -> q < nl -> x < nl ->
    seqv (smul (swapS p q) (Ca x)) (smul (Ca (tr p q x)) (swapS p q)).
  Proof.
    intros Hp Hq Hx. rewrite (swapS_swp p q Hp Hq). unfold exchange.
    destruct (Nat.eqb_spec x p) as [->|Np]; [|destruct (Nat.eqb_spec x q) as [->|Nq]].
    - destruct (Nat.eq_dec p q) as [->|Hne].
      + rewrite (swp_self (Rr:=sq_ring (N:=N))).
        rewrite smul_1_l, smul_1_r. reflexivity.
      + apply (swp_a (Rr:=sq_ring (N:=N))); car.
    - apply (swp_b (Rr:=sq_ring (N:=N))); car.
    - destruct (Nat.eq_dec p q) as [->|Hne].
      + rewrite (swp_self (Rr:=sq_ring (N:=N))). rewrite smul_1_l, smul_1_r. reflexivity.
      + apply (swp_other (Rr:=sq_ring (N:=N))); car.
  Qed.

  Lemma swapS_sq p q : p < nl -> q < nl -> seqv (smul (swapS p q) (swapS p q)) s1.
  Proof.
    intros Hp Hq. rewrite (swapS_swp p q Hp Hq). destruct (Nat.eq_dec p q) as [->|Hne].
    - rewrite (swp_self (Rr:=sq_ring (N:=N))). apply smul_1_l.
    - apply (swp_sq (Rr:=sq_ring (N:=N))); car.
  Qed.

  Lemma swapS_self p : p < nl -> seqv (swapS p p) s1.
  Proof. intros Hp. rewrite (swapS_swp p p Hp Hp). apply (swp_self (Rr:=sq_ring (N:=N))). Qed.

  Lemma Ca_vac q i : q < nl -> i < N -> Ca q i 0 = k0.
  Proof.
    intros Hq Hi. assert (N <> 0) by (apply Nat.pow_nonzero; lia).
    rewrite c_entry by (auto; lia). cbn.
    assert (2 ^ (nl - 1 - q) <> 0) by (apply Nat.pow_nonzero; lia).
    destruct (i + 2 ^ (nl - 1 - q)) eqn:E; [lia|]. rewrite andb_false_r. reflexivity.
  Qed.
  Lemma Nn_vac q i : q < nl -> i < N -> Nn q i 0 = k0.
  Proof.
    intros Hq Hi. assert (N <> 0) by (apply Nat.pow_nonzero; lia).
    rewrite n_entry by (auto; lia). cbn. unfold occ. rewrite Nat.bits_0, andb_false_r. reflexivity.
  Qed.

  Definition fixes_vac (T : sq K N) : Prop := forall i, i < N -> T i 0 = kb (i =? 0).

  Lemma swapS_vac p q : p < nl -> q < nl -> fixes_vac (swapS p q).
  Proof.
    intros Hp Hq i Hi. unfold swapS, sadd, ssub, smul.
    rewrite !ksum_zero; [rewrite !Nn_vac by assumption; unfold s1; ring| |];
      intros k Hk; rewrite Ca_vac by assumption; ring.
  Qed.

  (** [T] moves the operators of logical site [q] to logical site [pi q]. *)
  Definition moves (T : sq K N) (pi : nat -> nat) : Prop :=
    forall q, q < nl -> pi q < nl /\
      seqv (smul T (Cd q)) (smul (Cd (pi q)) T) /\ seqv (smul T (Ca q)) (smul (Ca (pi q)) T).
  Definition unitary (T : sq K N) : Prop := seqv (smul (sadj T) T) s1 /\ seqv (smul T (sadj T)) s1.

  Definition good (T : sq K N) (pi : nat -> nat) : Prop := moves T pi /\ unitary T /\ fixes_vac T.

  Lemma good_ext T pi pi' : (forall q, q < nl -> pi q = pi' q) -> good T pi -> good T pi'.
  Proof.
    intros H (M & U & V). split; [|split; assumption]. intros q Hq. rewrite <- H by assumption. apply M, Hq.
  Qed.

  Lemma good_seqv T T' pi : seqv T T' -> good T pi -> good T' pi.
  Proof.
    intros H (M & (U1 & U2) & V). split; [|split].
    - intros q Hq. destruct (M q Hq) as (M1 & M2 & M3). rewrite <- H. auto.
    - split; rewrite <- H; assumption.
    - intros i Hi. assert (N <> 0) by (apply Nat.pow_nonzero; lia). rewrite <- H by lia. apply V, Hi.
  Qed.

  Lemma good_1 : good s1 (fun q => q).
  Proof.
    split; [|split].
    - intros q Hq. splits; auto; rewrite smul_1_l, smul_1_r; reflexivity.
    - split; rewrite sadj_1; apply smul_1_l.
    - intros i Hi. reflexivity.
  Qed.

  Lemma good_mul T1 T2 pi1 pi2 : good T1 pi1 -> good T2 pi2 -> good (smul T1 T2) (fun q => pi1 (pi2 q)).
  Proof.
    intros (M1 & (U1 & W1) & V1) (M2 & (U2 & W2) & V2). split; [|split].
    - intros q Hq. destruct (M2 q Hq) as (P2 & X2 & Y2). destruct (M1 _ P2) as (P1 & X1 & Y1).
      splits; auto.
      + rewrite smul_assoc, X2, <- smul_assoc, X1, smul_assoc. reflexivity.
      + rewrite smul_assoc, Y2, <- smul_assoc, Y1, smul_assoc. reflexivity.
    - split.
      + rewrite sadj_mul, smul_assoc, <- (smul_assoc (sadj T1)), U1, smul_1_l. exact U2.
      + rewrite sadj_mul, smul_assoc, <- (smul_assoc T2), W2, smul_1_l. exact W1.
    - intros i Hi. assert (P : N <> 0) by (apply Nat.pow_nonzero; lia).
      unfold smul. rewrite (ksum_single N 0).
      + rewrite V1, V2 by lia. cbn. ring.
      + lia.
      + intros k Hk Hne. rewrite V2 by assumption. rewrite (proj2 (Nat.eqb_neq k 0) Hne). cbn. ring.
  Qed.

  Lemma tr_lt p q x : p < nl -> q < nl -> x < nl -> tr p q x < nl.
  Proof. unfold exchange. intros. destruct (x =? p); [auto|]. destruct (x =? q); auto. Qed.

  Lemma good_swap p q : p < nl -> q < nl -> good (swapS p q) (tr p q).
  Proof.
    intros Hp Hq. split; [|split].
    - intros x Hx. splits; [apply tr_lt; auto|apply swapS_Cd; auto|apply swapS_Ca; auto].
    - split; rewrite swapS_adj by assumption; apply swapS_sq; assumption.
    - apply swapS_vac; assumption.
  Qed.

  (** Operators that move modes the same way and fix the vacuum are equal. *)
  Lemma good_unique T T' pi : good T pi -> good T' pi -> seqv T T'.
  Proof.
    intros (M & _ & V) (M' & _ & V').
    assert (P : N <> 0) by (apply Nat.pow_nonzero; lia).
    assert (L : forall X, moves X pi -> fixes_vac X -> forall k, k < N -> forall i, i < N ->
       X i k = fold_left (fun v q => if occ nl k q then sapply (Cd (pi q)) v else v) (seq 0 nl) (unit_vec 0) i).
    { clear T T' M V M' V'. intros X MX VX k Hk i Hi.
      set (Op := fun q => Mat N N (Cd q)).
      assert (HB : forall j, j < N -> occupied_product nl Op k j = unit_vec k j).
      { apply basis_state_product; [|assumption]. intros q Hq.
        apply (meq_of_seqv N); [split; reflexivity|split; reflexivity|]. apply cdag_entry, Hq. }
      rewrite <- (sapply_unit X k i Hk).
      rewrite (sapply_ext X X (unit_vec k) (occupied_product nl Op k) i Hi);
        [|reflexivity|intros; symmetry; apply HB; assumption].
      unfold occupied_product.
      assert (G : forall l v w, (forall q, In q l -> q < nl) -> (forall j, j < N -> sapply X v j = w j) ->
        forall i, i < N ->
        sapply X (fold_left (fun v q => if occ nl k q then mapply (Op q) v else v) l v) i =
        fold_left (fun v q => if occ nl k q then sapply (Cd (pi q)) v else v) l w i).
      { induction l as [|q l IH]; intros v w Hl Hvw j Hj; [apply Hvw, Hj|]. cbn [fold_left].
        apply IH; [intros; apply Hl; right; assumption| |assumption].
        destruct (occ nl k q); [|exact Hvw]. intros j' Hj'.
        change (mapply (Op q) v) with (sapply (Cd q) v).
        rewrite <- sapply_mul. destruct (MX q (Hl q (or_introl eq_refl))) as (_ & E & _).
        rewrite (sapply_ext _ _ v v j' Hj' E) by reflexivity. rewrite sapply_mul.
        apply sapply_ext; [assumption|reflexivity|exact Hvw]. }
      apply G; [intros q Hq; apply in_seq in Hq; lia| |assumption].
      intros j Hj. rewrite sapply_unit by lia. rewrite VX by assumption. reflexivity. }
    intros i k Hi Hk. rewrite (L T M V k Hk i Hi), (L T' M' V' k Hk i Hi). reflexivity.
  Qed.
End Swap.

(** ** Cycles *)
Lemma follow_in h c x : In x c -> follow h c x = h \/ In (follow h c x) c.
Proof.
  induction c as [|a t IH]; intros H; [destruct H|]. cbn [follow].
  destruct (Nat.eqb_spec x a) as [->|Hne].
  - destruct t; [left; reflexivity|right; right; left; reflexivity].
  - destruct H as [H|H]; [congruence|]. destruct (IH H); [left; assumption|right; right; assumption].
Qed.
Lemma next_in c x : In x c -> In (next_in_cycle c x) c.
Proof.
  intros H. destruct c as [|a t]; [destruct H|]. unfold next_in_cycle.
  destruct (follow_in a (a :: t) x H) as [->|]; [left; reflexivity|assumption].
Qed.
Lemma follow_out h c x : ~ In x c -> follow h c x = x.
Proof.
  induction c as [|a t IH]; intros H; [reflexivity|]. cbn [follow].
  destruct (Nat.eqb_spec x a) as [->|Hne]; [exfalso; apply H; left; reflexivity|].
  apply IH. intros X. apply H. right; assumption.
Qed.
Lemma next_out c x : ~ In x c -> next_in_cycle c x = x.
Proof. intros H. destruct c; [reflexivity|]. apply follow_out, H. Qed.

Lemma follow_head h h' c x : In x c -> NoDup c -> x <> last c 0 -> follow h c x = follow h' c x.
Proof.
  induction c as [|a t IH]; intros Hin ND Hl; [destruct Hin|]. cbn [follow].
  destruct (Nat.eqb_spec x a) as [->|Hne].
  - destruct t; [cbn in Hl; congruence|reflexivity].
  - destruct Hin as [->|Hin]; [congruence|]. inversion ND; subst. apply IH; auto.
    destruct t; [destruct Hin|assumption].
Qed.

Lemma follow_last h c : NoDup c -> c <> [] -> follow h c (last c 0) = h.
Proof.
  induction c as [|a t IH]; intros ND Hn; [congruence|]. cbn [follow].
  destruct t as [|b t].
  - cbn. rewrite Nat.eqb_refl. reflexivity.
  - change (last (a :: b :: t) 0) with (last (b :: t) 0). inversion ND; subst.
    destruct (Nat.eqb_spec (last (b :: t) 0) a) as [E|E].
    + exfalso. apply H1. rewrite <- E.
      destruct (exists_last (l:=b :: t)) as (l' & x & El); [discriminate|]. rewrite El, last_last.
      apply in_or_app. right. left. reflexivity.
    + apply IH; [assumption|discriminate].
Qed.

(** Composition of the transpositions of [cycle_pairs]. *)
Lemma cycle_pairs_perm c x : NoDup c ->
  fold_left (fun x p => tr (fst p) (snd p) x) (cycle_pairs c) x = next_in_cycle c x.
Proof.
  unfold cycle_pairs. rewrite <- fold_left_rev_right, rev_involutive.
  induction c as [|a [|b t] IH]; intros ND.
  - reflexivity.
  - cbn. destruct (Nat.eqb_spec x a); congruence.
  - change (combine (a :: b :: t) (tl (a :: b :: t))) with ((a, b) :: combine (b :: t) (tl (b :: t))).
    cbn [fold_right fst snd]. inversion ND; subst. rewrite IH by assumption.
    unfold next_in_cycle at 2. cbn [follow].
    destruct (Nat.eqb_spec x a) as [->|Hne].
    + rewrite next_out by assumption. unfold exchange. rewrite Nat.eqb_refl. reflexivity.
    + change (tr a b (follow b (b :: t) x) = follow a (b :: t) x).
      destruct (in_dec Nat.eq_dec x (b :: t)) as [Hin|Hout].
      * destruct (Nat.eq_dec x (last (b :: t) 0)) as [->|Hnl].
        -- rewrite !follow_last by (assumption || discriminate). unfold exchange.
           rewrite Nat.eqb_refl. destruct (Nat.eqb_spec b a); [|reflexivity].
           subst. exfalso. apply H1. left. reflexivity.
        -- rewrite (follow_head b a) by assumption.
           assert (G : In (follow a (b :: t) x) t).
           { clear -Hin Hnl H2. inversion H2 as [|? ? Hb Ht]; subst. clear H2 Hb.
             cbn [follow]. destruct (Nat.eqb_spec x b) as [->|Hxb].
             - destruct t; [cbn in Hnl; congruence|left; reflexivity].
             - destruct Hin as [->|Hin]; [congruence|].
               assert (Hl : x <> last t 0) by (destruct t; [destruct Hin|exact Hnl]).
               clear Hnl. induction t as [|y t IHt]; [destruct Hin|]. cbn [follow].
               destruct (Nat.eqb_spec x y) as [->|Hxy].
               + destruct t; [cbn in Hl; congruence|right; left; reflexivity].
               + destruct Hin as [->|Hin]; [congruence|]. inversion Ht; subst. right. apply IHt; auto.
                 destruct t; [destruct Hin|exact Hl]. }
           unfold exchange. destruct (Nat.eqb_spec (follow a (b :: t) x) a) as [E|_].
           { exfalso. apply H1. right. rewrite <- E. exact G. }
           destruct (Nat.eqb_spec (follow a (b :: t) x) b) as [E|_]; [|reflexivity].
           inversion H2; subst. exfalso. apply H3. rewrite <- E. exact G.
      * rewrite !follow_out by assumption. unfold exchange.
        rewrite (proj2 (Nat.eqb_neq x a)) by assumption.
        destruct (Nat.eqb_spec x b) as [->|]; [|reflexivity]. exfalso. apply Hout. left. reflexivity.
Qed.

Lemma cycle_pairs_in c p : In p (cycle_pairs c) -> In (fst p) c /\ In (snd p) c.
Proof.
  unfold cycle_pairs. rewrite <- in_rev. destruct p as [a b]. intros H. cbn. split.
  - apply in_combine_l in H. assumption.
  - apply in_combine_r in H. destruct c; [destruct H|right; assumption].
Qed.

Lemma cycle_pairs_nil c : 1 < length c -> cycle_pairs c <> [].
Proof.
  destruct c as [|a [|b t]]; cbn [length]; try lia. intros _ E. unfold cycle_pairs in E.
  apply (f_equal (@length (nat*nat))) in E. rewrite rev_length in E. discriminate.
Qed.

Lemma NoDup_app_l {A} (l1 l2 : list A) : NoDup (l1 ++ l2) -> NoDup l1.
Proof.
  induction l1 as [|a l IH]; intros H; [constructor|]. cbn in H. inversion H; subst.
  constructor; [intros X; apply H2, in_or_app; left; assumption|auto].
Qed.
Lemma NoDup_app_r {A} (l1 l2 : list A) : NoDup (l1 ++ l2) -> NoDup l2.
Proof. induction l1 as [|a l IH]; intros H; [assumption|]. cbn in H. inversion H; subst. auto. Qed.
Lemma NoDup_app_disj {A} (l1 l2 : list A) z : NoDup (l1 ++ l2) -> In z l1 -> In z l2 -> False.
Proof.
  induction l1 as [|b l IHl]; intros ND Hy X; [destruct Hy|]. cbn in ND. inversion ND; subst.
  destruct Hy as [->|Hy]; [apply H1, in_or_app; right; assumption|auto].
Qed.

Lemma fold_next_perm cs x : NoDup (concat cs) ->
  fold_left (fun x c => next_in_cycle c x) cs x = cycles_perm cs x.
Proof.
  revert x. induction cs as [|c cs IH]; intros x ND; [reflexivity|]. cbn [fold_left cycles_perm concat] in *.
  assert (NDc : NoDup (concat cs)) by (apply NoDup_app_r in ND; assumption).
  assert (Out : forall y, ~ In y (concat cs) -> fold_left (fun x c => next_in_cycle c x) cs y = y).
  { clear. induction cs as [|c cs IH]; intros y Hy; [reflexivity|]. cbn [fold_left concat] in *.
    rewrite next_out by (intros X; apply Hy, in_or_app; left; assumption).
    apply IH. intros X. apply Hy, in_or_app. right; assumption. }
  destruct (existsb (Nat.eqb x) c) eqn:E.
  - apply existsb_exists in E. destruct E as (y & Hy & Exy). apply Nat.eqb_eq in Exy. subst y.
    apply Out. intros X. apply next_in in Hy. exact (NoDup_app_disj _ _ _ ND Hy X).
  - rewrite next_out; [apply IH; assumption|]. intros X.
    assert (existsb (Nat.eqb x) c = true) by (apply existsb_exists; exists x; split; [assumption|apply Nat.eqb_refl]).
    congruence.
Qed.

Section Xform.
  Context {K : Type} {SR : StarRing K}.
  Add Ring KringW2 : (@k_ring K SR).

  Lemma f_swap_ok s i j sp :
    two_state s -> i < s_nsites s -> j < s_nsites s -> sp < s_nspecies s ->
    exists S, f_swap_op (K:=K) s i j sp = Ok S /\ square (2 ^ nlog s) S /\
      seqv (N:=2 ^ nlog s) (ent S) (swapS (nlog s) (lsite s i sp) (lsite s j sp)).
  Proof.
    intros Hb Hi Hj Hsp. set (N := 2 ^ nlog s).
    destruct (two_ok (K:=K) s i sp j sp cdag_op c_op Fermion) as (A & EA & SA & FA); auto using sq_c, sq_cdag; [discriminate|].
    destruct (two_ok (K:=K) s j sp i sp cdag_op c_op Fermion) as (B & EB & SB & FB); auto using sq_c, sq_cdag; [discriminate|].
    destruct (single_ok (K:=K) s i sp n_op Boson) as (n1 & E1 & S1 & F1); auto using sq_n; [discriminate|].
    destruct (single_ok (K:=K) s j sp n_op Boson) as (n2 & E2 & S2 & F2); auto using sq_n; [discriminate|].
    fold N in SA, SB, S1, S2. cbn [gop] in *.
    unfold f_swap_op. rewrite EA, EB. cbn [bind]. rewrite (cadd_ok N) by assumption. cbn [bind].
    rewrite nstates2 by assumption. fold N.
    rewrite (cadd_ok N) by auto using square_add, square_eye. cbn [bind]. rewrite E1. cbn [bind].
    rewrite (csub_ok N) by auto using square_add. cbn [bind]. rewrite E2. cbn [bind].
    rewrite (csub_ok N) by auto using square_add, square_sub.
    eexists. splits; [reflexivity|auto using square_add, square_sub|].
    unfold swapS. intros a b Ha Hb'. cbn [msub madd meye ent]. unfold ssub, sadd.
    rewrite FA, FB, F1, F2 by assumption. reflexivity.
  Qed.

  Definition decode (s : sys) (q : nat) : nat * nat := spinless2spinful q (s_nsites s).

  (** Lift a species-dependent map of sites to logical sites. *)
  Definition lift (s : sys) (pi : nat -> nat -> nat) (q : nat) : nat :=
    let (i, sp) := decode s q in lsite s (pi sp i) sp.

  Lemma lift_lsite s pi i sp : i < s_nsites s -> lift s pi (lsite s i sp) = lsite s (pi sp i) sp.
  Proof.
    intros H. unfold lift, decode, lsite. change (s_nsites s * sp + i) with (spinful2spinless i (s_nsites s) sp).
    rewrite spinless_spinful by assumption. reflexivity.
  Qed.

  Lemma decode_ok s q : q < nlog s -> exists i sp, i < s_nsites s /\ sp < s_nspecies s /\ q = lsite s i sp.
  Proof.
    intros Hq. assert (N0 : s_nsites s <> 0) by (unfold nlog in Hq; nia).
    pose proof (spinful_spinless q (s_nsites s) N0) as X.
    pose proof (spinless_species_lt q (s_nsites s) (s_nspecies s) Hq) as Y.
    destruct (spinless2spinful q (s_nsites s)) as [i sp]. cbn [snd] in Y. destruct X as [X1 X2].
    exists i, sp. splits; auto.
  Qed.

  Definition goodm (s : sys) (T : mat K) (pi : nat -> nat -> nat) : Prop :=
    square (2 ^ nlog s) T /\ good (nlog s) (ent T) (lift s pi).

  Definition sites_ok (s : sys) (pi : nat -> nat -> nat) : Prop :=
    forall sp i, sp < s_nspecies s -> i < s_nsites s -> pi sp i < s_nsites s.

  Lemma goodm_ext s T pi pi' :
    (forall sp i, sp < s_nspecies s -> i < s_nsites s -> pi sp i = pi' sp i) -> goodm s T pi -> goodm s T pi'.
  Proof.
    intros H [S G]. split; [assumption|]. eapply good_ext; [|exact G].
    intros q Hq. destruct (decode_ok s q Hq) as (i & sp & Hi & Hsp & ->).
    rewrite !lift_lsite by assumption. rewrite H by assumption. reflexivity.
  Qed.

  Lemma goodm_mul s T1 T2 pi1 pi2 : two_state s -> sites_ok s pi2 ->
    goodm s T1 pi1 -> goodm s T2 pi2 ->
    cmul T1 T2 = Ok (mmul T1 T2) /\ goodm s (mmul T1 T2) (fun sp i => pi1 sp (pi2 sp i)).
  Proof.
    intros Hb H2 [S1 G1] [S2 G2]. split; [apply (cmul_ok (2 ^ nlog s)); assumption|].
    split; [apply square_mul; assumption|]. rewrite (ent_mul (2 ^ nlog s)) by assumption.
    eapply good_ext; [|apply good_mul; eassumption].
    intros q Hq. destruct (decode_ok s q Hq) as (i & sp & Hi & Hsp & ->).
    rewrite lift_lsite by assumption. rewrite !lift_lsite by auto. reflexivity.
  Qed.

  Lemma goodm_swap s i j sp0 :
    two_state s -> i < s_nsites s -> j < s_nsites s -> sp0 < s_nspecies s ->
    exists S, f_swap_op s i j sp0 = Ok S /\ goodm s S (fun sp x => if sp =? sp0 then tr i j x else x).
  Proof.
    intros Hb Hi Hj Hsp. destruct (f_swap_ok s i j sp0 Hb Hi Hj Hsp) as (S & ES & SS & FS).
    exists S. split; [assumption|]. split; [assumption|].
    eapply good_ext; [|eapply good_seqv; [symmetry; exact FS|apply good_swap; apply lsite_lt; assumption]].
    intros q Hq. destruct (decode_ok s q Hq) as (x & sp & Hx & Hspx & ->).
    rewrite lift_lsite by assumption. unfold exchange.
    destruct (Nat.eqb_spec (lsite s x sp) (lsite s i sp0)) as [E|E].
    - apply lsite_inj in E; auto. destruct E; subst. rewrite !Nat.eqb_refl. reflexivity.
    - destruct (Nat.eqb_spec (lsite s x sp) (lsite s j sp0)) as [E2|E2].
      + apply lsite_inj in E2; auto. destruct E2; subst. rewrite Nat.eqb_refl.
        destruct (Nat.eqb_spec j i) as [->|]; [congruence|]. rewrite Nat.eqb_refl. reflexivity.
      + destruct (Nat.eqb_spec sp sp0) as [->|]; [|reflexivity].
        rewrite (proj2 (Nat.eqb_neq x i)) by congruence. rewrite (proj2 (Nat.eqb_neq x j)) by congruence.
        reflexivity.
  Qed.

  Lemma tr_sites n i j x : i < n -> j < n -> x < n -> tr i j x < n.
  Proof. unfold exchange. intros. destruct (x =? i); [auto|]. destruct (x =? j); auto. Qed.

  Lemma cycle_op_good s c sp0 :
    two_state s -> NoDup c -> (forall x, In x c -> x < s_nsites s) -> sp0 < s_nspecies s -> 1 < length c ->
    exists A, cycle_op (f_swap_op (K:=K) s) c sp0 = Ok (Some A) /\
      goodm s A (fun sp x => if sp =? sp0 then next_in_cycle c x else x).
  Proof.
    intros Hb ND Hc Hsp Hlen.
    set (pi := fun (pre : list (nat * nat)) (sp x : nat) =>
       if sp =? sp0 then fold_left (fun x p => tr (fst p) (snd p) x) pre x else x).
    set (I := fun (pre : list (nat * nat)) (acc : option (mat K)) =>
      match acc with None => pre = [] | Some A => goodm s A (pi pre) /\ sites_ok s (pi pre) end).
    destruct (rfold_inv (fun acc p => A <- f_swap_op s (fst p) (snd p) sp0 ;; one_mul A acc) I (cycle_pairs c))
      with (s := @None (mat K)) as (acc & EA & HI).
    - intros pre [i j] post acc Hsplit HI. cbn [fst snd].
      assert (X : In (i, j) (cycle_pairs c)) by (rewrite Hsplit; apply in_elt).
      apply cycle_pairs_in in X. cbn in X. destruct X as [Xi Xj]. apply Hc in Xi, Xj.
      destruct (goodm_swap s i j sp0 Hb Xi Xj Hsp) as (S & ES & GS). rewrite ES. cbn [bind].
      destruct acc as [A|].
      + destruct HI as [GA HA]. unfold one_mul.
        destruct (goodm_mul s S A _ _ Hb HA GS GA) as [EM GM]. rewrite EM. cbn [bind].
        eexists. split; [reflexivity|]. split.
        * eapply goodm_ext; [|exact GM]. intros sp x Hs Hx. unfold pi.
          rewrite fold_left_app. destruct (sp =? sp0); reflexivity.
        * intros sp x Hs Hx. specialize (HA sp x Hs Hx). unfold pi in *. rewrite fold_left_app. cbn.
          destruct (sp =? sp0); [apply tr_sites; assumption|assumption].
      + cbn in HI. subst pre. eexists. split; [reflexivity|]. split.
        * eapply goodm_ext; [|exact GS]. intros sp x Hs Hx. unfold pi. cbn. reflexivity.
        * intros sp x Hs Hx. unfold pi. cbn. destruct (sp =? sp0); [apply tr_sites; assumption|assumption].
    - reflexivity.
    - unfold cycle_op. rewrite EA. destruct acc as [A|].
      + exists A. split; [reflexivity|]. destruct HI as [GA _]. eapply goodm_ext; [|exact GA].
        intros sp x Hs Hx. unfold pi. destruct (sp =? sp0); [apply cycle_pairs_perm; assumption|reflexivity].
      + exfalso. apply (cycle_pairs_nil c Hlen). exact HI.
  Qed.

  Lemma next_sites n c x : (forall y, In y c -> y < n) -> x < n -> next_in_cycle c x < n.
  Proof.
    intros H Hx. destruct (in_dec Nat.eq_dec x c) as [Hin|Hout].
    - apply H, next_in, Hin.
    - rewrite next_out by assumption. assumption.
  Qed.

  Lemma next_single c x : length c <= 1 -> next_in_cycle c x = x.
  Proof.
    destruct c as [|a [|b t]]; cbn; intros; try lia; try reflexivity.
    destruct (Nat.eqb_spec x a); congruence.
  Qed.

  Lemma xform_op_good s cs :
    two_state s -> s_nspecies s <> 0 -> valid_cycles (s_nsites s) cs ->
    (exists c, In c cs /\ 1 < length c) ->
    exists T, xform_op s (f_swap_op (K:=K) s) cs = Ok (Some T) /\
      goodm s T (fun sp x => cycles_perm cs x).
  Proof.
    intros Hb Hm [ND Hlt] Hex.
    assert (HN : forall c, In c cs -> NoDup c /\ forall x, In x c -> x < s_nsites s).
    { intros c Hc. split.
      - clear -ND Hc. induction cs as [|d cs IH]; [destruct Hc|]. cbn in ND.
        destruct Hc as [->|Hc]; [apply NoDup_app_l in ND; assumption|].
        apply IH; [apply NoDup_app_r in ND; assumption|assumption].
      - intros x Hx. apply Hlt. apply in_concat. exists c; split; assumption. }
    set (pi := fun (pre : list (list nat)) (sp x : nat) => fold_left (fun x c => next_in_cycle c x) pre x).
    assert (Hpi : forall pre, (forall c, In c pre -> In c cs) -> sites_ok s (pi pre)).
    { intros pre. unfold pi, sites_ok. intros H sp x _ Hx. revert x Hx.
      induction pre as [|c pre IH]; intros x Hx; [assumption|]. cbn [fold_left].
      apply IH; [intros; apply H; right; assumption|].
      apply next_sites; [apply HN, H; left; reflexivity|assumption]. }
    set (I := fun (pre : list (list nat)) (acc : option (mat K)) =>
      match acc with
      | None => forall c, In c pre -> length c <= 1
      | Some A => goodm s A (pi pre) end).
    unfold xform_op.
    match goal with |- context [rfold ?f cs None] => destruct (rfold_inv f I cs) with (s := @None (mat K)) as (acc & EA & HI) end.
    - intros pre c post acc Hsplit HI.
      assert (Hc : In c cs) by (rewrite Hsplit; apply in_elt).
      assert (Hpre : forall d, In d pre -> In d cs) by (intros d Hd; rewrite Hsplit; apply in_or_app; left; assumption).
      destruct (HN c Hc) as [NDc Hcl].
      destruct (Nat.ltb_spec 1 (length c)) as [Hlen|Hlen].
      + (* inner loop over species *)
        set (J := fun (pr : list nat) (acc' : option (mat K)) =>
          match acc' with
          | None => pr = [] /\ acc = None
          | Some A => goodm s A (fun sp x => if existsb (Nat.eqb sp) pr then next_in_cycle c (pi pre sp x) else pi pre sp x)
          end).
        match goal with |- context [rfold ?f (seq 0 (s_nspecies s)) acc] =>
          destruct (rfold_inv f J (seq 0 (s_nspecies s))) with (s := acc) as (acc' & EA' & HJ) end.
        * intros pr sp0 pst a Hs HJ.
          assert (Hsp0 : sp0 < s_nspecies s).
          { assert (X : In sp0 (seq 0 (s_nspecies s))) by (rewrite Hs; apply in_elt). apply in_seq in X. lia. }
          assert (Hout : existsb (Nat.eqb sp0) pr = false).
          { apply not_true_is_false. intros X. apply existsb_exists in X. destruct X as (y & Hy & Ey).
            apply Nat.eqb_eq in Ey. subst y. pose proof (seq_NoDup (s_nspecies s) 0) as NS. rewrite Hs in NS.
            apply NoDup_remove_2 in NS. apply NS, in_or_app. left; assumption. }
          destruct (cycle_op_good s c sp0 Hb NDc Hcl Hsp0 Hlen) as (A & EAc & GA). rewrite EAc. cbn [bind].
          destruct a as [B|].
          -- unfold one_mul.
             assert (SO : sites_ok s (fun sp x => if existsb (Nat.eqb sp) pr then next_in_cycle c (pi pre sp x) else pi pre sp x)).
             { intros sp x Hspx Hx. pose proof (Hpi pre Hpre sp x Hspx Hx).
               destruct (existsb (Nat.eqb sp) pr); [apply next_sites; assumption|assumption]. }
             destruct (goodm_mul s A B _ _ Hb SO GA HJ) as [EM GM]. rewrite EM. cbn [bind].
             eexists. split; [reflexivity|]. cbn. eapply goodm_ext; [|exact GM].
             intros sp x Hspx Hx. cbn beta. rewrite existsb_app. cbn [existsb].
             destruct (Nat.eqb_spec sp sp0) as [->|]; cbn [orb].
             ++ rewrite Hout. reflexivity.
             ++ rewrite orb_false_r. reflexivity.
          -- destruct HJ as [-> ->]. eexists. split; [reflexivity|]. cbn.
             eapply goodm_ext; [|exact GA]. intros sp x Hspx Hx. cbn beta. rewrite orb_false_r.
             cbn in HI.
             assert (E : pi pre sp x = x).
             { unfold pi. clear -HI. revert x. induction pre as [|d pre IH]; intros x; [reflexivity|]. cbn [fold_left].
               rewrite next_single by (apply HI; left; reflexivity). apply IH. intros; apply HI; right; assumption. }
             rewrite E. reflexivity.
        * cbn. destruct acc as [A|]; [|split; reflexivity]. cbn. exact HI.
        * rewrite EA'. exists acc'. split; [reflexivity|].
          destruct acc' as [A|].
          -- cbn. eapply goodm_ext; [|exact HJ]. intros sp x Hspx Hx. cbn beta.
             assert (existsb (Nat.eqb sp) (seq 0 (s_nspecies s)) = true) as ->.
             { apply existsb_exists. exists sp. split; [apply in_seq; lia|apply Nat.eqb_refl]. }
             unfold pi. rewrite fold_left_app. reflexivity.
          -- destruct HJ as [HJ _]. destruct (s_nspecies s); [congruence|discriminate].
      + exists acc. split; [reflexivity|]. destruct acc as [A|].
        * cbn. eapply goodm_ext; [|exact HI]. intros sp x Hs Hx. unfold pi. rewrite fold_left_app. cbn.
          rewrite next_single by assumption. reflexivity.
        * cbn. intros d Hd. apply in_app_or in Hd. destruct Hd as [Hd|[->|[]]]; [apply HI, Hd|assumption].
    - cbn. intros c [].
    - rewrite EA. destruct acc as [A|].
      + exists A. split; [reflexivity|]. cbn in HI. eapply goodm_ext; [|exact HI].
        intros sp x Hs Hx. unfold pi. apply fold_next_perm, ND.
      + exfalso. destruct Hex as (c & Hc & Hl). specialize (HI c Hc). lia.
  Qed.
End Xform.
