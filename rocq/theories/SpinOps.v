(** Matrix elements of the operators of systems with [d] states per site. *)
From Coq Require Import List Arith Lia Bool QArith Ring Setoid.
From Verif Require Import Scalars Res Matrix ModelBase ModelSpins SpecSpins SpecPerm OpsProofs SqMat FermiOps Digits.
Import ListNotations.
Local Open Scope nat_scope.
Arguments Nat.div : simpl never.
Arguments Nat.modulo : simpl never.
Arguments Nat.pow : simpl never.

Section SpinOps.
  Context {K : Type} {SR : StarRing K}.
  Add Ring KringSO : (@k_ring K SR).
  Variable d : nat.
  Hypothesis Hd : d <> 0.

  Definition dsys (n : nat) : sys := Sys n 1 d.

  Lemma dsys_nlog n : nlog (dsys n) = n.
  Proof. apply Nat.mul_1_r. Qed.
  Lemma dsys_nstates n : nstates (dsys n) = d ^ n.
  Proof. unfold nstates. rewrite dsys_nlog. reflexivity. Qed.

  (** A chain which has [ops] at some sites and the identity elsewhere. *)
  Definition dchain (n : nat) (ops : nat -> option (mat K)) : list (mat K) :=
    map (fun p => match ops p with Some A => A | None => meye d end) (seq 0 n).

  Lemma dchain_square n ops : (forall p A, ops p = Some A -> square d A) -> Forall (square d) (dchain n ops).
  Proof.
    intros H. apply Forall_forall. intros A HA. apply in_map_iff in HA as (p & <- & _).
    destruct (ops p) eqn:E; [eauto|apply eye_square].
  Qed.
  Lemma dchain_length n ops : length (dchain n ops) = n.
  Proof. unfold dchain. rewrite map_length, seq_length. reflexivity. Qed.
  Lemma dchain_nth n ops p : p < n -> nth p (dchain n ops) (meye 0) = match ops p with Some A => A | None => meye d end.
  Proof.
    intros H. unfold dchain. set (f := fun p => _).
    rewrite (nth_indep (map f (seq 0 n)) (meye 0) (f 0)) by (rewrite map_length, seq_length; assumption).
    rewrite map_nth, seq_nth by assumption. reflexivity.
  Qed.

  Lemma list_ext {A} (l1 l2 : list A) x : length l1 = length l2 -> (forall p, p < length l1 -> nth p l1 x = nth p l2 x) -> l1 = l2.
  Proof.
    revert l2. induction l1 as [|a l1 IH]; intros [|b l2] HL H; cbn in *; try discriminate; [reflexivity|].
    f_equal; [apply (H 0); lia|]. apply IH; [lia|]. intros p Hp. apply (H (S p)). lia.
  Qed.
  Lemma nth_repeat' {A} (x y : A) n p : p < n -> nth p (repeat x n) y = x.
  Proof. revert p. induction n as [|n IH]; intros p H; [lia|]. destruct p; [reflexivity|]. cbn. apply IH. lia. Qed.

  Lemma dchain_single n i A : i < n ->
    dchain n (fun p => if p =? i then Some A else None) = repeat (meye d) i ++ A :: repeat (meye d) (n - i - 1).
  Proof.
    intros H. apply (list_ext _ _ (meye 0)).
    - rewrite dchain_length, app_length. cbn. rewrite !repeat_length. lia.
    - rewrite dchain_length. intros p Hp. rewrite dchain_nth by assumption.
      destruct (Nat.eqb_spec p i) as [->|Hne].
      + rewrite app_nth2; rewrite repeat_length; [|lia]. rewrite Nat.sub_diag. reflexivity.
      + destruct (Nat.lt_ge_cases p i).
        * rewrite app_nth1 by (rewrite repeat_length; assumption). rewrite nth_repeat' by assumption. reflexivity.
        * rewrite app_nth2; rewrite repeat_length; [|lia]. replace (p - i) with (S (p - i - 1)) by lia. cbn [nth].
          rewrite nth_repeat' by lia. reflexivity.
  Qed.

  Lemma dchain_pair n i j A B : i < j -> j < n ->
    dchain n (fun p => if p =? i then Some A else if p =? j then Some B else None) =
    repeat (meye d) i ++ A :: (repeat (meye d) (j - i - 1) ++ B :: repeat (meye d) (n - j - 1)).
  Proof.
    intros H1 H2. apply (list_ext _ _ (meye 0)).
    - rewrite dchain_length, app_length. cbn. rewrite app_length. cbn. rewrite !repeat_length. lia.
    - rewrite dchain_length. intros p Hp. rewrite dchain_nth by assumption.
      destruct (Nat.eqb_spec p i) as [->|Hne].
      + rewrite app_nth2; rewrite repeat_length; [|lia]. rewrite Nat.sub_diag. reflexivity.
      + destruct (Nat.lt_ge_cases p i).
        * rewrite app_nth1 by (rewrite repeat_length; assumption). rewrite nth_repeat' by assumption.
          rewrite (proj2 (Nat.eqb_neq p j)) by lia. reflexivity.
        * rewrite app_nth2; rewrite repeat_length; [|lia]. replace (p - i) with (S (p - i - 1)) by lia. cbn [nth].
          destruct (Nat.eqb_spec p j) as [->|Hnj].
          -- rewrite app_nth2; rewrite repeat_length; [|lia]. rewrite Nat.sub_diag. reflexivity.
          -- destruct (Nat.lt_ge_cases p j).
             ++ rewrite app_nth1 by (rewrite repeat_length; lia). rewrite nth_repeat' by lia. reflexivity.
             ++ rewrite app_nth2; rewrite repeat_length; [|lia].
                replace (p - i - 1 - (j - i - 1)) with (S (p - j - 1)) by lia. cbn [nth].
                rewrite nth_repeat' by lia. reflexivity.
  Qed.

  Lemma dchain_entry n ops a b : (forall p A, ops p = Some A -> square d A) -> a < d ^ n -> b < d ^ n ->
    ent (kchain (dchain n ops)) a b =
    kprod n (fun p => match ops p with Some A => ent A (digit d n p a) (digit d n p b)
                      | None => kb (digit d n p a =? digit d n p b) end).
  Proof.
    intros H Ha Hb. pose proof (dchain_square n ops H) as HF.
    rewrite (kchain_entry d Hd) by (rewrite ?dchain_length; auto). rewrite dchain_length.
    apply kprod_ext. intros p Hp. rewrite dchain_nth by assumption. destruct (ops p); reflexivity.
  Qed.


  Lemma forallb_ext {A} (f g : A -> bool) l : (forall x, f x = g x) -> forallb f l = forallb g l.
  Proof. intros H. induction l as [|x l IH]; [reflexivity|]. cbn. rewrite H, IH. reflexivity. Qed.

  Lemma single_entry_chain n i A a b : square d A -> i < n -> a < d ^ n -> b < d ^ n ->
    ent (kchain (dchain n (fun p => if p =? i then Some A else None))) a b = site_elem d n i (ent A) a b.
  Proof.
    intros SA Hi Ha Hb. rewrite dchain_entry by (auto; intros p B; destruct (p =? i); congruence).
    rewrite (kprod_ext n _ (fun p => kmul (kb (existsb (Nat.eqb p) [i] || (digit d n p a =? digit d n p b)))
       (if p =? i then ent A (digit d n i a) (digit d n i b) else k1))).
    - rewrite kprod_mul, kprod_kb, kprod_at by assumption. unfold site_elem, agree_off.
      destruct (forallb _ _); cbn; ring.
    - intros p Hp. cbn [existsb]. rewrite orb_false_r. destruct (Nat.eqb_spec p i) as [->|Hne]; cbn; ring.
  Qed.

  Lemma pair_entry_chain n i j A B a b : square d A -> square d B -> i < n -> j < n -> i <> j -> a < d ^ n -> b < d ^ n ->
    ent (kchain (dchain n (fun p => if p =? i then Some A else if p =? j then Some B else None))) a b =
    pair_elem d n i j (ent A) (ent B) a b.
  Proof.
    intros SA SB Hi Hj Hij Ha Hb.
    rewrite dchain_entry by (assumption || (intros p C; destruct (p =? i); [congruence|]; destruct (p =? j); congruence)).
    rewrite (kprod_ext n _ (fun p => kmul (kb (existsb (Nat.eqb p) [i; j] || (digit d n p a =? digit d n p b)))
       (kmul (if p =? i then ent A (digit d n i a) (digit d n i b) else k1)
             (if p =? j then ent B (digit d n j a) (digit d n j b) else k1)))).
    - rewrite !kprod_mul, kprod_kb, !kprod_at by assumption. unfold pair_elem, agree_off.
      destruct (forallb _ _); cbn; ring.
    - intros p Hp. cbn [existsb]. rewrite orb_false_r.
      destruct (Nat.eqb_spec p i) as [->|Hne].
      + rewrite (proj2 (Nat.eqb_neq i j)) by assumption. cbn. ring.
      + destruct (Nat.eqb_spec p j) as [->|Hnj]; cbn; ring.
  Qed.

  Lemma dchain_sq n ops : (forall p A, ops p = Some A -> square d A) -> square (d ^ n) (kchain (dchain n ops)).
  Proof.
    intros H. pose proof (kchain_dims d _ (dchain_square n ops H)) as [H1 H2]. rewrite dchain_length in *. split; assumption.
  Qed.

  (** One-site operators: the tail identity always has dimension a power of
      two (ed_base.py:342), so this is right for two states per site or at the
      last site. *)
  Lemma single_elem n i A : square d A -> i < n -> d = 2 \/ i = n - 1 ->
    exists T, single_site_op (dsys n) i 0 A Boson = Ok T /\ square (d ^ n) T /\
      forall a b, a < d ^ n -> b < d ^ n -> ent T a b = site_elem d n i (ent A) a b.
  Proof.
    intros SA Hi HT. unfold single_site_op, spinful2spinless. rewrite dsys_nlog. cbn [s_nsites s_nbasis dsys bind].
    replace (n * 0 + i) with i by lia. rewrite eye_pow_ok by assumption.
    assert (E : meye (2 ^ (n - i - 1)) = meye (K:=K) (d ^ (n - i - 1))).
    { destruct HT as [->| ->]; [reflexivity|]. replace (n - (n - 1) - 1) with 0 by lia. rewrite !Nat.pow_0_r. reflexivity. }
    rewrite E. eexists. split; [reflexivity|].
    set (ops := fun p => if p =? i then Some A else None).
    assert (HO : forall p B, ops p = Some B -> square d B) by (intros p B; unfold ops; destruct (p =? i); congruence).
    assert (M : meq (mkron (mkron (meye (d ^ i)) A) (meye (d ^ (n - i - 1)))) (kchain (dchain n ops))).
    { unfold ops. rewrite dchain_single by assumption. rewrite kchain_app. cbn [kchain].
      rewrite !kchain_eye, mkron_assoc. reflexivity. }
    pose proof (dchain_sq n ops HO) as [D1 D2].
    split; [split; rewrite M; assumption|].
    intros a b Ha Hb. destruct M as (M1 & M2 & M3). rewrite M3 by (rewrite ?M1, ?M2, ?D1, ?D2; assumption).
    apply single_entry_chain; assumption.
  Qed.

  Lemma pair_elem_sym n i j A B a b : pair_elem d n i j A B a b = pair_elem d n j i B A a b.
  Proof.
    unfold pair_elem.
    replace (agree_off d n [i; j] a b) with (agree_off d n [j; i] a b).
    - destruct (agree_off _ _ _ _ _); [ring|reflexivity].
    - apply bool_eq_iff. rewrite !agree_off_spec. cbn [In].
      split; intros H p Hp Hn; apply H; auto; intros [->|[->|[]]]; apply Hn; auto.
  Qed.

  Lemma two_elem n i j A B : square d A -> square d B -> i < n -> j < n -> i <> j ->
    exists T, two_site_op (dsys n) i 0 j 0 A B Boson = Ok T /\ square (d ^ n) T /\
      forall a b, a < d ^ n -> b < d ^ n -> ent T a b = pair_elem d n i j (ent A) (ent B) a b.
  Proof.
    intros SA SB Hi Hj Hij. unfold two_site_op, spinful2spinless. rewrite dsys_nlog. cbn [s_nsites s_nbasis dsys].
    rewrite !Nat.mul_0_r, !Nat.add_0_l. rewrite (proj2 (Nat.eqb_neq i j)) by assumption.
    assert (L : forall i j A B, square d A -> square d B -> i < j -> j < n ->
      let T := mkron (mkron (mkron (meye (d ^ i)) A) (meye (d ^ (j - i - 1)))) (mkron B (meye (d ^ (n - j - 1)))) in
      square (d ^ n) T /\ forall a b, a < d ^ n -> b < d ^ n -> ent T a b = pair_elem d n i j (ent A) (ent B) a b).
    { clear A B i j SA SB Hi Hj Hij. intros i j A B SA SB Hij Hj T.
      set (ops := fun p => if p =? i then Some A else if p =? j then Some B else None).
      assert (HO : forall p C, ops p = Some C -> square d C)
        by (intros p C; unfold ops; destruct (p =? i); [congruence|]; destruct (p =? j); congruence).
      assert (M : meq T (kchain (dchain n ops))).
      { unfold T, ops. rewrite dchain_pair by assumption. rewrite kchain_app. cbn [kchain]. rewrite kchain_app. cbn [kchain].
        rewrite !kchain_eye, !mkron_assoc. reflexivity. }
      pose proof (dchain_sq n ops HO) as [D1 D2].
      split; [split; rewrite M; assumption|].
      intros a b Ha Hb. destruct M as (M1 & M2 & M3). rewrite M3 by (rewrite ?M1, ?M2, ?D1, ?D2; assumption).
      apply pair_entry_chain; auto; lia. }
    destruct (Nat.eqb_spec i (Nat.min i j)) as [E|E].
    - replace (Nat.min i j) with i by lia. replace (Nat.max i j) with j by lia. cbn [bind fst snd].
      rewrite eye_pow_ok by assumption. eexists. split; [reflexivity|]. apply L; auto; lia.
    - replace (Nat.min i j) with j by lia. replace (Nat.max i j) with i by lia. cbn [bind fst snd].
      rewrite eye_pow_ok by assumption. eexists. split; [reflexivity|].
      destruct (L j i B A SB SA ltac:(lia) Hi) as [L1 L2]. split; [exact L1|].
      intros a b Ha Hb. rewrite L2 by assumption. apply pair_elem_sym.
  Qed.

  (** For more than two states per site, operators on a site other than the
      last one have the wrong dimension. *)
  Lemma single_shape n i A : square d A -> i < n ->
    exists T, single_site_op (dsys n) i 0 A Boson = Ok T /\ square (d ^ S i * 2 ^ (n - i - 1)) T.
  Proof.
    intros [S1 S2] Hi. unfold single_site_op, spinful2spinless. rewrite dsys_nlog. cbn [s_nsites s_nbasis dsys bind].
    replace (n * 0 + i) with i by lia. rewrite eye_pow_ok by assumption. eexists. split; [reflexivity|].
    split; cbn [nrow ncol mkron meye]; rewrite ?S1, ?S2, Nat.pow_succ_r'; ring.
  Qed.
End SpinOps.
