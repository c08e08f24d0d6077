(** Matrix elements of hopping between two orbitals, with their signs. *)
From Coq Require Import List Arith Lia Bool QArith Ring Setoid.
From Verif Require Import Scalars Res Matrix ModelBase ModelFermions ModelSpins SpecSpins SpecFock SpecPerm SpecMat OpsProofs SqMat FockProofs
  FermiOps SwapProofs Sums HamProofs Digits SpinOps SpinSwap SpinAlg SpinJordan Sectors.
Import ListNotations.
Local Open Scope nat_scope.
Arguments Nat.div : simpl never.
Arguments Nat.modulo : simpl never.
Arguments Nat.pow : simpl never.

(** Occupation of an orbital is a digit. *)
Lemma occ_digit nl a q : q < nl -> Nat.b2n (occ nl a q) = digit 2 nl q a.
Proof. intros Hq. rewrite (occ_bit nl a q Hq). unfold digit. do 3 f_equal. lia. Qed.
Lemma count_digits nl a l : (forall q, In q l -> q < nl) -> length (filter (occ nl a) l) = list_sum (map (fun q => digit 2 nl q a) l).
Proof.
  intros B. induction l as [|q l IH]; [reflexivity|]. cbn [filter map]. change (list_sum (?x :: ?y)) with (x + list_sum y).
  rewrite <- (IH ltac:(intros; apply B; right; assumption)), <- (occ_digit nl a q) by (apply B; left; reflexivity). destruct (occ nl a q); reflexivity.
Qed.
Lemma above_tail nl a q : q < nl -> occ_above nl a q = tail_sum nl (S q) a.
Proof. intros Hq. unfold occ_above, tail_sum. rewrite count_digits by (intros x Hx; apply in_seq in Hx; lia). do 3 f_equal; lia. Qed.
(** Occupied orbitals strictly between two. *)
Definition between (nl p r a : nat) : nat := list_sum (map (fun x => digit 2 nl x a) (seq (S (Nat.min p r)) (Nat.max p r - Nat.min p r - 1))).
Lemma between_sym nl p r a : between nl p r a = between nl r p a.
Proof. unfold between. rewrite Nat.min_comm, Nat.max_comm. reflexivity. Qed.
Lemma tail_between nl p r a : p < r -> r < nl -> tail_sum nl (S p) a = between nl p r a + digit 2 nl r a + tail_sum nl (S r) a.
Proof.
  intros Hpr Hr. unfold between, tail_sum. rewrite Nat.min_l, Nat.max_r by lia.
  replace (nl - S p) with ((r - p - 1) + (1 + (nl - S r))) by lia. rewrite !seq_app, !map_app. assert (LA : forall x y : list nat, list_sum (x ++ y) = list_sum x + list_sum y) by apply list_sum_app. rewrite !LA.
  replace (S p + (r - p - 1)) with r by lia. replace (r + 1) with (S r) by lia. cbn. lia.
Qed.
Section Hops.
  Context {K : Type} {SR : StarRing K}.
  Add Ring KringHS : (@k_ring K SR).
  Variable nl : nat.
  Notation N := (2 ^ nl).
  Notation dg p a := (digit 2 nl p a).
  Lemma fop_site p (A : mat K) a b : square 2 A -> p < nl -> a < N -> b < N -> fop nl p A a b = kmul (site_elem 2 nl p (ent A) a b) (ksign (tail_sum nl (S p) a)).
  Proof using.
    intros SA Hp Ha Hb. rewrite <- (bop_site nl p A a b SA Hp Ha Hb), (fop_entry nl p A a b Hp SA Ha Hb), (bop_entry nl p A a b Hp SA Ha Hb). cbv zeta. rewrite <- (occ_above_bits nl a p Hp), (above_tail nl a p Hp). ring.
  Qed.
  Lemma ksign_same n m : Nat.even n = Nat.even m -> ksign (K:=K) n = ksign m.
  Proof using.
    assert (E : forall n, ksign (K:=K) n = if Nat.even n then k1 else kopp k1).
    { induction n0 as [|k IH]; [reflexivity|]. rewrite Nat.even_succ, <- Nat.negb_even. change (S k) with (1 + k). rewrite ksign_add, IH. destruct (Nat.even k); cbn; ring. }
    intros Q. rewrite !E, Q. reflexivity.
  Qed.
  Theorem hop_elem p r a b : p <> r -> p < nl -> r < nl -> a < N -> b < N ->
    smul (N:=N) (Cd nl p) (Ca nl r) a b = kmul (pair_elem 2 nl p r (ent (cdag_op (K:=K))) (ent c_op) a b) (ksign (between nl p r a)).
  Proof using.
    intros NE Hp Hr Ha Hb. rewrite <- (bop_pair nl p r cdag_op c_op a b) by auto using sq_cdag, sq_c. unfold smul, Cd, Ca. rewrite <- ksum_mul_r. apply ksum_ext. intros c Hc.
    rewrite !fop_site by auto using sq_cdag, sq_c. rewrite !bop_site by auto using sq_cdag, sq_c.
    unfold site_elem at 1 3. destruct (agree_off 2 nl [p] a c) eqn:AG; [|ring]. rewrite agree_off_spec in AG.
    destruct (digit2_cases nl p a) as [E1|E1], (digit2_cases nl p c) as [E2|E2]; rewrite E1, E2; try (cbn; ring).
    unfold site_elem. destruct (agree_off 2 nl [r] c b) eqn:AG'; [|ring].
    destruct (digit2_cases nl r c) as [E3|E3], (digit2_cases nl r b) as [E4|E4]; rewrite E3, E4; try (cbn; ring).
    assert (E5 : dg r a = 0) by (rewrite (AG r Hr); [exact E3 | intros [X|[]]; congruence]).
    assert (TS : ksign (K:=K) (tail_sum nl (S p) a + tail_sum nl (S r) c) = ksign (between nl p r a)).
    { destruct (lt_dec p r) as [L|L].
      - rewrite (tail_between nl p r a L Hr), E5. assert (T : tail_sum nl (S r) c = tail_sum nl (S r) a) by (apply tail_ext; intros x Hx; symmetry; apply AG; [lia | intros [X|[]]; lia]). rewrite T.
        apply ksign_same. rewrite Nat.add_0_r, !Nat.even_add. destruct (Nat.even (between nl p r a)), (Nat.even (tail_sum nl (S r) a)); reflexivity.
      - assert (L' : r < p) by lia. rewrite (tail_between nl r p c L' Hp), E2. assert (T : tail_sum nl (S p) c = tail_sum nl (S p) a) by (apply tail_ext; intros x Hx; symmetry; apply AG; [lia | intros [X|[]]; lia]). rewrite T.
        assert (B : between nl r p c = between nl p r a). { rewrite between_sym. unfold between. f_equal. apply map_ext_in. intros x Hx. apply in_seq in Hx. rewrite Nat.min_r, Nat.max_l in Hx by lia. symmetry. apply AG; [lia | intros [X|[]]; lia]. }
        rewrite B. apply ksign_same. rewrite Nat.add_0_r, !Nat.even_add. destruct (Nat.even (between nl p r a)), (Nat.even (tail_sum nl (S p) a)); reflexivity. }
    rewrite ksign_add in TS. rewrite <- TS. ring.
  Qed.
End Hops.
