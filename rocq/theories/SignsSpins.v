(** Spins 1/2 without frustration: proofs. *)
From Coq Require Import List Arith Lia Reals Lra ZArith QArith Bool.
From Verif Require Import Scalars Res Matrix Sums SqMat ModelBase ModelSpins SpecSpins Digits SpinOps SpinAlg SpinHam SpinApi SpinSwap
  ModelGeometry ModelPhase ModelSymmetry SymBase ModelThermal SpecThermal ThermalBase ThermalFacts ThermalBasis Spectral Thermo SpecHeat SpecConvex Convex SpecSigns Signs SignsHeat.
Import ListNotations.
Local Open Scope R_scope.

  Lemma product_ones (f : nat -> R) l : (forall i, In i l -> f i = 1) -> fold_right (fun i x => f i * x) 1 l = 1.
  Proof. induction l as [|i l IH]; intros X; [reflexivity|]. cbn [fold_right]. rewrite IH by (intros; apply X; right; assumption). rewrite (X i (or_introl eq_refl)). ring. Qed.
  Lemma product_one (f : nat -> R) i l : NoDup l -> In i l -> (forall j, In j l -> j <> i -> f j = 1) -> fold_right (fun i x => f i * x) 1 l = f i.
  Proof.
    induction l as [|j l IH]; intros ND IN X; [destruct IN|]. inversion_clear ND as [|? ? NI ND']. cbn [fold_right]. destruct IN as [->|IN].
    - rewrite product_ones; [ring|]. intros k Hk. apply X; [right; exact Hk|]. intros ->. tauto.
    - rewrite IH; [rewrite (X j (or_introl eq_refl)) by (intros ->; tauto); ring | exact ND' | exact IN | intros; apply X; [right|]; assumption].
  Qed.
  Lemma product_two (f : nat -> R) i k l : NoDup l -> In i l -> In k l -> i <> k -> (forall j, In j l -> j <> i -> j <> k -> f j = 1) -> fold_right (fun i x => f i * x) 1 l = f i * f k.
  Proof.
    induction l as [|j l IH]; intros ND I1 I2 N X; [destruct I1|]. inversion_clear ND as [|? ? NI ND']. cbn [fold_right]. destruct I1 as [->|I1], I2 as [->|I2]; [tauto | | | ].
    - rewrite (product_one f k l); [ring | exact ND' | exact I2|]. intros j Hj Nj. apply X; [right; exact Hj | | exact Nj]. intros ->. tauto.
    - rewrite (product_one f i l); [ring | exact ND' | exact I1|]. intros j Hj Nj. apply X; [right; exact Hj | exact Nj |]. intros ->. tauto.
    - rewrite IH; [|assumption..|intros; apply X; [right|..]; assumption]. rewrite (X j (or_introl eq_refl)) by (intros ->; tauto). ring.
  Qed.
Section Config.
  Variables (part : nat -> bool) (n : nat).
  Notation D := (2 ^ n)%nat.
  Notation dg p a := (digit 2 n p a).
  Notation eps := (state_sign part n).
  Lemma state_signs : signs D eps.
  Proof using.
    intros a _. unfold state_sign. induction (seq 0 n) as [|i l IH]; [left; reflexivity|]. cbn [fold_right]. destruct (part i && negb (dg i a =? 0)%nat), IH as [->| ->]; [right | left | left | right]; ring.
  Qed.
  Lemma sign_product a b : eps a * eps b = fold_right (fun i x => (if (dg i a =? dg i b)%nat then 1 else side part i) * x) 1 (seq 0 n).
  Proof using.
    unfold state_sign, side. induction (seq 0 n) as [|i l IH]; [cbn; ring|]. cbn [fold_right]. rewrite <- IH.
    destruct (digit2_cases n i a) as [-> | ->], (digit2_cases n i b) as [-> | ->], (part i); cbn [Nat.eqb andb negb]; ring.
  Qed.
  Lemma sign_flip i a b : (i < n)%nat -> agree_off 2 n [i] a b = true -> dg i a <> dg i b -> eps a * eps b = side part i.
  Proof using.
    intros Hi AG NE. rewrite sign_product. rewrite agree_off_spec in AG. rewrite (product_one _ i); [rewrite (proj2 (Nat.eqb_neq _ _) NE); reflexivity | apply seq_NoDup | apply in_seq; lia |].
    intros j Hj Nj. apply in_seq in Hj. rewrite (proj2 (Nat.eqb_eq _ _)); [reflexivity|]. apply AG; [lia|]. intros [X|[]]. congruence.
  Qed.
  Lemma sign_flips i k a b : (i < n)%nat -> (k < n)%nat -> i <> k -> agree_off 2 n [i; k] a b = true -> dg i a <> dg i b -> dg k a <> dg k b -> eps a * eps b = side part i * side part k.
  Proof using.
    intros Hi Hk N AG N1 N2. rewrite sign_product. rewrite agree_off_spec in AG. rewrite (product_two _ i k); [rewrite (proj2 (Nat.eqb_neq _ _) N1), (proj2 (Nat.eqb_neq _ _) N2); reflexivity | apply seq_NoDup | apply in_seq; lia | apply in_seq; lia | exact N |].
    intros j Hj J1 J2. apply in_seq in Hj. rewrite (proj2 (Nat.eqb_eq _ _)); [reflexivity|]. apply AG; [lia|]. intros [X|[X|[]]]; congruence.
  Qed.
  Lemma same_state L a b : (a < D)%nat -> (b < D)%nat -> agree_off 2 n L a b = true -> (forall i, In i L -> dg i a = dg i b) -> a = b.
  Proof using.
    intros Ha Hb AG EQ. apply (digits_ext 2 ltac:(discriminate) n); [exact Ha | exact Hb|]. intros p Hp. rewrite agree_off_spec in AG. destruct (in_dec Nat.eq_dec p L) as [I|I]; [apply EQ, I | apply AG; assumption].
  Qed.
End Config.

(** Matrices of one spin. *)
Section Local.
  Variable rt : nat -> CR.
  Hypothesis root : rt 1%nat = k1.
  Notation SX := (ent (sx_op rt 1)).
  Notation SY := (ent (sy_op rt 1)).
  Notation SZ := (ent (sz_op (K:=CR) 1)).
  Lemma sx_val p q : (p < 2)%nat -> (q < 2)%nat -> SX p q = if (p =? q)%nat then real 0 else real (1 / 2).
  Proof using root. intros Hp Hq. destruct p as [|[|]], q as [|[|]]; try lia; cbn; rewrite ?root; apply injective_projections; cbn; unfold Q2R; cbn; try lra; field. Qed.
  Lemma sy_val p q : (p < 2)%nat -> (q < 2)%nat -> SY p q = if (p =? q)%nat then real 0 else (0, if (p =? 0)%nat then 1 / 2 else -1 / 2).
  Proof using root. intros Hp Hq. destruct p as [|[|]], q as [|[|]]; try lia; cbn; rewrite ?root; apply injective_projections; cbn; unfold Q2R; cbn; try lra; field. Qed.
  Lemma sz_val p q : (p < 2)%nat -> (q < 2)%nat -> SZ p q = if (p =? q)%nat then real (if (p =? 0)%nat then 1 / 2 else -1 / 2) else real 0.
  Proof using. intros Hp Hq. destruct p as [|[|]], q as [|[|]]; try lia; cbn; apply injective_projections; cbn; unfold Q2R; cbn; try lra; field. Qed.
  Lemma pair_flip p q r t x y z : (p < 2)%nat -> (q < 2)%nat -> (r < 2)%nat -> (t < 2)%nat -> p <> q -> r <> t ->
    kofnat 2 *c (((x, 0) : CR) *c (SX p q *c SX r t) +c ((y, 0) : CR) *c (SY p q *c SY r t) +c ((z, 0) : CR) *c (SZ p q *c SZ r t)) = real ((x + (if (p =? r)%nat then - y else y)) / 2).
  Proof using root.
    intros Hp Hq Hr Ht N1 N2. rewrite !sx_val, !sy_val, !sz_val by assumption. rewrite (proj2 (Nat.eqb_neq _ _) N1), (proj2 (Nat.eqb_neq _ _) N2).
    replace (kofnat (K:=CR) 2) with (real 2) by (rewrite !kofnat_S, kofnat_0; apply injective_projections; cbn; ring).
    destruct p as [|[|]], r as [|[|]]; try lia; cbn [Nat.eqb]; apply injective_projections; cbn; field.
  Qed.
  Lemma pair_still p q r t (x y z : CR) : (p < 2)%nat -> (q < 2)%nat -> (r < 2)%nat -> (t < 2)%nat -> (p = q /\ r <> t) \/ (p <> q /\ r = t) ->
    kofnat 2 *c (x *c (SX p q *c SX r t) +c y *c (SY p q *c SY r t) +c z *c (SZ p q *c SZ r t)) = c0.
  Proof using root.
    intros Hp Hq Hr Ht [(N1 & N2)|(N1 & N2)]; rewrite !sx_val, !sy_val, !sz_val by assumption.
    - rewrite (proj2 (Nat.eqb_eq _ _) N1), (proj2 (Nat.eqb_neq _ _) N2). change (real 0) with c0. ring.
    - rewrite (proj2 (Nat.eqb_neq _ _) N1), (proj2 (Nat.eqb_eq _ _) N2). change (real 0) with c0. ring.
  Qed.
End Local.

Section Ham.
  Variables (rt : nat -> CR) (s : spins CR) (part : nat -> bool) (H : mat CR).
  Hypothesis root : rt 1%nat = k1.
  Hypothesis half : sp_two s = 1%nat.
  Notation n := (sg_nsites (sp_geom s)).
  Notation D := (2 ^ n)%nat.
  Notation dg p a := (digit 2 n p a).
  Notation eps := (state_sign part n).
  Hypothesis made : sp_createH rt s None = Ok H.
  Hypothesis unf : unfrustrated part s.
  Lemma spin_ent : nrow H = D /\ ncol H = D /\ forall a b, (a < D)%nat -> (b < D)%nat -> ent H a b = H_elem rt s a b.
  Proof using half made.
    clear unf root. destruct (createH_full rt s (half_fields s half)) as (H' & E' & (S1 & S2) & V). rewrite made in E'. injection E' as <-. rewrite half in S1, S2, V. auto.
  Qed.
  Definition pair_part (a b i j : nat) : CR := kofnat 2 *c (sp_jx s i j *c pair_elem 2 n i j (ent (sx_op rt 1)) (ent (sx_op rt 1)) a b +c sp_jy s i j *c pair_elem 2 n i j (ent (sy_op rt 1)) (ent (sy_op rt 1)) a b +c sp_jz s i j *c pair_elem 2 n i j (ent (sz_op 1)) (ent (sz_op 1)) a b).
  Definition field_part (a b i : nat) : CR := c1 *c (sp_hx s i *c site_elem 2 n i (ent (sx_op rt 1)) a b +c sp_hy s i *c site_elem 2 n i (ent (sy_op rt 1)) a b +c sp_hz s i *c site_elem 2 n i (ent (sz_op 1)) a b).
  Lemma spin_parts a b : (a < D)%nat -> (b < D)%nat -> ent H a b = ksum n (fun i => ksum i (pair_part a b i)) -c ksum n (field_part a b).
  Proof using half made.
    clear unf root. intros Ha Hb. destruct spin_ent as (_ & _ & V). rewrite (V a b Ha Hb). unfold H_elem, spin_elem. rewrite half. reflexivity.
  Qed.
  Lemma digit_two p a : (dg p a < 2)%nat. Proof using. apply Nat.mod_upper_bound. discriminate. Qed.
  Lemma pair_part_off a b i j : agree_off 2 n [i; j] a b = false -> pair_part a b i j = c0.
  Proof using. intros AG. unfold pair_part, pair_elem. rewrite AG. change k0 with c0. ring. Qed.
  Lemma pair_part_still a b i j : (dg i a = dg i b /\ dg j a <> dg j b) \/ (dg i a <> dg i b /\ dg j a = dg j b) -> pair_part a b i j = c0.
  Proof using root.
    clear unf made half. intros C. unfold pair_part, pair_elem. destruct (agree_off 2 n [i; j] a b); [|change k0 with c0; ring]. apply (pair_still rt root); auto using digit_two.
  Qed.
  Lemma field_part_off a b i : agree_off 2 n [i] a b = false -> field_part a b i = c0.
  Proof using. intros AG. unfold field_part, site_elem. rewrite AG. change k0 with c0. ring. Qed.

  (** The Hamiltonian has the signs. *)
  Theorem spin_lowers : lowers D eps H.
  Proof using All.
    intros a b Ha Hb N. rewrite (spin_parts a b Ha Hb). destruct unf as (UJ & UH).
    assert (PP : snd (ksum n (fun i => ksum i (pair_part a b i))) = 0 /\ 0 <= - (eps a * eps b) * fst (ksum n (fun i => ksum i (pair_part a b i)))).
    { apply ksum_sign. intros i Hi. apply ksum_sign. intros j Hj.
      destruct (agree_off 2 n [i; j] a b) eqn:AG; [|rewrite (pair_part_off a b i j AG); cbn; split; [reflexivity | lra]].
      destruct (Nat.eq_dec (dg i a) (dg i b)) as [E1|E1], (Nat.eq_dec (dg j a) (dg j b)) as [E2|E2].
      - exfalso. apply N. apply (same_state n [i; j] a b Ha Hb AG). intros k [<-|[<-|[]]]; assumption.
      - rewrite pair_part_still by auto. cbn. split; [reflexivity | lra].
      - rewrite pair_part_still by auto. cbn. split; [reflexivity | lra].
      - rewrite (sign_flips part n i j a b Hi ltac:(lia) ltac:(lia) AG E1 E2). destruct (UJ i j ltac:(lia)) as (x & y & z & J1 & J2 & J3 & LE).
        unfold pair_part, pair_elem. rewrite AG, J1, J2, J3, (pair_flip rt root) by auto using digit_two. cbn [real fst snd]. split; [reflexivity|].
        apply Rabs_le_inv in LE || (unfold Rabs in LE; destruct (Rcase_abs y)); destruct (dg i a =? dg j a)%nat; unfold side in *; destruct (part i), (part j); lra. }
    assert (FP : snd (ksum n (field_part a b)) = 0 /\ 0 <= (eps a * eps b) * fst (ksum n (field_part a b))).
    { apply ksum_sign. intros i Hi. destruct (agree_off 2 n [i] a b) eqn:AG; [|rewrite (field_part_off a b i AG); cbn; split; [reflexivity | lra]].
      assert (E1 : dg i a <> dg i b) by (intros E1; apply N, (same_state n [i] a b Ha Hb AG); intros k [<-|[]]; exact E1).
      rewrite (sign_flip part n i a b Hi AG E1). destruct (UH i Hi) as (x & z & H1 & H2 & H3 & LE). unfold field_part, site_elem. rewrite AG, H1, H2, H3, (sx_val rt root), sz_val by apply digit_two. rewrite (proj2 (Nat.eqb_neq _ _) E1).
      cbn. split; [ring | lra]. }
    cbn [fst snd]. destruct PP as (P1 & P2), FP as (F1 & F2).
    change (snd (ksum n (fun i => ksum i (pair_part a b i)) -c ksum n (field_part a b))) with (snd (ksum n (fun i => ksum i (pair_part a b i))) - snd (ksum n (field_part a b))).
    change (fst (ksum n (fun i => ksum i (pair_part a b i)) -c ksum n (field_part a b))) with (fst (ksum n (fun i => ksum i (pair_part a b i))) - fst (ksum n (field_part a b))).
    rewrite P1, F1. split; [ring|]. rewrite Rmult_minus_distr_l. lra.
  Qed.
  (** A field along x at a site joins configurations that differ there. *)
  Lemma flip_entry a b i : (a < D)%nat -> (b < D)%nat -> (i < n)%nat -> agree_off 2 n [i] a b = true -> dg i a <> dg i b -> ent H a b = real 0 -c field_part a b i.
  Proof using half made root.
    clear unf. intros Ha Hb Hi AG NE. rewrite (spin_parts a b Ha Hb). pose proof AG as AS. rewrite agree_off_spec in AS. f_equal.
    - rewrite ksum_zero; [reflexivity|]. intros k Hk. apply ksum_zero. intros j Hj.
      destruct (agree_off 2 n [k; j] a b) eqn:A2; [|apply pair_part_off, A2]. rewrite agree_off_spec in A2.
      destruct (Nat.eq_dec k i) as [->|K1]; [apply pair_part_still; right; split; [exact NE | apply AS; [lia | intros [X|[]]; lia]]|].
      destruct (Nat.eq_dec j i) as [->|K2]; [apply pair_part_still; left; split; [apply AS; [lia | intros [X|[]]; lia] | exact NE]|].
      exfalso. apply NE, A2; [exact Hi|]. intros [X|[X|[]]]; lia.
    - rewrite (ksum_single n i); [reflexivity | exact Hi|]. intros k Hk Nk. apply field_part_off. destruct (agree_off 2 n [k] a b) eqn:A2; [|reflexivity]. rewrite agree_off_spec in A2.
      exfalso. apply NE, A2; [exact Hi|]. intros [X|[]]; lia.
  Qed.
  (** With a field along x everywhere all configurations are joined. *)
  Theorem fields_join : (forall i, (i < n)%nat -> sp_hx s i <> c0) -> forall a b, (a < D)%nat -> (b < D)%nat -> joined D H a b.
  Proof using All.
    intros HX a b Ha Hb.
    assert (ST : forall m, (m <= n)%nat -> exists c, (c < D)%nat /\ (forall p, (p < n)%nat -> dg p c = if (p <? m)%nat then dg p b else dg p a) /\ joined D H a c).
    { induction m as [|m IH]; intros Hm; [exists a; split; [exact Ha|]; split; [reflexivity | constructor]|].
      destruct (IH ltac:(lia)) as (c & Hc & DC & JC). exists (set_digit 2 n m (dg m b) c).
      assert (HC : (set_digit 2 n m (dg m b) c < D)%nat) by (unfold set_digit; apply of_digits_lt; [discriminate|]; intros p Hp; destruct (p =? m)%nat; apply digit_two).
      assert (DS : forall p, (p < n)%nat -> dg p (set_digit 2 n m (dg m b) c) = if (p =? m)%nat then dg m b else dg p c) by (intros p Hp; unfold set_digit; rewrite digit_of_digits; [reflexivity | discriminate | intros q Hq; destruct (q =? m)%nat; apply digit_two | exact Hp]).
      split; [exact HC|]. split.
      - intros p Hp. rewrite (DS p Hp). destruct (Nat.eqb_spec p m) as [->|Np]; [rewrite (proj2 (Nat.ltb_lt m (S m))) by lia; reflexivity|]. rewrite (DC p Hp).
        destruct (Nat.ltb_spec p m), (Nat.ltb_spec p (S m)); reflexivity || lia.
      - destruct (Nat.eq_dec (dg m c) (dg m b)) as [Q|Q].
        + replace (set_digit 2 n m (dg m b) c) with c; [exact JC|]. apply (digits_ext 2 ltac:(discriminate) n); [exact Hc | exact HC|]. intros p Hp. rewrite (DS p Hp). destruct (Nat.eqb_spec p m) as [->|]; [exact Q | reflexivity].
        + apply (joined_step D H a c); [exact JC | exact Hc | exact HC|].
          assert (AG : agree_off 2 n [m] c (set_digit 2 n m (dg m b) c) = true) by (rewrite agree_off_spec; intros p Hp NI; rewrite (DS p Hp); destruct (Nat.eqb_spec p m) as [->|]; [exfalso; apply NI; left; reflexivity | reflexivity]).
          assert (NE : dg m c <> dg m (set_digit 2 n m (dg m b) c)) by (rewrite (DS m ltac:(lia)), Nat.eqb_refl; exact Q).
          rewrite (flip_entry c _ m Hc HC ltac:(lia) AG NE). unfold field_part, site_elem. rewrite AG, (sx_val rt root), sz_val by apply digit_two. rewrite (proj2 (Nat.eqb_neq _ _) NE).
          destruct unf as (_ & UH). destruct (UH m ltac:(lia)) as (x & z & H1 & H2 & H3 & _). pose proof (HX m ltac:(lia)) as NX. rewrite H1 in NX. rewrite H1, H2, H3. intros W. apply NX. apply (f_equal fst) in W. cbn in W.
          apply injective_projections; cbn; lra. }
    destruct (ST n (le_n n)) as (c & Hc & DC & JC). replace b with c; [exact JC|]. apply (digits_ext 2 ltac:(discriminate) n); [exact Hc | exact Hb|]. intros p Hp. rewrite (DC p Hp), (proj2 (Nat.ltb_lt p n) Hp). reflexivity.
  Qed.
End Ham.
