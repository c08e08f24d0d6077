(** Operators permuting the sites: they move basis states up to signs, and every
    momentum sector contains a state. *)
From Coq Require Import List Arith Lia Bool Reals Lra.
From Verif Require Import Scalars Res Matrix SpecFock SqMat ModelBase ModelFermions SpecPerm OpsProofs FockProofs SpecMat FermiOps SwapProofs FermiApi ModelSymmetry SymBase SymZn SymSpan SpecSymmetry ModelPhase.
Import ListNotations.
Local Open Scope nat_scope.

Section Columns.
  Variable nl : nat.
  Notation N := (2 ^ nl).
  Lemma N_pos : 0 < N. Proof. pose proof (Nat.pow_nonzero 2 nl). lia. Qed.
  Lemma column_built (X : sq CR N) pi : moves nl X pi -> fixes_vac nl X -> forall k, k < N -> forall i, i < N ->
    X i k = fold_left (fun v q => if occ nl k q then sapply (Cd nl (pi q)) v else v) (seq 0 nl) (unit_vec 0) i.
  Proof.
    intros MX VX k Hk i Hi. pose proof N_pos as P.
    set (Op := fun q => Mat N N (Cd (K:=CR) nl q)).
    assert (HB : forall j, j < N -> occupied_product nl Op k j = unit_vec k j).
    { apply basis_state_product; [|assumption]. intros q Hq.
      apply (meq_of_seqv N); [split; reflexivity|split; reflexivity|]. apply cdag_entry, Hq. }
    rewrite <- (sapply_unit X k i Hk).
    rewrite (sapply_ext X X (unit_vec k) (occupied_product nl Op k) i Hi);
      [|reflexivity|intros; symmetry; apply HB; assumption].
    unfold occupied_product.
    assert (G : forall l v w, (forall q, In q l -> q < nl) -> (forall j, j < N -> sapply X v j = w j) ->
      forall i, i < N ->
      sapply X (fold_left (fun v q => if occ nl k q then mapply (Op q) v else v) l v) i =
      fold_left (fun v q => if occ nl k q then sapply (Cd nl (pi q)) v else v) l w i).
    { induction l as [|q l IH]; intros v w Hl Hvw j Hj; [apply Hvw, Hj|]. cbn [fold_left].
      apply IH; [intros; apply Hl; right; assumption| |assumption].
      destruct (occ nl k q); [|exact Hvw]. intros j' Hj'.
      change (mapply (Op q) v) with (sapply (Cd nl q) v).
      rewrite <- sapply_mul. destruct (MX q (Hl q (or_introl eq_refl))) as (_ & E & _).
      rewrite (sapply_ext _ _ v v j' Hj' E) by reflexivity. rewrite sapply_mul.
      apply sapply_ext; [assumption|reflexivity|exact Hvw]. }
    apply G; [intros q Hq; apply in_seq in Hq; lia| |assumption].
    intros j Hj. rewrite sapply_unit by lia. rewrite VX by assumption. reflexivity.
  Qed.
  (** A basis state up to a sign, or zero. *)
  Definition thin (v : nat -> CR) : Prop :=
    exists d c, (c = c0 \/ c = c1 \/ c = kopp c1) /\ forall i, i < N -> v i = if i =? d then c else c0.
  Lemma ksign_pm a : ksign a = c1 \/ ksign a = kopp c1.
  Proof. induction a as [|a IH]; cbn [ksign]; [left; reflexivity|]. destruct IH as [-> | ->]; [right; reflexivity | left; ring]. Qed.
  Lemma thin_create p v : p < nl -> thin v -> thin (sapply (Cd nl p) v).
  Proof.
    intros Hp (d & c & C & E). destruct (Nat.lt_ge_cases d N) as [L|L].
    - exists (d + 2 ^ (nl - 1 - p)), (if negb (occ nl d p) then ksign (occ_above nl d p) *c c else c0). split.
      + destruct (negb _); [|auto]. destruct (ksign_pm (occ_above nl d p)) as [-> | ->], C as [-> | [-> | ->] ].
        all: match goal with |- ?x = c0 \/ _ => first [left; ring | right; left; ring | right; right; ring] end.
      + intros i Hi. unfold sapply. rewrite (ksum_single _ d); [|exact L|].
        * rewrite (cdag_entry nl p Hp i d Hi L), E, Nat.eqb_refl by exact L. unfold cdag_spec. cbn [ent]. destruct (negb (occ nl d p)), (i =? _); cbn [andb]; ring.
        * intros k Hk Ne. rewrite E by exact Hk. rewrite (proj2 (Nat.eqb_neq k d) Ne). ring.
    - exists 0, c0. split; [auto|]. intros i Hi. unfold sapply. rewrite ksum_zero; [destruct (i =? 0); reflexivity|].
      intros k Hk. rewrite E by exact Hk. rewrite (proj2 (Nat.eqb_neq k d)) by lia. ring.
  Qed.
  Lemma column_thin (X : sq CR N) pi k : moves nl X pi -> fixes_vac nl X -> k < N -> thin (fun i => X i k).
  Proof.
    intros MX VX Hk.
    assert (G : forall l v, (forall q, In q l -> q < nl) -> thin v -> thin (fold_left (fun v q => if occ nl k q then sapply (Cd nl (pi q)) v else v) l v)).
    { induction l as [|q l IH]; intros v Hl Hv; [exact Hv|]. cbn [fold_left]. apply IH; [intros; apply Hl; right; assumption|].
      destruct (occ nl k q); [|exact Hv]. apply thin_create; [|exact Hv]. apply (MX q (Hl q (or_introl eq_refl))). }
    destruct (G (seq 0 nl) (unit_vec 0)) as (d & c & C & E).
    - intros q Hq. apply in_seq in Hq. lia.
    - exists 0, c1. split; [auto|]. intros i Hi. unfold unit_vec. destruct (i =? 0); reflexivity.
    - exists d, c. split; [exact C|]. intros i Hi. rewrite (column_built X pi MX VX k Hk i Hi). apply E, Hi.
  Qed.
  (** Occupations are moved along. *)
  Lemma occupation_moved (X : sq CR N) pi i j q : moves nl X pi -> i < N -> j < N -> q < nl -> X i j <> c0 -> occ nl i (pi q) = occ nl j q.
  Proof.
    intros MX Hi Hj Hq NZ. destruct (MX q Hq) as (Pq & E1 & E2).
    assert (E : seqv (smul X (Nn nl q)) (smul (Nn nl (pi q)) X)).
    { rewrite <- (Cd_Ca nl q Hq), <- (Cd_Ca nl (pi q) Pq). rewrite <- smul_assoc, E1, smul_assoc, E2, <- smul_assoc. reflexivity. }
    specialize (E i j Hi Hj). unfold smul in E.
    rewrite (ksum_single N j) in E; [|exact Hj|].
    2:{ intros k Hk Ne. rewrite (n_entry nl q Hq k j Hk Hj). unfold n_spec. cbn [ent]. rewrite (proj2 (Nat.eqb_neq k j) Ne). cbn [andb]. ring. }
    rewrite (ksum_single N i) in E; [|exact Hi|].
    2:{ intros k Hk Ne. rewrite (n_entry nl (pi q) Pq i k Hi Hk). unfold n_spec. cbn [ent]. rewrite (proj2 (Nat.eqb_neq i k)) by congruence. cbn [andb]. ring. }
    rewrite (n_entry nl q Hq j j Hj Hj), (n_entry nl (pi q) Pq i i Hi Hi) in E. unfold n_spec in E. cbn [ent] in E. rewrite !Nat.eqb_refl in E. cbn [andb] in E.
    destruct (occ nl i (pi q)), (occ nl j q); try reflexivity; exfalso; apply NZ.
    - transitivity (c1 *c X i j); [ring|]. rewrite <- E. ring.
    - transitivity (X i j *c c1); [ring|]. rewrite E. ring.
  Qed.
  Lemma state_with (P : nat -> bool) : exists b, b < N /\ forall q, q < nl -> occ nl b q = P q.
  Proof.
    assert (G : forall n (Q : nat -> bool), exists b, b < 2 ^ n /\ forall k, k < n -> Nat.testbit b k = Q k).
    { induction n as [|n IH]; intros Q; [exists 0; split; [change (2 ^ 0) with 1; lia | lia]|]. destruct (IH Q) as (b & Hb & E).
      assert (Z : 2 ^ n <> 0) by (apply Nat.pow_nonzero; lia).
      exists (b + Nat.b2n (Q n) * 2 ^ n). split; [rewrite Nat.pow_succ_r'; destruct (Q n); cbn [Nat.b2n]; lia|].
      intros k Hk. destruct (Nat.eq_dec k n) as [->|Ne].
      - pose proof (Nat.testbit_spec' (b + Nat.b2n (Q n) * 2 ^ n) n) as S. rewrite Nat.div_add, (Nat.div_small b) in S by assumption.
        destruct (Q n), (Nat.testbit _ n); cbn in S; try reflexivity; discriminate.
      - rewrite <- (Nat.mod_pow2_bits_low _ n) by lia. rewrite Nat.mod_add, Nat.mod_small by assumption. apply E. lia. }
    destruct (G nl (fun k => P (nl - 1 - k))) as (b & Hb & E). exists b. split; [exact Hb|]. intros q Hq. unfold occ. rewrite E by lia. f_equal. lia.
  Qed.
End Columns.

Lemma good_signed s (T : mat CR) pi : s_nbasis s = 2 -> goodm s T pi -> signed (nstates s) T.
Proof.
  intros Hb G. destruct (good_unitary s T pi Hb G) as [U _]. destruct G as (SQ & MV & UN & FV). rewrite (nstates2 s Hb) in *.
  split; [split; [exact U|]|].
  - intros i j k Hi Hj Hk A B. destruct (Nat.eq_dec j k) as [E|Ne]; [exact E|]. exfalso.
    destruct (column_thin _ _ _ j MV FV Hj) as (d & c & C & E). destruct (column_thin _ _ _ k MV FV Hk) as (d' & c' & C' & E').
    pose proof (E i Hi) as Ei. pose proof (E' i Hi) as Ei'. cbv beta in Ei, Ei'.
    destruct (Nat.eqb_spec i d) as [->|]; [|contradiction]. destruct (Nat.eqb_spec d d') as [->|]; [|contradiction].
    destruct UN as [U1 _]. specialize (U1 j k Hj Hk). unfold smul, sadj, s1 in U1. rewrite (proj2 (Nat.eqb_neq j k) Ne) in U1. cbn [kb] in U1.
    rewrite (ksum_single _ d') in U1; [|exact Hi|].
    + rewrite Ei in A, U1. rewrite Ei' in B, U1. destruct C as [-> | [-> | ->] ], C' as [-> | [-> | ->] ]; try contradiction;
      apply (f_equal fst) in U1; cbn in U1; lra.
    + intros l Hl Nl. rewrite (E l Hl). rewrite (proj2 (Nat.eqb_neq l d') Nl). rewrite kconj_0. ring.
  - intros i j Hi Hj. destruct (column_thin _ _ _ j MV FV Hj) as (d & c & C & E). rewrite (E i Hi). destruct (i =? d); auto.
Qed.

Section Orbit.
  Variables (s : sys) (T : mat CR) (p : nat -> nat) (m : nat).
  Hypothesis Hb : s_nbasis s = 2. Hypothesis Hs : 0 < s_nspecies s.
  Hypothesis G : goodm s T (fun _ => p).
  Hypothesis pl : forall i, i < s_nsites s -> p i < s_nsites s.
  Hypothesis m1 : 1 <= m.
  Hypothesis closed : forall i, i < s_nsites s -> iter p m i = i.
  Hypothesis least : forall k, 1 <= k < m -> exists i, i < s_nsites s /\ iter p k i <> i.
  Notation N := (nstates s).
  Lemma iter_lt l i : i < s_nsites s -> iter p l i < s_nsites s.
  Proof using pl. clear - pl. intros Hi. induction l as [|l IH]; [exact Hi|]. cbn. apply pl, IH. Qed.
  Lemma pow_good k : goodm s (mpow (2 ^ nlog s) T k) (fun _ => iter p k).
  Proof using G pl Hb.
    clear - G pl Hb. induction k as [|k IH]; [apply goodm_1|]. cbn [mpow].
    destruct (goodm_mul s T (mpow (2 ^ nlog s) T k) (fun _ => p) (fun _ => iter p k) Hb) as [_ GG]; auto.
    intros sp i Hsp Hi. apply iter_lt; assumption.
  Qed.
  Lemma pow_one : meq (mpow N T m) (meye N).
  Proof using G pl Hb closed.
    clear - G pl Hb closed. rewrite (nstates2 s Hb). eapply goodm_unique; [|apply goodm_1]. eapply goodm_ext; [|apply pow_good]. intros sp i Hsp Hi. apply closed, Hi.
  Qed.
  Definition first_of (x : nat) : bool := forallb (fun l => x <=? iter p l x) (seq 0 m).
  Lemma first_le x l : first_of x = true -> l < m -> x <= iter p l x.
  Proof using. clear. intros F L. unfold first_of in F. rewrite forallb_forall in F. apply Nat.leb_le, F, in_seq. lia. Qed.
  Lemma iter_mod l i : i < s_nsites s -> iter p l i = iter p (l mod m) i.
  Proof using closed m1 pl.
    clear - closed m1 pl. intros Hi. rewrite (Nat.div_mod l m) at 1 by lia. rewrite Nat.add_comm, iter_add. f_equal.
    generalize (l / m). intros q. induction q as [|q IH]; [rewrite Nat.mul_0_r; reflexivity|]. replace (m * S q) with (m + m * q) by lia. rewrite iter_add, IH. apply closed, Hi.
  Qed.
  Lemma first_exists i : i < s_nsites s -> exists l, l < m /\ first_of (iter p l i) = true.
  Proof using closed m1 pl.
    clear - closed m1 pl. intros Hi.
    assert (L : forall k, exists l, l < S k /\ forall l', l' < S k -> iter p l i <= iter p l' i).
    { induction k as [|k (l & A & B)]; [exists 0; split; [lia|]; intros l' ?; replace l' with 0 by lia; lia|].
      destruct (Nat.le_gt_cases (iter p l i) (iter p (S k) i)) as [D|D].
      - exists l. split; [lia|]. intros l' Hl'. destruct (Nat.eq_dec l' (S k)) as [->|]; [exact D|apply B; lia].
      - exists (S k). split; [lia|]. intros l' Hl'. destruct (Nat.eq_dec l' (S k)) as [->|]; [lia|]. specialize (B l' ltac:(lia)). lia. }
    destruct (L (m - 1)) as (l & A & B). exists l. split; [lia|]. unfold first_of. apply forallb_forall. intros l' Hl'. apply in_seq in Hl'. apply Nat.leb_le.
    rewrite <- iter_add, (iter_mod (l' + l)) by exact Hi. apply B. pose proof (Nat.mod_upper_bound (l' + l) m). lia.
  Qed.
  Lemma regular_state : exists b, b < N /\ forall j, 1 <= j < m -> ent (mpow N T j) b b = c0.
  Proof using All.
    rewrite (nstates2 s Hb).
    destruct (state_with (nlog s) (fun q => let (i, sp) := decode s q in (sp =? 0) && first_of i)) as (b & Lb & E).
    exists b. split; [exact Lb|]. intros j Hj. destruct (cr_eq_dec (ent (mpow (2 ^ nlog s) T j) b b) c0) as [Z|NZ]; [exact Z|]. exfalso.
    destruct (pow_good j) as (_ & MV & _).
    assert (Dec : forall i, i < s_nsites s -> decode s (lsite s i 0) = (i, 0)).
    { intros i Hi. unfold decode, lsite. change (s_nsites s * 0 + i) with (spinful2spinless i (s_nsites s) 0). apply spinless_spinful, Hi. }
    assert (R : forall i, i < s_nsites s -> first_of (iter p j i) = first_of i).
    { intros i Hi. pose proof (lsite_lt s i 0 Hi Hs) as L1. pose proof (lsite_lt s (iter p j i) 0 (iter_lt j i Hi) Hs) as L2.
      pose proof (occupation_moved (nlog s) _ _ b b (lsite s i 0) MV Lb Lb L1 NZ) as O. rewrite lift_lsite in O by exact Hi.
      rewrite (E _ L1), (E _ L2), !Dec in O by (auto using iter_lt). exact O. }
    destruct (least j Hj) as (i & Hi & Ne). destruct (first_exists i Hi) as (l & Hl & F). set (r := iter p l i) in *.
    assert (Hr : r < s_nsites s) by (apply iter_lt, Hi).
    assert (FJ : iter p j r = r).
    { pose proof (first_le r j F ltac:(lia)). pose proof F as F'. rewrite <- (R r Hr) in F'. pose proof (first_le _ (m - j) F' ltac:(lia)) as B.
      rewrite <- iter_add in B. replace (m - j + j) with m in B by lia. rewrite closed in B by exact Hr. lia. }
    apply Ne. assert (EI : i = iter p (m - l) r) by (unfold r; rewrite <- iter_add; replace (m - l + l) with m by lia; symmetry; apply closed, Hi).
    rewrite EI at 1. rewrite <- iter_add. replace (j + (m - l)) with (m - l + j) by lia. rewrite iter_add, FJ. symmetry. exact EI.
  Qed.
  Lemma sectors_filled svd : exists Bs, zn_projectors svd T m = Ok Bs /\ forall k, k < m -> 0 < nrow (nth k Bs (mzero 0 0)).
  Proof using All.
    pose proof (good_signed s T _ Hb G) as [MS _]. destruct (zn_span N m T svd ltac:(lia) MS pow_one) as (Bs & E & LB & SP).
    exists Bs. split; [exact E|]. intros k Hk. destruct (SP k Hk) as (_ & _ & X). set (B := nth k Bs (mzero 0 0)) in *.
    destruct (Nat.eq_dec (nrow B) 0) as [Z|]; [|lia]. exfalso.
    destruct regular_state as (b & Lb & RS).
    assert (PS : forall j, square N (mpow N T j)) by (intros j; rewrite (nstates2 s Hb); apply (pow_good j)).
    set (x := Mat N 1 (fun i _ => ksum m (fun j => root m (k * j) *c ent (mpow N T j) i b)) : mat CR).
    destruct (X x eq_refl eq_refl) as [X1 _].
    destruct X1 as (y & Y1 & Y2 & (_ & _ & Y3)).
    - assert (TN : square N T) by (rewrite (nstates2 s Hb); apply G). destruct TN as [T1 T2].
      split; [exact T1|]. split; [reflexivity|]. intros i z Hi Hz. cbn [mmul mscale nrow ncol ent] in *. rewrite T1 in Hi. rewrite T2.
      rewrite phase_root by lia. unfold x. cbn [ent].
      set (h := fun j => root m (k * j) *c ent (mpow N T j) i b).
      transitivity (ksum m (fun j => conj (root m k) *c h (S j))).
      + transitivity (ksum N (fun l => ksum m (fun j => root m (k * j) *c (ent T i l *c ent (mpow N T j) l b)))).
        { apply ksum_ext. intros l Hl. rewrite <- ksum_mul_l. apply ksum_ext. intros j Hj. ring. }
        rewrite ksum_swap. apply ksum_ext. intros j Hj. rewrite ksum_mul_l. unfold h.
        replace (k * S j) with (k + k * j) by lia. rewrite root_add. cbn [mpow mmul ent]. rewrite T2.
        set (S0 := ksum N _). transitivity ((conj (root m k) *c root m k) *c (root m (k * j) *c S0)); [rewrite root_conj_mul; ring | ring].
      + rewrite ksum_mul_l. f_equal. change (ksum m (fun j => root m (k * j) *c ent (mpow N T j) i b)) with (ksum m h).
        assert (HM : h m = h 0).
        { unfold h. rewrite (Nat.mul_comm k m), root_mul by lia. rewrite Nat.mul_0_r, root_0. f_equal. cbn [mpow].
          destruct pow_one as (_ & _ & P1). destruct (PS m) as [P2 P3]. apply P1; [rewrite P2; exact Hi | rewrite P3; exact Lb]. }
        assert (SH : forall q, ksum q (fun j => h (S j)) +c h 0 = ksum q h +c h q).
        { induction q as [|q IH]; [reflexivity|]. cbn [ksum]. rewrite <- IH. ring. }
        specialize (SH m). rewrite HM in SH.
        transitivity (ksum m (fun j => h (S j)) +c h 0 +c kopp (h 0)); [ring|]. rewrite SH. ring.
    - specialize (Y3 b 0 Lb ltac:(cbn; lia)). cbn [mmul madj ent ncol] in Y3. rewrite Z in Y3. cbn [ksum] in Y3. unfold x in Y3. cbn [ent] in Y3.
      rewrite (ksum_single m 0) in Y3; [|lia|].
      + rewrite Nat.mul_0_r, root_0 in Y3. cbn [mpow meye ent] in Y3. rewrite Nat.eqb_refl in Y3. cbn [kb] in Y3. apply (f_equal fst) in Y3. cbn in Y3. lra.
      + intros j Hj Nj. rewrite RS by lia. ring.
  Qed.
End Orbit.
