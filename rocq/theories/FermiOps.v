(** Statements about the matrices the operator builders return. *)
From Coq Require Import List Arith Lia Bool QArith Setoid Morphisms Ring.
From Verif Require Import Scalars Res Matrix ModelBase ModelFermions SpecFock SpecMat OpsProofs SqMat FockProofs.
Import ListNotations.
Local Open Scope nat_scope.
Arguments Nat.div : simpl never.
Arguments Nat.modulo : simpl never.
Arguments Nat.pow : simpl never.

Lemma map_repeat' {A B} (f : A -> B) x n : map f (repeat x n) = repeat (f x) n.
Proof. induction n; simpl; congruence. Qed.

Section Api.
  Context {K : Type} {SR : StarRing K}.
  Add Ring KringA : (@k_ring K SR).

  Definition gop (f : fmt) (nl q : nat) (op : mat K) : sq K (2 ^ nl) :=
    match f with Fermion => fop nl q op | _ => bop nl q op end.

  Definition lsite (s : sys) (site spc : nat) : nat := s_nsites s * spc + site.

  Lemma lsite_lt s site spc : site < s_nsites s -> spc < s_nspecies s -> lsite s site spc < nlog s.
  Proof. intros. apply spinful_lt; assumption. Qed.

  Lemma lsite_inj s i si j sj : i < s_nsites s -> j < s_nsites s ->
    lsite s i si = lsite s j sj -> i = j /\ si = sj.
  Proof.
    unfold lsite. intros Hi Hj H.
    assert (si = sj) by nia. subst. lia.
  Qed.

  Lemma nstates2 s : two_state s -> nstates s = 2 ^ nlog s.
  Proof. unfold nstates, two_state. intros ->. reflexivity. Qed.

  Lemma single_ok s site spc op f :
    two_state s -> f <> OtherFormat -> site < s_nsites s -> spc < s_nspecies s -> square 2 op ->
    exists A, single_site_op s site spc op f = Ok A /\ square (2 ^ nlog s) A /\
      seqv (N:=2 ^ nlog s) (ent A) (gop f (nlog s) (lsite s site spc) op).
  Proof.
    intros Hb Hf H1 H2 Hop.
    destruct (single_site_chain s site spc op f Hb Hf H1 H2) as (A & EA & HA).
    pose proof (lsite_lt s site spc H1 H2) as Hq.
    change (spinful2spinless site (s_nsites s) spc) with (lsite s site spc) in *.
    pose proof (site_chain_sq_kchain _ _ _ _ Hq Hop (fmt_tail_square f)) as HS.
    assert (SA : square (2 ^ nlog s) A) by (eapply square_meq; [symmetry; exact HA|exact HS]).
    exists A. splits; auto.
    apply (meq_seqv (2 ^ nlog s)) in HA; auto. destruct f; [exact HA|exact HA|congruence].
  Qed.

  Lemma two_ok s site1 sp1 site2 sp2 op1 op2 f :
    two_state s -> f <> OtherFormat ->
    site1 < s_nsites s -> sp1 < s_nspecies s -> site2 < s_nsites s -> sp2 < s_nspecies s ->
    square 2 op1 -> square 2 op2 ->
    exists T, two_site_op s site1 sp1 site2 sp2 op1 op2 f = Ok T /\ square (2 ^ nlog s) T /\
      seqv (N:=2 ^ nlog s) (ent T)
        (smul (gop f (nlog s) (lsite s site1 sp1) op1) (gop f (nlog s) (lsite s site2 sp2) op2)).
  Proof.
    intros Hb Hf H1 G1 H2 G2 S1 S2.
    destruct (two_site_product s site1 sp1 site2 sp2 op1 op2 f Hb Hf H1 G1 H2 G2 S1 S2)
      as (T & A & B & ET & EA & EB & SA & SB & HT).
    rewrite nstates2 in SA, SB by assumption.
    destruct (single_ok s site1 sp1 op1 f Hb Hf H1 G1 S1) as (A' & EA' & _ & HA).
    destruct (single_ok s site2 sp2 op2 f Hb Hf H2 G2 S2) as (B' & EB' & _ & HB).
    assert (A' = A) by congruence. assert (B' = B) by congruence. subst A' B'.
    assert (ST : square (2 ^ nlog s) T) by (eapply square_meq; [symmetry; exact HT|apply square_mul; auto]).
    exists T. splits; auto. apply (meq_seqv (2 ^ nlog s)) in HT; auto using square_mul.
    rewrite HT, (ent_mul (2 ^ nlog s)) by assumption. rewrite HA, HB. reflexivity.
  Qed.

  (** ** C03 *)
  Lemma meq_of_seqv N (A B : mat K) : square N A -> square N B -> seqv (N:=N) (ent A) (ent B) -> meq A B.
  Proof. intros. apply (meq_seqv N); auto. Qed.

  Lemma ent_anticomm N (A B : mat K) : square N A -> square N B ->
    ent (anticomm A B) = sadd (smul (N:=N) (ent A) (ent B)) (smul (ent B) (ent A)).
  Proof. intros. unfold anticomm. simpl. rewrite <- !ent_mul by assumption. reflexivity. Qed.

  Lemma square_anticomm N (A B : mat K) : square N A -> square N B -> square N (anticomm A B).
  Proof. intros. apply square_add, square_mul; auto. Qed.

  Lemma s1_eye N : ent (meye (K:=K) N) = s1 (N:=N).
  Proof. reflexivity. Qed.

  Lemma anticommutation s i si j sj :
    two_state s -> i < s_nsites s -> si < s_nspecies s -> j < s_nsites s -> sj < s_nspecies s ->
    exists ci ci' cj cj',
      single_site_op s i si c_op Fermion = Ok ci /\ single_site_op s i si cdag_op Fermion = Ok ci' /\
      single_site_op s j sj c_op Fermion = Ok cj /\ single_site_op s j sj cdag_op Fermion = Ok cj' /\
      square (nstates s) ci /\ square (nstates s) ci' /\
      meq (anticomm ci cj') (if (i =? j) && (si =? sj) then meye (nstates s) else mzero (nstates s) (nstates s)) /\
      meq (anticomm ci cj) (mzero (nstates s) (nstates s)) /\
      meq (anticomm ci' cj') (mzero (nstates s) (nstates s)).
  Proof.
    intros Hb H1 G1 H2 G2. rewrite nstates2 by assumption. set (N := 2 ^ nlog s).
    destruct (single_ok s i si c_op Fermion) as (ci & E1 & S1 & F1); auto using sq_c; [discriminate|].
    destruct (single_ok s i si cdag_op Fermion) as (ci' & E2 & S2 & F2); auto using sq_cdag; [discriminate|].
    destruct (single_ok s j sj c_op Fermion) as (cj & E3 & S3 & F3); auto using sq_c; [discriminate|].
    destruct (single_ok s j sj cdag_op Fermion) as (cj' & E4 & S4 & F4); auto using sq_cdag; [discriminate|].
    pose proof (lsite_lt s i si H1 G1) as L1. pose proof (lsite_lt s j sj H2 G2) as L2.
    exists ci, ci', cj, cj'. cbn [gop] in *. fold N in S1, S2, S3, S4.
    splits; auto.
    - apply (meq_of_seqv N); [apply square_anticomm; auto|destruct (_ && _); split; reflexivity|].
      rewrite (ent_anticomm N) by assumption. rewrite F1, F4.
      destruct ((i =? j) && (si =? sj)) eqn:E.
      + apply andb_true_iff in E. rewrite !Nat.eqb_eq in E. destruct E; subst j sj.
        apply Ca_Cd_same; auto.
      + apply Ca_Cd_ne; auto. intros X. apply lsite_inj in X; auto. destruct X; subst.
        rewrite !Nat.eqb_refl in E. discriminate.
    - apply (meq_of_seqv N); [apply square_anticomm; auto|split; reflexivity|].
      rewrite (ent_anticomm N) by assumption. rewrite F1, F3.
      destruct (Nat.eq_dec (lsite s i si) (lsite s j sj)) as [->|Hne].
      + transitivity (sadd (s0 (K:=K) (N:=N)) s0).
        * apply sadd_proper; apply Ca_sq; auto.
        * intros a b _ _. unfold sadd, s0. cbn. ring.
      + apply Ca_Ca_ne; auto.
    - apply (meq_of_seqv N); [apply square_anticomm; auto|split; reflexivity|].
      rewrite (ent_anticomm N) by assumption. rewrite F2, F4.
      destruct (Nat.eq_dec (lsite s i si) (lsite s j sj)) as [->|Hne].
      + transitivity (sadd (s0 (K:=K) (N:=N)) s0).
        * apply sadd_proper; apply Cd_sq; auto.
        * intros a b _ _. unfold sadd, s0. cbn. ring.
      + apply Cd_Cd_ne; auto.
  Qed.

  (** ** C04 *)
  Lemma bop_scale nl q c A : q < nl -> square 2 A -> seqv (bop nl q (mscale c A)) (sscale c (bop nl q A)).
  Proof.
    intros Hq SA.
    change (sscale c (bop nl q A)) with (ent (mscale c (kchain (site_chain nl q A (meye 2))))).
    apply meq_seqv.
    - apply site_chain_sq_kchain; auto using eye_square, square_scale.
    - apply square_scale. apply site_chain_sq_kchain; auto using eye_square.
    - apply kchain_scale.
  Qed.

  Lemma bop_adj nl q A : q < nl -> square 2 A -> seqv (bop nl q (madj A)) (sadj (bop nl q A)).
  Proof.
    intros Hq SA.
    change (sadj (bop nl q A)) with (ent (madj (kchain (site_chain nl q A (meye 2))))).
    apply meq_seqv.
    - apply site_chain_sq_kchain; auto using eye_square, square_adj.
    - apply square_adj. apply site_chain_sq_kchain; auto using eye_square.
    - rewrite kchain_adj. apply kchain_meq. unfold site_chain. rewrite map_app. simpl.
      rewrite !map_repeat'. apply Forall2_app.
      + apply Forall2_repeat. symmetry. apply madj_eye.
      + constructor; [reflexivity|]. apply Forall2_repeat. symmetry. apply madj_eye.
  Qed.

  Lemma parity_adj : meq (madj (parity_op (K:=K))) parity_op.
  Proof.
    repeat split. intros i j Hi Hj. cbn in Hi, Hj.
    destruct i as [|[|i]]; [| |lia]; (destruct j as [|[|j]]; [| |lia]); cbn;
      rewrite ?kconj_0, ?kconj_1, ?kconj_opp, ?kconj_1; reflexivity.
  Qed.

  Lemma fop_adj nl q A : q < nl -> square 2 A -> seqv (fop nl q (madj A)) (sadj (fop nl q A)).
  Proof.
    intros Hq SA.
    change (sadj (fop nl q A)) with (ent (madj (kchain (site_chain nl q A parity_op)))).
    apply meq_seqv.
    - apply site_chain_sq_kchain; auto using parity_square, square_adj.
    - apply square_adj. apply site_chain_sq_kchain; auto using parity_square.
    - rewrite kchain_adj. apply kchain_meq. unfold site_chain. rewrite map_app. simpl.
      rewrite !map_repeat'. apply Forall2_app.
      + apply Forall2_repeat. symmetry. apply madj_eye.
      + constructor; [reflexivity|]. apply Forall2_repeat. symmetry. apply parity_adj.
  Qed.

  Lemma bop_mul_same nl q A B : q < nl -> square 2 A -> square 2 B ->
    seqv (smul (bop nl q A) (bop nl q B)) (bop nl q (mmul A B)).
  Proof.
    intros. unfold bop. rewrite <- ent_mul.
    2:{ apply site_chain_sq_kchain; auto using eye_square. }
    apply meq_seqv.
    - apply square_mul; apply site_chain_sq_kchain; auto using eye_square.
    - apply site_chain_sq_kchain; auto using eye_square. apply mul_square; auto.
    - apply site_chain_mul_same; auto using eye_square. apply (fmt_tail_sq Boson).
  Qed.

  Lemma bop_comm_lt nl p q A B : p < q -> q < nl -> square 2 A -> square 2 B ->
    seqv (smul (bop nl p A) (bop nl q B)) (smul (bop nl q B) (bop nl p A)).
  Proof.
    intros Hpq Hq SA SB. unfold bop. rewrite <- !ent_mul.
    2,3: apply site_chain_sq_kchain; auto using eye_square; lia.
    apply meq_seqv.
    1,2: apply square_mul; apply site_chain_sq_kchain; auto using eye_square; lia.
    rewrite site_chain_mul_lt, site_chain_mul_gt; auto using eye_square, (fmt_tail_sq Boson).
    unfold pair_chain. apply kchain_meq. apply Forall2_app; [apply Forall2_meq_refl|].
    constructor; [reflexivity|]. apply Forall2_app; [apply Forall2_meq_refl|].
    constructor; [|apply Forall2_meq_refl].
    rewrite mmul_eye_l, mmul_eye_r; [reflexivity|apply SB|apply SB].
  Qed.

  Lemma bop_comm nl p q A B : p <> q -> p < nl -> q < nl -> square 2 A -> square 2 B ->
    seqv (smul (bop nl p A) (bop nl q B)) (smul (bop nl q B) (bop nl p A)).
  Proof.
    intros Hne Hp Hq SA SB. destruct (Nat.lt_ge_cases p q).
    - apply bop_comm_lt; auto.
    - symmetry. apply bop_comm_lt; auto; lia.
  Qed.

  Lemma boson_format s i si j sj (A B : mat K) (c : K) :
    two_state s -> i < s_nsites s -> si < s_nspecies s -> j < s_nsites s -> sj < s_nspecies s ->
    square 2 A -> square 2 B ->
    exists Ai Bi Bj Li Mi Di Ii Tij,
      single_site_op s i si A Boson = Ok Ai /\ single_site_op s i si B Boson = Ok Bi /\
      single_site_op s j sj B Boson = Ok Bj /\
      single_site_op s i si (madd (mscale c A) B) Boson = Ok Li /\
      single_site_op s i si (mmul A B) Boson = Ok Mi /\
      single_site_op s i si (madj A) Boson = Ok Di /\
      single_site_op s i si (meye 2) Boson = Ok Ii /\
      two_site_op s i si j sj A B Boson = Ok Tij /\
      square (nstates s) Ai /\ square (nstates s) Bj /\
      meq Li (madd (mscale c Ai) Bi) /\ meq Mi (mmul Ai Bi) /\ meq Di (madj Ai) /\
      meq Ii (meye (nstates s)) /\ meq Tij (mmul Ai Bj) /\
      (i <> j \/ si <> sj -> meq (mmul Ai Bj) (mmul Bj Ai)).
  Proof.
    intros Hb H1 G1 H2 G2 SA SB. rewrite nstates2 by assumption. set (N := 2 ^ nlog s).
    assert (Hf : Boson <> OtherFormat) by discriminate.
    destruct (single_ok s i si A Boson) as (Ai & E1 & S1 & F1); auto.
    destruct (single_ok s i si B Boson) as (Bi & E2 & S2 & F2); auto.
    destruct (single_ok s j sj B Boson) as (Bj & E3 & S3 & F3); auto.
    destruct (single_ok s i si (madd (mscale c A) B) Boson) as (Li & E4 & S4 & F4); auto using square_add, square_scale.
    destruct (single_ok s i si (mmul A B) Boson) as (Mi & E5 & S5 & F5); auto using square_mul.
    destruct (single_ok s i si (madj A) Boson) as (Di & E6 & S6 & F6); auto using square_adj.
    destruct (single_ok s i si (meye 2) Boson) as (Ii & E7 & S7 & F7); auto using eye_square.
    destruct (two_ok s i si j sj A B Boson) as (T & E8 & S8 & F8); auto.
    pose proof (lsite_lt s i si H1 G1) as L1. pose proof (lsite_lt s j sj H2 G2) as L2.
    cbn [gop] in *. fold N in S1, S2, S3, S4, S5, S6, S7, S8.
    exists Ai, Bi, Bj, Li, Mi, Di, Ii, T. splits; auto.
    - apply (meq_of_seqv N); auto using square_add, square_scale.
      rewrite F4, bop_add by auto using square_scale. rewrite bop_scale by auto.
      change (ent (madd (mscale c Ai) Bi)) with (sadd (N:=N) (sscale (N:=N) c (ent Ai)) (ent Bi)).
      apply sadd_proper; [apply sscale_proper|]; symmetry; assumption.
    - apply (meq_of_seqv N); auto using square_mul. rewrite (ent_mul N) by assumption.
      rewrite F5, F1, F2. symmetry. apply bop_mul_same; auto.
    - apply (meq_of_seqv N); auto using square_adj. rewrite F6, bop_adj by auto.
      change (ent (madj Ai)) with (sadj (N:=N) (ent Ai)). symmetry. apply sadj_proper, F1.
    - apply (meq_of_seqv N); auto using square_eye. rewrite F7. apply bop_eye; auto.
    - apply (meq_of_seqv N); auto using square_mul. rewrite (ent_mul N) by assumption.
      rewrite F8, F1, F3. reflexivity.
    - intros Hne. apply (meq_of_seqv N); auto using square_mul. rewrite !(ent_mul N) by assumption.
      rewrite F1, F3. apply bop_comm; auto. intros X. apply lsite_inj in X; auto. intuition.
  Qed.

  (** ** C06 *)
  Lemma matrix_elements s i si :
    two_state s -> i < s_nsites s -> si < s_nspecies s ->
    exists cd c n,
      single_site_op s i si cdag_op Fermion = Ok cd /\ single_site_op s i si c_op Fermion = Ok c /\
      single_site_op s i si n_op Boson = Ok n /\
      meq cd (cdag_spec (nlog s) (s_nsites s * si + i)) /\
      meq c (c_spec (nlog s) (s_nsites s * si + i)) /\ meq c (madj cd) /\
      meq n (n_spec (nlog s) (s_nsites s * si + i)).
  Proof.
    intros Hb H1 G1. set (N := 2 ^ nlog s).
    destruct (single_ok s i si cdag_op Fermion) as (cd & E1 & S1 & F1); auto using sq_cdag; [discriminate|].
    destruct (single_ok s i si c_op Fermion) as (c & E2 & S2 & F2); auto using sq_c; [discriminate|].
    destruct (single_ok s i si n_op Boson) as (n & E3 & S3 & F3); auto using sq_n; [discriminate|].
    pose proof (lsite_lt s i si H1 G1) as L1.
    change (s_nsites s * si + i) with (lsite s i si). cbn [gop] in *.
    assert (Q1 : meq cd (cdag_spec (nlog s) (lsite s i si))).
    { apply (meq_of_seqv N); auto; [split; reflexivity|]. rewrite F1. apply cdag_entry; auto. }
    assert (Q2 : meq c (c_spec (nlog s) (lsite s i si))).
    { apply (meq_of_seqv N); auto; [split; reflexivity|]. rewrite F2. apply c_entry; auto. }
    exists cd, c, n. splits; auto.
    - rewrite Q1, Q2. repeat split. intros a b Ha Hb'. cbn.
      destruct (_ && _); [symmetry; apply ksign_conj|symmetry; apply kconj_0].
    - apply (meq_of_seqv N); auto; [split; reflexivity|]. rewrite F3. apply n_entry; auto.
  Qed.

  (** ** C07 *)
  Lemma single_site_shape s i si op f A :
    square (s_nbasis s) op -> i < s_nsites s -> si < s_nspecies s ->
    single_site_op s i si op f = Ok A ->
    let q := s_nsites s * si + i in
    nrow A = s_nbasis s ^ (q + 1) * 2 ^ (nlog s - q - 1).
  Proof.
    intros [S1 S2] H1 G1 HA q. pose proof (lsite_lt s i si H1 G1) as L1. unfold lsite in L1. fold q in L1.
    unfold single_site_op in HA. change (spinful2spinless i (s_nsites s) si) with q in HA.
    rewrite Nat.pow_add_r, Nat.pow_1_r.
    destruct f; simpl in HA; inversion HA; subst; clear HA; simpl.
    - destruct (parity_loop_chain (K:=K) (nlog s - q - 1)) as (D & _ & _).
      rewrite D, S1.
      pose proof (kchain_dims 2 _ (Forall_repeat _ _ (nlog s - q - 1) (parity_square (K:=K)))) as [D1 _].
      rewrite D1, repeat_length. reflexivity.
    - rewrite eye_pow_ok by assumption. rewrite S1. reflexivity.
  Qed.

  (** ** C05 *)
  Definition occupied_product (nl : nat) (Op : nat -> mat K) (k : nat) : nat -> K :=
    fold_left (fun v q => if occ nl k q then mapply (Op q) v else v) (seq 0 nl) (unit_vec 0).

  Lemma mapply_unit (A : mat K) k i : k < ncol A -> mapply A (unit_vec k) i = ent A i k.
  Proof.
    intros H. unfold mapply, unit_vec. rewrite (ksum_single _ k) by
      (auto; intros j Hj Hne; rewrite (proj2 (Nat.eqb_neq j k) Hne); ring).
    rewrite Nat.eqb_refl. ring.
  Qed.

  Lemma mapply_ext (A : mat K) v w i : (forall j, j < ncol A -> v j = w j) -> mapply A v i = mapply A w i.
  Proof. intros H. apply ksum_ext. intros j Hj. rewrite H by assumption. reflexivity. Qed.

  Lemma testbit_high a n : a < 2 ^ n -> Nat.testbit a n = false.
  Proof.
    intros H. pose proof (Nat.testbit_spec' a n) as S. rewrite Nat.div_small in S by assumption.
    destruct (Nat.testbit a n); [discriminate|reflexivity].
  Qed.

  (** The basis index keeping the bits of the first [j] sites. *)
  Definition top (nl j k : nat) : nat := k / 2 ^ (nl - j) * 2 ^ (nl - j).

  Lemma top_step nl j k : j < nl -> top nl (S j) k = top nl j k + (if occ nl k j then 2 ^ (nl - 1 - j) else 0).
  Proof.
    intros H. unfold top. pose proof (occ_bit nl k j H) as O.
    replace (nl - S j) with (nl - 1 - j) by lia. replace (nl - j - 1) with (nl - 1 - j) in O by lia.
    replace (nl - j) with (S (nl - 1 - j)) by lia. set (e := nl - 1 - j) in *.
    rewrite Nat.pow_succ_r'. assert (P : 2 ^ e <> 0) by (apply Nat.pow_nonzero; lia).
    rewrite (Nat.mul_comm 2 (2 ^ e)), <- Nat.div_div by lia.
    pose proof (Nat.div_mod (k / 2 ^ e) 2 ltac:(lia)) as D.
    destruct (occ nl k j); simpl in O; rewrite <- O in D; nia.
  Qed.

  Lemma top_bits nl j k i : i < nl - j -> Nat.testbit (top nl j k) i = false.
  Proof. intros. unfold top. apply Nat.mul_pow2_bits_low. assumption. Qed.

  Lemma top_occ_above nl j k q : j <= q -> q < nl -> occ nl (top nl j k) q = false.
  Proof. intros. unfold occ. apply top_bits. lia. Qed.

  Lemma top_lt nl j k : k < 2 ^ nl -> top nl j k < 2 ^ nl.
  Proof.
    intros H. unfold top. assert (2 ^ (nl - j) <> 0) by (apply Nat.pow_nonzero; lia).
    pose proof (Nat.div_mod k _ H0). nia.
  Qed.

  Lemma filter_none {A} (p : A -> bool) l : (forall x, In x l -> p x = false) -> filter p l = [].
  Proof.
    induction l as [|a l IH]; intros H; simpl; [reflexivity|].
    rewrite (H a) by (left; reflexivity). apply IH. intros. apply H. right; assumption.
  Qed.

  Lemma basis_state_product nl (Op : nat -> mat K) k :
    (forall q, q < nl -> meq (Op q) (cdag_spec nl q)) -> k < 2 ^ nl ->
    forall i, i < 2 ^ nl -> occupied_product nl Op k i = unit_vec k i.
  Proof.
    intros HOp Hk.
    assert (G : forall j, j <= nl -> forall i, i < 2 ^ nl ->
      fold_left (fun v q => if occ nl k q then mapply (Op q) v else v) (seq 0 j) (unit_vec 0) i
      = unit_vec (top nl j k) i).
    { induction j as [|j IH]; intros Hj i Hi.
      - simpl. unfold top. rewrite Nat.sub_0_r, Nat.div_small by assumption. reflexivity.
      - rewrite seq_S, fold_left_app. cbn [fold_left Nat.add].
        rewrite top_step by lia. destruct (occ nl k j) eqn:EO.
        + destruct (HOp j ltac:(lia)) as (D1 & D2 & D3). cbn [cdag_spec nrow ncol] in D1, D2.
          rewrite (mapply_ext _ _ (unit_vec (top nl j k))).
          2:{ intros. apply IH; [lia|congruence]. }
          pose proof (top_lt nl j k Hk) as Ht.
          rewrite mapply_unit by congruence. rewrite D3 by congruence.
          cbn [cdag_spec ent]. rewrite top_occ_above by lia. cbn [negb andb].
          assert (occ_above nl (top nl j k) j = 0) as ->.
          { unfold occ_above. rewrite filter_none; [reflexivity|].
            intros x Hx. apply in_seq in Hx. apply top_occ_above; lia. }
          unfold unit_vec. destruct (i =? _); reflexivity.
        + rewrite Nat.add_0_r. apply IH; lia. }
    intros i Hi. unfold occupied_product. rewrite (G nl (le_n _) i Hi).
    unfold top. rewrite Nat.sub_diag. change (2 ^ 0) with 1. rewrite Nat.div_1_r, Nat.mul_1_r. reflexivity.
  Qed.

  Lemma basis_state_api s (Op : nat -> nat -> mat K) k :
    two_state s ->
    (forall i sp, i < s_nsites s -> sp < s_nspecies s -> single_site_op s i sp cdag_op Fermion = Ok (Op i sp)) ->
    k < nstates s ->
    forall a, a < nstates s ->
    fold_left (fun v p => if occ (nlog s) k (s_nsites s * snd p + fst p) then mapply (Op (fst p) (snd p)) v else v)
      (flat_map (fun sp => map (fun i => (i, sp)) (seq 0 (s_nsites s))) (seq 0 (s_nspecies s))) (unit_vec 0) a
    = unit_vec k a.
  Proof.
    intros Hb HOp Hk a Ha. rewrite nstates2 in Hk, Ha by assumption.
    set (Op1 := fun q => let (i, sp) := spinless2spinful q (s_nsites s) in Op i sp).
    rewrite <- (basis_state_product (nlog s) Op1 k); [|clear a Ha|assumption|assumption].
    - unfold occupied_product.
      assert (G : forall m, m <= s_nspecies s ->
        flat_map (fun sp => map (fun i => (i, sp)) (seq 0 (s_nsites s))) (seq 0 m) =
        map (fun q => spinless2spinful q (s_nsites s)) (seq 0 (s_nsites s * m))).
      { induction m as [|m IH]; intros Hm.
        - rewrite Nat.mul_0_r. reflexivity.
        - rewrite seq_S, flat_map_app. rewrite IH by lia. simpl flat_map. rewrite app_nil_r.
          replace (s_nsites s * S m) with (s_nsites s * m + s_nsites s) by lia.
          rewrite seq_app, map_app. f_equal. cbn [Nat.add].
          rewrite <- (Nat.add_0_r (s_nsites s * m)).
          assert (Hseq : forall n st o, seq (o + st) n = map (fun i => o + i) (seq st n)).
          { induction n as [|n IHn]; intros st o; simpl; [reflexivity|]. f_equal. rewrite <- Nat.add_succ_r. apply IHn. }
          rewrite Hseq, map_map. apply map_ext_in. intros i Hi. apply in_seq in Hi.
          symmetry. apply (spinless_spinful i (s_nsites s) m). lia. }
      rewrite G by lia. change (s_nsites s * s_nspecies s) with (nlog s).
      assert (FM : forall (f : (nat -> K) -> nat -> nat -> K) (g : (nat->K) -> nat*nat -> nat -> K) l v,
        (forall v q, In q l -> g v (spinless2spinful q (s_nsites s)) = f v q) ->
        fold_left g (map (fun q => spinless2spinful q (s_nsites s)) l) v = fold_left f l v).
      { induction l as [|q l IH]; intros v H; [reflexivity|]. cbn [map fold_left]. rewrite H by (left; reflexivity).
        apply IH. intros. apply H. right; assumption. }
      refine (f_equal (fun h : nat -> K => h a) _). apply FM. intros v q Hq. apply in_seq in Hq. unfold Op1.
      assert (N0 : s_nsites s <> 0) by (unfold nlog in Hq; nia).
      pose proof (spinful_spinless q (s_nsites s) N0) as X.
      destruct (spinless2spinful q (s_nsites s)) as [i sp]. cbn [fst snd].
      destruct X as [_ X]. unfold spinful2spinless in X. rewrite X. reflexivity.
    - intros q Hq. unfold Op1.
      assert (N0 : s_nsites s <> 0) by (unfold nlog in Hq; nia).
      pose proof (spinful_spinless q (s_nsites s) N0) as X.
      pose proof (spinless_species_lt q (s_nsites s) (s_nspecies s) Hq) as Y.
      destruct (spinless2spinful q (s_nsites s)) as [i sp]. cbn [snd] in Y. destruct X as [X1 X2].
      destruct (matrix_elements s i sp Hb X1 Y) as (cd & c & n & E1 & _ & _ & M & _).
      rewrite HOp in E1 by assumption. inversion E1; subst cd. rewrite M.
      unfold spinful2spinless in X2. rewrite X2. reflexivity.
  Qed.

  (** ** C08 *)
  Lemma kofnat_b b : kofnat (Nat.b2n b) = kb (K:=K) b.
  Proof. destruct b; simpl; [rewrite kofnat_S, kofnat_0; ring|apply kofnat_0]. Qed.

  (** Occupation of the first [m] sites of a species. *)
  Definition occ_first (nl ns k sp m : nat) : nat := length (filter (fun i => occ nl k (ns * sp + i)) (seq 0 m)).

  Lemma occ_first_S nl ns k sp m : occ_first nl ns k sp (S m) = occ_first nl ns k sp m + Nat.b2n (occ nl k (ns * sp + m)).
  Proof.
    unfold occ_first. rewrite seq_S, filter_app, app_length. cbn [Nat.add filter].
    destruct (occ nl k (ns * sp + m)); reflexivity.
  Qed.

  Lemma sum_op_number s sp :
    two_state s -> s_nsites s <> 0 -> sp < s_nspecies s ->
    exists N, sum_op s n_op sp Boson = Ok N /\ meq N (number_spec (nlog s) (s_nsites s) sp).
  Proof.
    intros Hb Hn Hsp. set (D := 2 ^ nlog s).
    set (I := fun (pre : list nat) (acc : option (mat K)) =>
      match acc with
      | None => pre = []
      | Some A => square D A /\ forall a b, a < D -> b < D ->
          ent A a b = kmul (kb (a =? b)) (kofnat (occ_first (nlog s) (s_nsites s) b sp (length pre)))
      end).
    assert (St : forall pre a post acc, seq 0 (s_nsites s) = pre ++ a :: post -> I pre acc ->
      exists acc', (A <- single_site_op s a sp n_op Boson ;; opt_add acc A) = Ok acc' /\ I (pre ++ [a]) acc').
    { intros pre a post acc Hl HI.
      assert (Ea : a = length pre).
      { pose proof (f_equal (fun l => nth (length pre) l 0) Hl) as X. cbn beta in X.
        rewrite app_nth2, Nat.sub_diag in X by lia. cbn in X.
        assert (length pre < s_nsites s).
        { pose proof (f_equal (@length nat) Hl) as Y. rewrite seq_length, app_length in Y. simpl in Y. lia. }
        rewrite seq_nth in X by assumption. lia. }
      assert (Ha : a < s_nsites s).
      { pose proof (f_equal (@length nat) Hl) as Y. rewrite seq_length, app_length in Y. simpl in Y. lia. }
      destruct (matrix_elements s a sp Hb Ha Hsp) as (_ & _ & n & _ & _ & E3 & _ & _ & _ & M).
      rewrite E3. cbn [bind].
      destruct M as (M1 & M2 & M3). cbn [n_spec nrow ncol] in M1, M2.
      assert (Sn : square D n) by (split; assumption).
      assert (Mn : forall x y, x < D -> y < D -> ent n x y = kmul (kb (x =? y)) (kb (occ (nlog s) y (s_nsites s * sp + a)))).
      { intros x y Hx Hy. rewrite M3 by (rewrite ?M1, ?M2; assumption). cbn [n_spec ent].
        destruct (x =? y), (occ _ _ _); cbn; ring. }
      destruct acc as [A|].
      - destruct HI as [SA HA]. unfold opt_add. rewrite (cadd_ok D) by assumption. cbn [bind].
        eexists. split; [reflexivity|]. split; [apply square_add; assumption|].
        intros x y Hx Hy. cbn [madd ent]. rewrite HA, Mn by assumption.
        rewrite app_length, Nat.add_1_r, occ_first_S, <- Ea, kofnat_add, kofnat_b. ring.
      - cbn in HI. subst pre. eexists. split; [reflexivity|]. split; [assumption|].
        intros x y Hx Hy. rewrite Mn by assumption. cbn [app length].
        rewrite occ_first_S. cbn [length] in Ea. subst a. cbn [occ_first seq filter length Nat.add].
        rewrite kofnat_b. reflexivity. }
    destruct (rfold_inv _ I (seq 0 (s_nsites s)) St None eq_refl) as (acc & Hf & HI).
    unfold sum_op. rewrite Hf. cbn [bind]. destruct acc as [A|].
    - exists A. split; [reflexivity|]. destruct HI as [SA HA].
      destruct SA as [SA1 SA2]. split; [|split]; auto. intros a b Ha Hb'. rewrite HA by congruence.
      rewrite seq_length. cbn [number_spec ent]. unfold occ_species, occ_first.
      destruct (Nat.eqb_spec a b); cbn; ring.
    - cbn in HI. destruct (s_nsites s); [lia|discriminate].
  Qed.
End Api.
