(** Averages over long times. *)
From Coq Require Import List Arith Lia Reals Lra Bool Permutation.
From Verif Require Import Scalars Res Sums Matrix SpecMat ModelGeometry ModelPhase ModelSymmetry SymBase ModelBase ModelThermal
  SpecThermal ThermalBase ThermalFacts ThermalBasis ThermalResponse SpecPrecess Precess SpecLongtime.
From Verif Require SymAverage ChainSpectrum.
Import ListNotations.
Local Open Scope R_scope.

(** Geometric sums. *)
Lemma geometric z N : ksum N (fun j => cexp (INR j * z)) *c (cexp z -c c1) = cexp (INR N * z) -c c1.
Proof.
  induction N as [|N IH]; [cbn [ksum INR]; replace (0 * z) with 0 by ring; rewrite cexp_0; ring|]. cbn [ksum].
  transitivity (ksum N (fun j => cexp (INR j * z)) *c (cexp z -c c1) +c cexp (INR N * z) *c (cexp z -c c1)); [ring|]. rewrite IH.
  replace (INR (S N) * z) with (INR N * z + z) by (rewrite S_INR; ring). rewrite cexp_add. ring.
Qed.
Definition gbound (z : R) : R := 8 / nsq (cexp z -c c1).
Lemma comp_le a : Rabs (fst (cexp a -c c1)) <= 2 /\ Rabs (snd (cexp a -c c1)) <= 2.
Proof.
  pose proof (COS_bound a) as (A & B). pose proof (SIN_bound a) as (C & D). cbn. split; apply Rabs_le; lra.
Qed.
Lemma nsq_pos z : cos z <> 1 -> 0 < nsq (cexp z -c c1).
Proof.
  intros NZ. destruct (Req_EM_T (nsq (cexp z -c c1)) 0) as [Q|Q].
  - exfalso. apply nsq_0 in Q. apply (f_equal fst) in Q. cbn in Q. apply NZ. lra.
  - assert (0 <= nsq (cexp z -c c1)) by (unfold nsq; cbn; nra). lra.
Qed.
Lemma geo_bound z N : cos z <> 1 -> Rabs (fst (ksum N (fun j => cexp (INR j * z)))) <= gbound z /\ Rabs (snd (ksum N (fun j => cexp (INR j * z)))) <= gbound z.
Proof.
  intros NZ. pose proof (nsq_pos z NZ) as P. pose proof (geometric z N) as G. set (s := ksum N _) in *. destruct (comp_le z) as (W1 & W2). destruct (comp_le (INR N * z)) as (A1 & A2).
  unfold gbound. set (w := cexp z -c c1) in *. set (a := cexp (INR N * z) -c c1) in *. clearbody s w a. destruct s as (s1, s2), w as (w1, w2), a as (a1, a2). cbn in *. unfold nsq in *. cbn in *. unfold cr_mul in G. cbn in G. injection G as G1 G2.
  assert (N2 : w1 * w1 + w2 * w2 <> 0) by lra.
  assert (S1 : s1 = (a1 * w1 + a2 * w2) / (w1 * w1 + w2 * w2)) by (rewrite <- G1, <- G2; field; lra).
  assert (S2 : s2 = (a2 * w1 - a1 * w2) / (w1 * w1 + w2 * w2)) by (rewrite <- G1, <- G2; field; lra).
  assert (M : forall x y, Rabs x <= 2 -> Rabs y <= 2 -> - 4 <= x * y <= 4) by (intros x y X Y; assert (- 2 <= x <= 2) by (unfold Rabs in X; destruct (Rcase_abs x); lra); assert (- 2 <= y <= 2) by (unfold Rabs in Y; destruct (Rcase_abs y); lra); nra).
  assert (DV : forall x, - 8 <= x <= 8 -> Rabs (x / (w1 * w1 + w2 * w2)) <= 8 / (w1 * w1 + w2 * w2)).
  { intros x X. unfold Rdiv. rewrite Rabs_mult, (Rabs_pos_eq (/ _)) by (left; apply Rinv_0_lt_compat; lra). apply Rmult_le_compat_r; [left; apply Rinv_0_lt_compat; lra | apply Rabs_le; exact X]. }
  pose proof (M a1 w1 A1 W1). pose proof (M a2 w2 A2 W2). pose proof (M a2 w1 A2 W1). pose proof (M a1 w2 A1 W2). rewrite S1, S2. split; apply DV; lra.
Qed.

Lemma total_minus {A} (f g : A -> R) l : total f l - total g l = total (fun k => f k + (-1) * g k) l.
Proof. rewrite total_add, total_scale. ring. Qed.
Section Long.
  Variables (H V O : mat CR) (E : list R) (psi : nat -> CR) (dt : R).
  Hypothesis basis : eigenbasis H V E.
  Notation n := (nrow V).
  Notation L := (length E).
  Notation en k := (nth k E 0).
  Notation x k := (inner (nrow V) (col V k) psi).
  Definition zz (k l : nat) : CR := conj (x k) *c (x l *c elem V O n k l).
  Definition same (k l : nat) : R := if Req_EM_T (en k) (en l) then 1 else 0.
  Lemma expect_sum (y : nat -> CR) : expect n O (fun i => ksum L (fun k => ent V i k *c y k)) = total (fun k => total (fun l => fst (conj (y k) *c (y l *c elem V O n k l))) (seq 0 L)) (seq 0 L).
  Proof using.
    clear basis. change (expect n O (fun i => ksum L (fun k => ent V i k *c y k))) with (fst (amplitude n O (fun i => ksum L (fun k => col V k i *c y k)))). rewrite (amplitude_sum V O E n y).
    rewrite (csum_n L _ fst (or_introl eq_refl)). apply total_ext. intros k _. apply (csum_n L _ fst (or_introl eq_refl)).
  Qed.
  Lemma expect_at t : expect n O (evolve V E psi t) = total (fun k => total (fun l => fst (cexp (t * (en k - en l)) *c zz k l)) (seq 0 L)) (seq 0 L).
  Proof using basis.
    transitivity (expect n O (fun i => ksum L (fun k => ent V i k *c (cexp (- (t * en k)) *c x k)))).
    - apply expect_ext. intros i Hi. rewrite evolve_expand. replace (ncol V) with L by (symmetry; apply basis). reflexivity.
    - rewrite expect_sum. apply total_ext. intros k _. apply total_ext. intros l _. f_equal. unfold zz. rewrite kconj_mul.
      replace (t * (en k - en l)) with (t * en k + - (t * en l)) by ring. rewrite cexp_add. replace (conj (cexp (- (t * en k)))) with (cexp (t * en k)) by (unfold cexp; rewrite cos_neg, sin_neg; apply injective_projections; cbn; ring). ring.
  Qed.
  Lemma ind_sum k l : (k < L)%nat -> (l < L)%nat -> total (fun e => (if Req_EM_T (en k) e then 1 else 0) * (if Req_EM_T (en l) e then 1 else 0)) (nodup Req_EM_T E) = same k l.
  Proof using.
    intros Hk Hl. assert (G : forall D, NoDup D -> In (en k) D -> total (fun e => (if Req_EM_T (en k) e then 1 else 0) * (if Req_EM_T (en l) e then 1 else 0)) D = same k l).
    { clear Hk Hl. induction D as [|d D IH]; [intros _ []|]. intros ND I. inversion ND as [|? ? NI ND']; subst. cbn [total fold_right]. fold (total (fun e => (if Req_EM_T (en k) e then 1 else 0) * (if Req_EM_T (en l) e then 1 else 0)) D).
      destruct (Req_EM_T (en k) d) as [Q|Q].
      - rewrite total_zero; [unfold same; rewrite Q; destruct (Req_EM_T (en l) d), (Req_EM_T d (en l)); try congruence; ring|]. intros e He. destruct (Req_EM_T (en k) e) as [Q2|Q2]; [|ring]. exfalso. apply NI. congruence.
      - rewrite IH; [ring | exact ND' |]. destruct I as [I|I]; [congruence | exact I]. }
    apply G; [apply NoDup_nodup | apply nodup_In, nth_In, Hk].
  Qed.
  Lemma dephased_sum : dephased V O E psi = total (fun k => total (fun l => same k l * fst (zz k l)) (seq 0 L)) (seq 0 L).
  Proof using.
    clear basis. unfold dephased. rewrite (total_ext _ (fun e => total (fun k => total (fun l => (if Req_EM_T (en k) e then 1 else 0) * (if Req_EM_T (en l) e then 1 else 0) * fst (zz k l)) (seq 0 L)) (seq 0 L))).
    - rewrite total_swap. apply total_ext. intros k Hk. rewrite total_swap. apply total_ext. intros l Hl. apply in_seq in Hk, Hl. rewrite <- (ind_sum k l) by lia. rewrite (Rmult_comm _ (fst (zz k l))), <- total_scale. apply total_ext. intros e _. ring.
    - intros e _. unfold component. rewrite expect_sum. apply total_ext. intros k _. apply total_ext. intros l _. unfold zz. generalize (elem V O n k l). intros w. destruct (Req_EM_T (en k) e), (Req_EM_T (en l) e); cbn; ring.
  Qed.
  Hypothesis nores : no_resonance dt E.
  Definition rate (k l : nat) : R := if Req_EM_T (en k) (en l) then 0 else (Rabs (fst (zz k l)) + Rabs (snd (zz k l))) * gbound (dt * (en k - en l)).
  Lemma pair_mean k l N : (k < L)%nat -> (l < L)%nat -> (1 <= N)%nat -> Rabs (total (fun j => fst (cexp (INR j * dt * (en k - en l)) *c zz k l)) (seq 0 N) / INR N - same k l * fst (zz k l)) <= rate k l / INR N.
  Proof using nores.
    clear basis. intros Hk Hl HN. assert (PN : 0 < INR N) by (apply lt_0_INR; lia). unfold same, rate. destruct (Req_EM_T (en k) (en l)) as [Q|Q].
    - rewrite (total_ext _ (fun _ => 1 * fst (zz k l))).
      + assert (T : forall l0 : list nat, total (fun _ => 1 * fst (zz k l)) l0 = INR (length l0) * fst (zz k l)) by (induction l0 as [|a l0 IH]; [cbn; ring|]; cbn [total fold_right]; fold (total (fun _ : nat => 1 * fst (zz k l)) l0); rewrite IH; cbn [length]; rewrite S_INR; ring).
        rewrite T, seq_length. replace (INR N * fst (zz k l) / INR N - 1 * fst (zz k l)) with 0 by (field; lra). rewrite Rabs_R0. unfold Rdiv. rewrite Rmult_0_l. lra.
      + intros j _. rewrite Q. replace (INR j * dt * (en l - en l)) with 0 by ring. rewrite cexp_0. cbn. ring.
    - assert (NC : cos (dt * (en k - en l)) <> 1) by (apply nores; try exact Q; apply nth_In; assumption). set (z := dt * (en k - en l)) in *.
      destruct (geo_bound z N NC) as (B1 & B2). set (w := zz k l). rewrite (total_ext _ (fun j => fst (cexp (INR j * z) *c w))) by (intros j _; replace (INR j * dt * (en k - en l)) with (INR j * z) by (unfold z; ring); reflexivity).
      rewrite <- (csum_n N _ fst (or_introl eq_refl)). rewrite ksum_mul_r. set (s := ksum N _) in *. replace (fst (s *c w) / INR N - 0 * fst w) with (fst (s *c w) / INR N) by ring. unfold Rdiv. rewrite Rabs_mult, (Rabs_pos_eq (/ INR N)) by (left; apply Rinv_0_lt_compat, PN).
      apply Rmult_le_compat_r; [left; apply Rinv_0_lt_compat, PN|]. clearbody s w. destruct s as (s1, s2), w as (w1, w2). cbn in *. unfold Rminus. eapply Rle_trans; [apply Rabs_triang|]. rewrite Rabs_Ropp, !Rabs_mult.
      pose proof (Rabs_pos w1). pose proof (Rabs_pos w2). rewrite Rmult_plus_distr_r. apply Rplus_le_compat; rewrite Rmult_comm; apply Rmult_le_compat_l; assumption.
  Qed.
  Theorem long_mean : exists C, forall N, (1 <= N)%nat -> Rabs (total (fun j => expect n O (evolve V E psi (INR j * dt))) (seq 0 N) / INR N - dephased V O E psi) <= C / INR N.
  Proof using basis nores.
    exists (total (fun k => total (fun l => rate k l) (seq 0 L)) (seq 0 L)). intros N HN. rewrite dephased_sum. rewrite (total_ext _ (fun j => total (fun k => total (fun l => fst (cexp (INR j * dt * (en k - en l)) *c zz k l)) (seq 0 L)) (seq 0 L))) by (intros j _; apply expect_at).
    rewrite total_swap. unfold Rdiv. rewrite !(Rmult_comm _ (/ INR N)). rewrite <- !total_scale.
    rewrite total_minus.
    eapply Rle_trans; [apply total_abs|]. apply total_le. intros k Hk. apply in_seq in Hk. rewrite total_swap, <- !total_scale.
    rewrite <- total_add.
    eapply Rle_trans; [apply total_abs|]. apply total_le. intros l Hl. apply in_seq in Hl. pose proof (pair_mean k l N ltac:(lia) ltac:(lia) HN) as P. unfold Rdiv in P.
    replace (/ INR N * total (fun a => fst (cexp (INR a * dt * (en k - en l)) *c zz k l)) (seq 0 N) + -1 * (same k l * fst (zz k l))) with (total (fun a => fst (cexp (INR a * dt * (en k - en l)) *c zz k l)) (seq 0 N) * / INR N - same k l * fst (zz k l)) by ring.
    rewrite (Rmult_comm (/ INR N)). exact P.
  Qed.
End Long.

(** Through the programme. *)
Theorem mean_api H V O E st k dt : eigenbasis H V E -> (k < ncol (as_columns st))%nat -> nrow O = nrow V -> ncol O = nrow V -> no_resonance dt E ->
  exists C, forall N Ms v, (1 <= N)%nat -> quench st V E (steps dt N) = Ok Ms -> exp_vals (Columns (nth k Ms (mzero 0 0))) O = Ok v ->
    Rabs (mean v - dephased V O E (col (as_columns st) k)) <= C / INR N.
Proof.
  intros B Hk O1 O2 NR. destruct (long_mean H V O E (col (as_columns st) k) dt B NR) as (C & W). exists C. intros N Ms v HN EQ EX. rewrite (path_of V E st _ Ms k O EQ Hk O1 O2) in EX. injection EX as <-.
  assert (LS : length (steps dt N) = N) by (unfold steps; rewrite map_length, seq_length; reflexivity). unfold mean. rewrite map_length, seq_length, LS, total_map.
  rewrite (total_ext _ (fun j => expect (nrow V) O (evolve V E (col (as_columns st) k) (INR j * dt)))); [apply W, HN|]. intros j Hj. apply in_seq in Hj. do 2 f_equal. unfold steps. rewrite (map_seq_nth (fun j => INR j * dt)) by lia. reflexivity.
Qed.
(** Short steps. *)
Theorem short_steps dt E : (forall x y, In x E -> In y E -> Rabs (dt * (x - y)) < 2 * PI) -> dt <> 0 -> no_resonance dt E.
Proof.
  intros SH ND x y Hx Hy NE Q. set (z := dt * (x - y)) in *. assert (NZ : z <> 0) by (unfold z; apply Rmult_integral_contrapositive_currified; [exact ND | lra]). specialize (SH x y Hx Hy). fold z in SH.
  assert (P : 0 < Rabs z) by (apply Rabs_pos_lt, NZ). assert (CA : cos (Rabs z) = 1) by (unfold Rabs; destruct (Rcase_abs z); [rewrite cos_neg|]; exact Q). set (a := Rabs z) in *. clearbody a. clear - P CA SH.
  pose proof (cos_2a_sin (a / 2)) as D. replace (2 * (a / 2)) with a in D by field. assert (S0 : sin (a / 2) * sin (a / 2) = 0) by lra. pose proof (sin_gt_0 (a / 2) ltac:(lra) ltac:(lra)). nra.
Qed.
(** Without degeneracies. *)
Theorem diagonal_ensemble H V O E psi : eigenbasis H V E -> NoDup E -> dephased V O E psi = total (fun k => nsq (inner (nrow V) (col V k) psi) * expect (nrow V) O (col V k)) (seq 0 (length E)).
Proof.
  intros B ND. rewrite dephased_sum. apply total_ext. intros k Hk. apply in_seq in Hk. 
  rewrite (total_ext _ (fun l => (if (l =? k)%nat then 1 else 0) * fst (zz V O psi k l))).
  - assert (P : forall M, total (fun l => (if (l =? k)%nat then 1 else 0) * fst (zz V O psi k l)) (seq 0 M) = (if (k <? M)%nat then fst (zz V O psi k k) else 0)).
    { induction M as [|M IH]; [reflexivity|]. rewrite seq_S, total_app, IH. cbn [total fold_right Nat.add]. destruct (Nat.eqb_spec M k) as [->|NE]; [rewrite Nat.ltb_irrefl, (proj2 (Nat.ltb_lt k (S k))) by lia; ring|].
      destruct (Nat.ltb_spec k M), (Nat.ltb_spec k (S M)); try lia; ring. }
    rewrite P, (proj2 (Nat.ltb_lt k (length E))) by lia. unfold zz, elem, expect, nsq. generalize (inner (nrow V) (col V k) psi), (inner (nrow V) (col V k) (apply (nrow V) O (col V k))). intros (a, b) (c, d). cbn. ring.
  - intros l Hl. apply in_seq in Hl. f_equal. unfold same. destruct (Req_EM_T (nth k E 0) (nth l E 0)) as [Q|Q], (Nat.eqb_spec l k) as [->|NE]; try reflexivity; [|congruence]. exfalso. apply NE. symmetry. apply (proj1 (NoDup_nth E 0) ND); [lia | lia | exact Q].
Qed.
(** Components do not depend on the eigenbasis. *)
Lemma component_unique H V V' E E' psi e i : eigenbasis H V E -> eigenbasis H V' E' -> (i < nrow V)%nat -> component V E psi e i = component V' E' psi e i.
Proof.
  intros B B' Hi. assert (same : nrow V' = nrow V) by (destruct B as ((_ & X & _) & _), B' as ((_ & X' & _) & _); congruence).
  pose proof (SymAverage.eigenbasis_hermitian _ _ _ B) as HM. assert (C : complete_basis V) by apply B. assert (C' : complete_basis V') by apply B'. assert (LV : ncol V = length E) by apply B. assert (LV' : ncol V' = length E') by apply B'.
  unfold component. rewrite same. set (n := nrow V) in *. set (q := fun y => if Req_EM_T y e then c1 else c0 : CR).
  assert (IN : forall y w, (if Req_EM_T y e then w else c0) = q y *c w) by (intros y w; unfold q; destruct (Req_EM_T y e); ring).
  rewrite (ksum_ext (length E) _ (fun k => col V k i *c (q (nth k E 0) *c inner n (col V k) psi))) by (intros k Hk; change k0 with c0; rewrite IN; reflexivity).
  rewrite (ksum_ext (length E') _ (fun l => ksum (length E) (fun k => col V k i *c (q (nth k E 0) *c (inner n (col V k) (col V' l) *c inner n (col V' l) psi))))).
  - rewrite ksum_swap. apply ksum_ext. intros k Hk. rewrite !ksum_mul_l. f_equal. f_equal. pose proof (complete_inner V' (col V k) psi C') as Q. rewrite same, LV' in Q. exact Q.
  - intros l Hl. pose proof (C (col V' l) i Hi) as Q. cbn beta in Q. rewrite LV in Q. change k0 with c0. rewrite IN. change (ent V' i l) with (col V' l i). rewrite Q at 1. rewrite <- ksum_mul_r. apply ksum_ext. intros k Hk. fold n. change (ent V i k) with (col V k i).
    destruct (Req_EM_T (nth k E 0) (nth l E' 0)) as [->|NE]; [ring|].
    assert (Z : inner n (col V k) (col V' l) = c0).
    { destruct (Req_EM_T (nsq (inner n (col V k) (col V' l))) 0) as [Q0|Q0]; [apply nsq_0, Q0|]. exfalso. apply NE. apply (overlap_energy H V V' E E' HM B B' same k l ltac:(lia) ltac:(lia)). intros X. apply Q0. apply nsq_0. exact X. }
    rewrite Z. ring.
Qed.
Theorem dephased_unique H V V' O E E' psi : eigenbasis H V E -> eigenbasis H V' E' -> dephased V O E psi = dephased V' O E' psi.
Proof.
  intros B B'. assert (same : nrow V' = nrow V) by (destruct B as ((_ & X & _) & _), B' as ((_ & X' & _) & _); congruence). unfold dephased. rewrite same.
  pose proof (ChainSpectrum.energies_perm H V V' E E' (SymAverage.eigenbasis_hermitian _ _ _ B) B B' same) as P.
  rewrite (total_perm _ (nodup Req_EM_T E) (nodup Req_EM_T E')).
  - apply total_ext. intros e _. apply expect_ext. intros i Hi. apply (component_unique H); assumption.
  - apply NoDup_Permutation; try apply NoDup_nodup. intros y. rewrite !nodup_In. split; [apply Permutation_in, P | apply Permutation_in, Permutation_sym, P].
Qed.
