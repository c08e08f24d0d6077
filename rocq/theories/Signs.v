(** Hamiltonians whose off-diagonal entries have fixed signs: ground states without
    nodes, and signs of averages. *)
From Coq Require Import List Arith Lia Reals Lra Bool.
From Verif Require Import Scalars Res Sums Matrix ModelGeometry ModelPhase ModelSymmetry SymBase ModelBase ModelThermal SpecThermal ThermalBase ThermalFacts ThermalBasis Spectral Thermo SpecHeat HeatCore SpecConvex Convex SpecSigns.
From Verif Require SymAverage.
Import ListNotations.
Local Open Scope R_scope.

Lemma sign_sq n eps a : signs n eps -> (a < n)%nat -> eps a * eps a = 1.
Proof. intros S Ha. destruct (S a Ha) as [->| ->]; ring. Qed.
Definition size (z : CR) : R := sqrt (abs2 z).
Lemma size_sq z : size z * size z = abs2 z.
Proof. apply sqrt_def. unfold abs2. nra. Qed.
Lemma size_pos z : 0 <= size z. Proof. apply sqrt_pos. Qed.
Lemma size_zero z : size z = 0 -> z = c0.
Proof.
  intros S. pose proof (size_sq z) as X. rewrite S in X. destruct z as (x, y). unfold abs2 in X. cbn in X. assert (x = 0) by nra. assert (y = 0) by nra. subst. reflexivity.
Qed.
(** Real part of the product of one number with the conjugate of another one. *)
Lemma size_cauchy (z w : CR) : fst (conj z *c w) <= size z * size w.
Proof.
  destruct z as (a, b), w as (c, d). cbn. pose proof (size_sq (a, b)) as X. pose proof (size_sq (c, d)) as Y. unfold abs2 in X, Y. cbn in X, Y. pose proof (size_pos (a, b)). pose proof (size_pos (c, d)).
  set (p := size (a, b)) in *. set (q := size (c, d)) in *. destruct (Rle_dec (a * c + b * d) 0) as [L|L]; [assert (0 <= p * q) by (apply Rmult_le_pos; assumption); lra|].
  assert (Z : (a * c + b * d) * (a * c + b * d) <= (p * q) * (p * q)).
  { replace ((p * q) * (p * q)) with ((p * p) * (q * q)) by ring. rewrite X, Y. pose proof (Rle_0_sqr (a * d - b * c)) as S. unfold Rsqr in S. lra. }
  apply Rsqr_incr_0_var; [unfold Rsqr; lra | apply Rmult_le_pos; assumption].
Qed.

Section Nodes.
  Variables (H V : mat CR) (E : list R) (n : nat) (eps : nat -> R).
  Hypothesis basis : eigenbasis H V E.
  Hypothesis rows : nrow V = n.
  Hypothesis sgn : signs n eps.
  Hypothesis low : lowers n eps H.
  Notation l := (seq 0 (length E)).

  Lemma H_herm : hermitian n H.
  Proof using basis rows. rewrite <- rows. apply (SymAverage.eigenbasis_hermitian H V E basis). Qed.
  Lemma H_diag a : (a < n)%nat -> snd (ent H a a) = 0.
  Proof using basis rows. intros Ha. pose proof (H_herm a a Ha Ha) as X. apply (f_equal snd) in X. cbn in X. lra. Qed.
  (** A state as low as the ground states is a ground state. *)
  Lemma lowest_state psi e : smallest e E -> expect n H psi <= e * norm2 n psi -> state_of n H e psi.
  Proof using basis rows.
    intros (_ & LE) EX a Ha.
    assert (Z : forall k, (k < length E)%nat -> nth k E 0 = e \/ inner n (col V k) psi = c0).
    { rewrite (share_sum H V E n basis rows), (share_energy H V E n basis rows), <- total_scale in EX.
      intros k Hk. destruct (Req_EM_T (nth k E 0) e) as [Q|Q]; [left; exact Q|right].
      assert (P : forall j, In j l -> 0 <= share V n psi j * nth j E 0 - e * share V n psi j).
      { intros j Hj. apply in_seq in Hj. pose proof (share_pos V n psi j). assert (e <= nth j E 0) by (apply LE, nth_In; lia). nra. }
      assert (S : total (fun j => share V n psi j * nth j E 0 - e * share V n psi j) l <= 0).
      { rewrite (total_ext _ (fun j => share V n psi j * nth j E 0 + -1 * (e * share V n psi j))) by (intros; ring). rewrite total_add, total_scale. lra. }
      assert (S0 : share V n psi k * nth k E 0 - e * share V n psi k <= 0).
      { clear - P S Hk. assert (IN : In k l) by (apply in_seq; lia). revert P S IN. generalize l. intros L P S IN. revert P S IN. induction L as [|j L IH]; intros P S IN; [destruct IN|]. destruct IN as [->|IN].
        - rewrite total_cons in S. assert (0 <= total (fun j => share V n psi j * nth j E 0 - e * share V n psi j) L) by (apply total_ge0; intros i Hi; apply P; right; exact Hi). lra.
        - rewrite total_cons in S. apply IH; [intros i Hi; apply P; right; exact Hi | | exact IN]. specialize (P j (or_introl eq_refl)). lra. }
      assert (e <= nth k E 0) by (apply LE, nth_In; lia). pose proof (share_pos V n psi k) as SP.
      assert (share V n psi k = 0) by nra. apply size_zero. unfold size. fold (share V n psi k). rewrite H1. apply sqrt_0. }
    destruct basis as ((L & S1 & S2 & EV) & ON & C). rewrite rows in *.
    assert (C' : forall i, (i < n)%nat -> psi i = ksum (ncol V) (fun k => ent V i k *c inner n (col V k) psi)) by (intros i Hi; pose proof (C psi i) as X; rewrite rows in X; apply X; exact Hi).
    unfold apply. rewrite (ksum_ext n _ (fun j => ksum (ncol V) (fun k => (ent H a j *c ent V j k) *c inner n (col V k) psi))).
    - rewrite ksum_swap, (C' a Ha), <- ksum_mul_l. apply ksum_ext. intros k Hk. rewrite ksum_mul_r.
      change (ksum n (fun j => ent H a j *c ent V j k)) with (apply n H (col V k) a). rewrite (EV a k Ha Hk).
      destruct (Z k ltac:(lia)) as [->| ->]; apply injective_projections; cbn; ring.
    - intros j Hj. rewrite (C' j Hj) at 1. rewrite <- ksum_mul_l. apply ksum_ext. intros k _. ring.
  Qed.
  (** Energy of a state. *)
  Lemma state_energy psi e : state_of n H e psi -> expect n H psi = e * norm2 n psi.
  Proof using.
    intros ST. unfold expect, norm2. rewrite (inner_ext n psi psi _ (fun i => real e *c psi i)); [|reflexivity | intros i Hi; apply ST; exact Hi]. rewrite inner_scale. cbn. ring.
  Qed.
  (** The state with the sizes of the amplitudes and the signs. *)
  Definition upright (psi : nat -> CR) (a : nat) : CR := real (eps a * size (psi a)).
  Lemma upright_norm psi : norm2 n (upright psi) = norm2 n psi.
  Proof using sgn.
    clear - sgn. unfold norm2, inner. rewrite !fst_ksum, !rsum_total. apply total_ext. intros a Ha. apply in_seq in Ha. unfold upright. pose proof (sign_sq n eps a sgn ltac:(lia)) as S. pose proof (size_sq (psi a)) as Q. unfold abs2 in Q.
    destruct (psi a) as (x, y). cbn in *. nra.
  Qed.
  Lemma expect_entries psi : expect n H psi = total (fun a => total (fun b => fst (conj (psi a) *c (ent H a b *c psi b))) (seq 0 n)) (seq 0 n).
  Proof using.
    unfold expect, inner, apply. rewrite fst_ksum, rsum_total. apply total_ext. intros a _. rewrite <- ksum_mul_l, fst_ksum, rsum_total. reflexivity.
  Qed.
  Lemma upright_energy psi : expect n H (upright psi) <= expect n H psi.
  Proof using basis rows sgn low.
    rewrite !expect_entries. apply total_le. intros a Ha. apply total_le. intros b Hb. apply in_seq in Ha, Hb. unfold upright.
    assert (Q : snd (ent H a b) = 0) by (destruct (Nat.eq_dec a b) as [->|N]; [apply H_diag; lia | apply low; lia || exact N]).
    replace (fst (conj (psi a) *c (ent H a b *c psi b))) with (fst (ent H a b) * fst (conj (psi a) *c psi b)) by (destruct (psi a), (psi b), (ent H a b); cbn in *; subst; ring).
    replace (fst (conj (real (eps a * size (psi a))) *c (ent H a b *c real (eps b * size (psi b))))) with (fst (ent H a b) * (eps a * eps b) * (size (psi a) * size (psi b))) by (destruct (ent H a b); cbn in *; subst; ring).
    destruct (Nat.eq_dec a b) as [->|N].
    - rewrite (sign_sq n eps b sgn ltac:(lia)), size_sq. right. unfold abs2. destruct (psi b); cbn. ring.
    - destruct (low a b ltac:(lia) ltac:(lia) N) as (_ & LO). pose proof (size_cauchy (psi a) (psi b)) as CS.
      assert (CS' : - (size (psi a) * size (psi b)) <= fst (conj (psi a) *c psi b)).
      { pose proof (size_cauchy (psi a) (@kopp CR _ (psi b))) as X. assert (size (@kopp CR _ (psi b)) = size (psi b)) by (unfold size, abs2; destruct (psi b); cbn; f_equal; ring). rewrite H0 in X. destruct (psi a), (psi b). cbn in *. lra. }
      destruct (sgn a ltac:(lia)) as [Ea|Ea], (sgn b ltac:(lia)) as [Eb|Eb]; rewrite Ea, Eb in *; nra.
  Qed.

  Hypothesis all : forall a b, (a < n)%nat -> (b < n)%nat -> joined n H a b.
  Lemma upright_state psi e : smallest e E -> state_of n H e psi -> state_of n H e (upright psi).
  Proof using basis rows sgn low.
    clear all. intros SM ST. apply lowest_state; [exact SM|]. rewrite upright_norm, <- (state_energy psi e ST). apply upright_energy.
  Qed.
  (** A zero spreads over all states. *)
  Lemma spread psi e a b : smallest e E -> state_of n H e psi -> (a < n)%nat -> psi a = c0 -> (b < n)%nat -> ent H a b <> (0, 0) -> psi b = c0.
  Proof using basis rows sgn low.
    clear all. intros SM ST Ha Z Hb LK. destruct (Nat.eq_dec a b) as [<-|N]; [exact Z|].
    pose proof (upright_state psi e SM ST a Ha) as X. unfold upright in X at 2. rewrite Z in X. unfold size in X at 1. 
    assert (X' : fst (apply n H (upright psi) a) = 0) by (rewrite X; unfold abs2; cbn; rewrite !Rmult_0_l, Rplus_0_r, sqrt_0; ring). clear X.
    unfold apply in X'. rewrite fst_ksum, rsum_total in X'.
    assert (NP : forall j, In j (seq 0 n) -> 0 <= -1 * eps a * fst (ent H a j *c upright psi j)).
    { intros j Hj. apply in_seq in Hj. unfold upright. destruct (Nat.eq_dec a j) as [<-|Nj]; [rewrite Z; unfold size, abs2; cbn; rewrite !Rmult_0_l, Rplus_0_r, sqrt_0; lra|].
      destruct (low a j Ha ltac:(lia) Nj) as (Q1 & Q2). pose proof (size_pos (psi j)). replace (fst (ent H a j *c real (eps j * size (psi j)))) with (fst (ent H a j) * (eps j * size (psi j))) by (cbn; rewrite Q1; ring). nra. }
    assert (T0 : total (fun j => -1 * eps a * fst (ent H a j *c upright psi j)) (seq 0 n) <= 0) by (rewrite total_scale, X'; lra).
    assert (B0 : -1 * eps a * fst (ent H a b *c upright psi b) <= 0).
    { clear - NP T0 Hb. assert (IN : In b (seq 0 n)) by (apply in_seq; lia). revert NP T0 IN. generalize (seq 0 n). intros L. induction L as [|j L IH]; intros NP T0 IN; [destruct IN|]. rewrite total_cons in T0. destruct IN as [->|IN].
      - assert (0 <= total (fun j => -1 * eps a * fst (ent H a j *c upright psi j)) L) by (apply total_ge0; intros i Hi; apply NP; right; exact Hi). lra.
      - apply IH; [intros i Hi; apply NP; right; exact Hi | | exact IN]. specialize (NP j (or_introl eq_refl)). lra. }
    assert (B1 : 0 <= -1 * eps a * fst (ent H a b *c upright psi b)) by (apply NP, in_seq; lia).
    destruct (low a b Ha Hb N) as (Q1 & Q2). unfold upright in B0, B1.
    replace (fst (ent H a b *c real (eps b * size (psi b)))) with (fst (ent H a b) * (eps b * size (psi b))) in * by (cbn; rewrite Q1; ring).
    assert (NZ : fst (ent H a b) <> 0) by (intros W; apply LK; apply injective_projections; assumption).
    apply size_zero. destruct (sgn a Ha) as [Ea|Ea], (sgn b Hb) as [Eb|Eb]; rewrite Ea, Eb in *; assert (W : fst (ent H a b) * size (psi b) = 0) by lra; apply Rmult_integral in W as [W|W]; tauto.
  Qed.
  Lemma vanish psi e a : smallest e E -> state_of n H e psi -> (a < n)%nat -> psi a = c0 -> forall b, (b < n)%nat -> psi b = c0.
  Proof using All.
    intros SM ST Ha Z b Hb. pose proof (all a b Ha Hb) as J. clear Hb. induction J as [|b c J IH Hb Hc L]; [exact Z|]. apply (spread psi e b c); auto.
  Qed.
  (** Ground states have no zeros. *)
  Theorem nodeless psi e a : smallest e E -> state_of n H e psi -> (exists b, (b < n)%nat /\ psi b <> c0) -> (a < n)%nat -> psi a <> c0.
  Proof using All. intros SM ST (b & Hb & NZ) Ha Z. apply NZ, (vanish psi e a); assumption. Qed.
  (** Two ground states are multiples of each other. *)
  Theorem parallel psi phi e a b : smallest e E -> state_of n H e psi -> state_of n H e phi -> (a < n)%nat -> (b < n)%nat -> phi a *c psi b = psi a *c phi b.
  Proof using All.
    intros SM S1 S2 Ha Hb.
    assert (ST : state_of n H e (fun i => (phi a *c psi i) -c (psi a *c phi i))).
    { intros i Hi. pose proof (S1 i Hi) as X1. pose proof (S2 i Hi) as X2. unfold apply in *.
      rewrite (ksum_ext n _ (fun j => phi a *c (ent H i j *c psi j) -c psi a *c (ent H i j *c phi j))) by (intros; ring). rewrite ksum_minus, !ksum_mul_l, X1, X2. apply injective_projections; cbn; ring. }
    pose proof (vanish _ e a SM ST Ha ltac:(cbv beta; ring) b Hb) as X. cbv beta in X.
    transitivity ((phi a *c psi b -c psi a *c phi b) +c psi a *c phi b); [ring|]. rewrite X. ring.
  Qed.
  Lemma col_state k : (k < length E)%nat -> state_of n H (nth k E 0) (col V k).
  Proof using basis rows. clear all low sgn. intros Hk a Ha. destruct basis as ((L & S1 & S2 & EV) & _). rewrite rows in EV. apply EV; [exact Ha | lia]. Qed.
  (** The lowest energy belongs to one column only. *)
  Theorem one_ground e k j : smallest e E -> (k < length E)%nat -> (j < length E)%nat -> nth k E 0 = e -> nth j E 0 = e -> k = j.
  Proof using All.
    intros SM Hk Hj Ek Ej. destruct (Nat.eq_dec k j) as [|N]; [assumption|exfalso].
    pose proof (col_state k Hk) as Sk. pose proof (col_state j Hj) as Sj. rewrite Ek in Sk. rewrite Ej in Sj.
    destruct basis as ((L & _) & ON & _). pose proof (ON k j ltac:(lia) ltac:(lia)) as O1. pose proof (ON k k ltac:(lia) ltac:(lia)) as O2. pose proof (ON j j ltac:(lia) ltac:(lia)) as O3. rewrite rows in *.
    rewrite Nat.eqb_refl in O2, O3. rewrite (proj2 (Nat.eqb_neq k j) N) in O1.
    assert (n0 : n <> 0%nat) by (intros n0; rewrite n0 in O2; apply (f_equal fst) in O2; cbn in O2; lra).
    assert (P : forall b, (b < n)%nat -> col V j 0%nat *c col V k b = col V k 0%nat *c col V j b) by (intros b Hb; apply (parallel (col V k) (col V j) e); assumption || lia).
    assert (X : col V k 0%nat *c inner n (col V k) (col V j) = col V j 0%nat *c inner n (col V k) (col V k)).
    { rewrite <- !inner_scale. apply inner_ext; [reflexivity|]. intros b Hb. symmetry. apply P, Hb. }
    rewrite O1, O2 in X. cbn [kb] in X.
    assert (Z : col V j 0%nat = c0) by (transitivity (col V j 0%nat *c c1); [ring|]; transitivity (col V k 0%nat *c c0); [symmetry; exact X | ring]).
    assert (ZZ : forall b, (b < n)%nat -> col V j b = c0) by (intros b Hb; apply (vanish (col V j) e 0%nat); assumption || lia).
    unfold inner in O3. rewrite ksum_zero in O3; [apply (f_equal fst) in O3; cbn in O3; lra|]. intros i Hi. rewrite (ZZ i Hi). apply injective_projections; cbn; ring.
  Qed.
  (** A ground state is a phase times positive numbers times the signs. *)
  Theorem upright_phase psi e : smallest e E -> state_of n H e psi -> exists z, abs2 z = 1 /\ forall a, (a < n)%nat -> psi a = z *c real (eps a * size (psi a)).
  Proof using All.
    intros SM ST. destruct (Nat.eq_dec n 0) as [n0|n0]; [exists c1; split; [unfold abs2; cbn; ring | intros; lia]|].
    destruct (Req_EM_T (size (psi 0%nat)) 0) as [Z|Z].
    - apply size_zero in Z. exists c1. split; [unfold abs2; cbn; ring|]. intros a Ha. rewrite (vanish psi e 0%nat SM ST ltac:(lia) Z a Ha). apply injective_projections; cbn; unfold size, abs2; cbn; rewrite ?Rmult_0_l, ?Rplus_0_r, ?sqrt_0; ring.
    - pose proof (upright_state psi e SM ST) as SU. set (s0 := size (psi 0%nat)) in *. pose proof (size_sq (psi 0%nat)) as Q. fold s0 in Q.
      assert (SE : eps 0%nat * eps 0%nat = 1) by (apply (sign_sq n); [assumption | lia]).
      exists (real (eps 0%nat / s0) *c psi 0%nat). split.
      + unfold abs2 in *. destruct (psi 0%nat) as (x, y). cbn in *. 
        transitivity ((eps 0%nat * eps 0%nat) * (x * x + y * y) / (s0 * s0)); [field; exact Z|]. rewrite SE. rewrite Q. rewrite Rmult_1_l. unfold Rdiv. apply Rinv_r. rewrite <- Q. intros W. apply Rmult_integral in W. tauto.
      + intros a Ha. pose proof (parallel psi (upright psi) e 0%nat a SM ST SU ltac:(lia) Ha) as P. unfold upright in P. fold s0 in P.
        transitivity (real (eps 0%nat / s0) *c (real (eps 0%nat * s0) *c psi a)).
        * transitivity (real ((eps 0%nat * eps 0%nat) * (s0 / s0)) *c psi a); [rewrite SE; unfold Rdiv; rewrite Rinv_r by exact Z; apply injective_projections; cbn; ring | apply injective_projections; cbn; field; exact Z].
        * rewrite P. ring.
  Qed.
End Nodes.
