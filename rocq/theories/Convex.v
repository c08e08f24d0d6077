(** Two Hamiltonians: free energies, lowest energies and averages of the difference. *)
From Coq Require Import List Arith Lia Reals Lra Bool.
From Verif Require Import Scalars Res Sums Matrix ModelGeometry ModelPhase ModelSymmetry SymBase ModelBase ModelThermal SpecThermal ThermalBase ThermalFacts ThermalBasis Spectral Thermo SpecHeat HeatCore SpecConvex.
From Verif Require SymAverage.
Import ListNotations.
Local Open Scope R_scope.

Lemma exp_tangent x y : exp y * (1 + x - y) <= exp x.
Proof.
  destruct (Req_EM_T x y) as [->|N]; [replace (1 + y - y) with 1 by ring; lra|].
  assert (X : 1 + (x - y) < exp (x - y)) by (apply exp_ineq1; lra). pose proof (exp_pos y) as P.
  replace (exp x) with (exp y * exp (x - y)) by (rewrite <- exp_plus; f_equal; ring). nra.
Qed.
Lemma total_swap {A B} (f : A -> B -> R) l m : total (fun a => total (f a) m) l = total (fun b => total (fun a => f a b) l) m.
Proof.
  induction l as [|a l IH]; [cbn; symmetry; apply total_zero; reflexivity|]. rewrite total_cons, IH, <- total_add. apply total_ext. intros b _. reflexivity.
Qed.

Lemma ksum_minus n (f g : nat -> CR) : ksum n (fun i => f i -c g i) = ksum n f -c ksum n g.
Proof. induction n as [|n IH]; cbn [ksum]; [apply injective_projections; cbn; ring|]. rewrite IH. ring. Qed.
(** ** Expectation values in an eigenbasis *)
Section One.
  Variables (H V : mat CR) (E : list R) (n : nat).
  Hypothesis basis : eigenbasis H V E.
  Hypothesis rows : nrow V = n.
  Notation l := (seq 0 (length E)).
  Definition share (psi : nat -> CR) (k : nat) : R := abs2 (inner n (col V k) psi).
  Lemma share_pos psi k : 0 <= share psi k.
  Proof using. unfold share, abs2. nra. Qed.
  Lemma share_sum psi : norm2 n psi = total (share psi) l.
  Proof using basis rows.
    destruct basis as ((L & _) & _ & C). unfold norm2. rewrite <- rows at 1. rewrite (complete_inner V psi psi C), fst_ksum, rsum_total, L, rows. apply total_ext. intros k _.
    rewrite <- (inner_conj n (col V k) psi). unfold share, abs2. destruct (inner n (col V k) psi) as (a, b). cbn. ring.
  Qed.
  Lemma share_energy psi : expect n H psi = total (fun k => share psi k * nth k E 0) l.
  Proof using basis rows.
    pose proof (SymAverage.eigenbasis_hermitian H V E basis) as HH. rewrite rows in HH. destruct basis as ((L & S1 & S2 & EV) & ON & C). rewrite rows in *. unfold expect.
    pose proof (complete_inner V psi (apply n H psi) C) as X. rewrite rows in X. rewrite X, fst_ksum, rsum_total, L. apply total_ext. intros k Hk. apply in_seq in Hk.
    rewrite (inner_apply_herm n H (col V k) psi HH), (inner_ext n _ (fun i => real (nth k E 0) *c col V k i) psi psi); [|intros i Hi; apply EV; [exact Hi | lia] | reflexivity].
    rewrite inner_scale_l, <- (inner_conj n (col V k) psi). unfold share, abs2. destruct (inner n (col V k) psi) as (a, b). cbn. ring.
  Qed.
  (** No state has a lower energy than the lowest level. *)
  Lemma variational psi e : smallest e E -> e * norm2 n psi <= expect n H psi.
  Proof using basis rows.
    intros (_ & LE). rewrite share_sum, share_energy, <- total_scale. apply total_le. intros k Hk. apply in_seq in Hk. rewrite Rmult_comm. apply Rmult_le_compat_l; [apply share_pos|]. apply LE, nth_In. lia.
  Qed.
End One.

Section Two.
  Variables (H1 V1 H2 V2 : mat CR) (E1 E2 : list R) (n : nat).
  Hypothesis b1 : eigenbasis H1 V1 E1.
  Hypothesis b2 : eigenbasis H2 V2 E2.
  Hypothesis r1 : nrow V1 = n.
  Hypothesis r2 : nrow V2 = n.
  Hypothesis some : n <> 0%nat.
  Notation l1 := (seq 0 (length E1)).
  Notation l2 := (seq 0 (length E2)).
  Notation ev O k := (expect n O (col V1 k)).
  Notation D := (msub H2 H1).

  Lemma unit1 k : (k < length E1)%nat -> norm2 n (col V1 k) = 1.
  Proof using b1 r1.
    clear b2 r2 some. intros Hk. destruct b1 as ((L & _) & ON & _). unfold norm2. pose proof (ON k k ltac:(lia) ltac:(lia)) as X. rewrite r1 in X. rewrite X, Nat.eqb_refl. reflexivity.
  Qed.
  Lemma share_cols l : (l < length E2)%nat -> total (fun k => share V2 n (col V1 k) l) l1 = 1.
  Proof using b1 b2 r1 r2.
    clear some. intros Hl. rewrite (total_ext _ (fun k => share V1 n (col V2 l) k)).
    - rewrite <- (share_sum H1 V1 E1 n b1 r1). destruct b2 as ((L & _) & ON & _). unfold norm2. pose proof (ON l l ltac:(lia) ltac:(lia)) as X. rewrite r2 in X. rewrite X, Nat.eqb_refl. reflexivity.
    - intros k _. unfold share. rewrite <- (inner_conj n (col V1 k) (col V2 l)). unfold abs2. destruct (inner n (col V1 k) (col V2 l)) as (a, b). cbn. ring.
  Qed.
  Lemma ev_D k : (k < length E1)%nat -> ev D k = ev H2 k - nth k E1 0.
  Proof using b1 r1.
    clear b2 r2 some. intros Hk. pose proof (ev_H1 H1 V1 E1 b1 k Hk) as X. rewrite r1 in X. rewrite <- X. unfold expect.
    assert (Y : inner n (col V1 k) (apply n D (col V1 k)) = inner n (col V1 k) (apply n H2 (col V1 k)) -c inner n (col V1 k) (apply n H1 (col V1 k))); [|rewrite Y; cbn; ring].
    unfold inner. rewrite <- ksum_minus. apply ksum_ext. intros i Hi. unfold apply. cbn [msub ent].
    rewrite (ksum_ext n (fun j => (ent H2 i j -c ent H1 i j) *c col V1 k j) (fun j => ent H2 i j *c col V1 k j -c ent H1 i j *c col V1 k j)) by (intros; ring). rewrite ksum_minus. ring.
  Qed.
  Lemma sized_D : nrow D = n /\ ncol D = n.
  Proof using b2 r2. destruct b2 as ((_ & S1 & S2 & _) & _). cbn [msub nrow ncol]. rewrite S1, S2. auto. Qed.

  (** Peierls. *)
  Lemma peierls T : total (fun k => exp (- ev H2 k / T)) l1 <= zustand T E2.
  Proof using b1 b2 r1 r2.
    clear some. assert (Z : zustand T E2 = total (fun k => total (fun l => share V2 n (col V1 k) l * exp (- nth l E2 0 / T)) l2) l1).
    { rewrite total_swap. unfold zustand. rewrite (total_nth (fun e => exp (- e / T))). apply total_ext. intros l Hl. apply in_seq in Hl.
      rewrite (total_ext _ (fun k => exp (- nth l E2 0 / T) * share V2 n (col V1 k) l)) by (intros; ring). rewrite total_scale, share_cols by lia. ring. }
    rewrite Z. apply total_le. intros k Hk. apply in_seq in Hk.
    set (m := - ev H2 k / T). apply Rle_trans with (total (fun l => share V2 n (col V1 k) l * (exp m * (1 + - nth l E2 0 / T - m))) l2).
    - right. rewrite (total_ext _ (fun l => (exp m * (1 - m)) * share V2 n (col V1 k) l + (exp m * - / T) * (share V2 n (col V1 k) l * nth l E2 0))) by (intros; unfold Rdiv; ring).
      rewrite total_add, !total_scale, <- (share_sum H2 V2 E2 n b2 r2), <- (share_energy H2 V2 E2 n b2 r2), unit1 by lia. unfold m, Rdiv. ring.
    - apply total_le. intros l _. apply Rmult_le_compat_l; [apply share_pos | apply exp_tangent].
  Qed.
  Lemma ave_exp T x : T <> 0 -> exp_vals_thermal V1 D E1 T = Ok x -> zustand T E1 * exp (- x / T) <= total (fun k => exp (- ev H2 k / T)) l1.
  Proof using b1 b2 r1 r2 some.
    intros T0 EX. assert (NE : E1 <> []) by (apply (E_some H1 V1 E1 b1); lia).
    rewrite thermal_finite in EX; [|split; [rewrite r1; apply sized_D|]; split; [rewrite r1; apply sized_D|]; split; [apply b1 | exact NE] | exact T0].
    injection EX as EX. set (m := - x / T).
    assert (Z : zustand T E1 = total (fun k => exp (- nth k E1 0 / T)) l1) by (unfold zustand; apply (total_nth (fun e => exp (- e / T)))).
    assert (ZP : 0 < zustand T E1) by (apply z_pos; exact NE).
    assert (XV : total (fun k => exp (- nth k E1 0 / T) * ev D k) l1 = x * zustand T E1).
    { rewrite <- EX. unfold boltzmann, levels. rewrite !total_map. unfold energy, value. cbn [fst snd]. rewrite r1, <- Z. field. lra. }
    apply Rle_trans with (total (fun k => exp (- nth k E1 0 / T) * (exp m * (1 + - ev D k / T - m))) l1).
    - right. rewrite (total_ext _ (fun k => (exp m * (1 - m)) * exp (- nth k E1 0 / T) + (exp m * - / T) * (exp (- nth k E1 0 / T) * ev D k))) by (intros; unfold Rdiv; ring).
      rewrite total_add, !total_scale, XV, <- Z. unfold m, Rdiv. ring.
    - apply total_le. intros k Hk. apply in_seq in Hk. replace (- ev H2 k / T) with (- nth k E1 0 / T + - ev D k / T) by (rewrite ev_D by lia; unfold Rdiv; ring).
      rewrite exp_plus. apply Rmult_le_compat_l; [apply Rlt_le, exp_pos | apply exp_tangent].
  Qed.
  (** The free energy of the second system is at most that of the first one plus the average of the difference. *)
  Theorem bogoliubov T x : 0 < T -> exp_vals_thermal V1 D E1 T = Ok x -> free_energy T E2 <= free_energy T E1 + x.
  Proof using b1 b2 r1 r2 some.
    intros TP EX. assert (N1 : E1 <> []) by (apply (E_some H1 V1 E1 b1); lia).
    pose proof (Rle_trans _ _ _ (ave_exp T x ltac:(lra) EX) (peierls T)) as X. pose proof (z_pos E1 N1 T) as ZP.
    assert (Y : ln (zustand T E1 * exp (- x / T)) <= ln (zustand T E2)).
    { destruct X as [X|X]; [left; apply ln_increasing; [apply Rmult_lt_0_compat; [exact ZP | apply exp_pos] | exact X] | right; rewrite X; reflexivity]. }
    rewrite ln_mult, ln_exp in Y by (try exact ZP; apply exp_pos). unfold free_energy.
    assert (T * (ln (zustand T E1) + - x / T) <= T * ln (zustand T E2)) by (apply Rmult_le_compat_l; lra).
    replace (T * (ln (zustand T E1) + - x / T)) with (T * ln (zustand T E1) - x) in H by (field; lra). lra.
  Qed.
  (** The same for the lowest energies. *)
  Theorem lowest_bound e1 e2 x : sorted_list E1 -> apart gap13 E1 -> smallest e1 E1 -> smallest e2 E2 -> exp_vals_thermal V1 D E1 0 = Ok x -> e2 <= e1 + x.
  Proof using b1 b2 r1 r2 some.
    intros SO AP M1 M2 EX. assert (NE : E1 <> []) by (apply (E_some H1 V1 E1 b1); lia).
    assert (FT : fits V1 D E1) by (split; [rewrite r1; apply sized_D|]; split; [rewrite r1; apply sized_D|]; split; [apply b1 | exact NE]).
    rewrite (thermal_zero V1 D E1 FT SO AP) in EX. injection EX as EX.
    assert (L : nth 0 E1 0 = e1).
    { destruct M1 as (I1 & LE). apply Rle_antisym; [|apply LE, nth_In; destruct E1; [congruence | cbn; lia]]. apply (In_nth _ _ 0) in I1 as (k & Hk & <-). apply SO. lia. }
    rewrite L in EX. assert (W : 0 < total (at_energy e1) (levels E1 V1 D)).
    { apply average_den_pos. unfold levels. rewrite map_map. cbn [energy fst]. rewrite <- list_seq. apply M1. }
    apply Rplus_le_reg_l with (- e1). replace (- e1 + (e1 + x)) with x by ring. rewrite <- EX. unfold average_at. apply Rmult_le_reg_r with (total (at_energy e1) (levels E1 V1 D)); [exact W|].
    unfold Rdiv. rewrite Rmult_assoc, Rinv_l, Rmult_1_r by lra. rewrite <- total_scale. apply total_le. intros p Hp. unfold levels in Hp. apply in_map_iff in Hp as (k & <- & Hk). apply in_seq in Hk.
    unfold at_energy, energy, value. cbn [fst snd]. destruct (Req_EM_T (nth k E1 0) e1) as [Q|Q]; [|lra].
    rewrite r1, ev_D by lia. pose proof (variational H2 V2 E2 n b2 r2 (col V1 k) e2 M2) as X. rewrite unit1 in X by lia. lra.
  Qed.
End Two.

(** ** Thermal averages are linear in the operator *)
Lemma average_weights V E T : allowed T E -> exists w : nat -> R, (forall k, 0 <= w k) /\ forall O, (fits V O E -> exp_vals_thermal V O E (if Req_EM_T T 0 then 0 else T) = Ok (total (fun k => w k * expect (nrow V) O (col V k)) (seq 0 (length E)))).
Proof.
  intros HT. destruct (Req_EM_T T 0) as [Z|Z].
  - destruct HT as [HT|(SO & AP)]; [congruence|].
    exists (fun k => at_energy (nth 0 E 0) (nth k E 0, 0) / total (at_energy (nth 0 E 0)) (levels E V (meye 0))). split.
    + intros k. apply Rmult_le_pos; [apply at_energy_ge|]. destruct (Req_EM_T (total (at_energy (nth 0 E 0)) (levels E V (meye 0))) 0) as [Q|Q]; [rewrite Q, Rinv_0; lra|].
      apply Rlt_le, Rinv_0_lt_compat. assert (0 <= total (at_energy (nth 0 E 0)) (levels E V (meye 0))) by (apply total_ge0; intros; apply at_energy_ge). lra.
    + intros O F. rewrite (thermal_zero V O E F SO AP). f_equal. unfold average_at, levels. rewrite !total_map. unfold Rdiv. rewrite Rmult_comm, <- total_scale. apply total_ext. intros k _. unfold at_energy, energy, value. cbn [fst snd]. ring.
  - exists (fun k => exp (- nth k E 0 / T) / zustand T E). split.
    + intros k. apply Rmult_le_pos; [apply Rlt_le, exp_pos|]. destruct E as [|e E]; [unfold zustand; cbn; rewrite Rinv_0; lra|]. apply Rlt_le, Rinv_0_lt_compat, z_pos. discriminate.
    + intros O F. rewrite (thermal_finite V O E T F Z). f_equal. unfold boltzmann, levels. rewrite !total_map. unfold energy, value. cbn [fst snd].
      unfold zustand. rewrite (total_nth (fun e => exp (- e / T))). unfold Rdiv. rewrite Rmult_comm, <- total_scale. apply total_ext. intros k _. ring.
Qed.
Lemma expect_sum n D m (c : nat -> R) (O : nat -> mat CR) psi : (forall i j, (i < n)%nat -> (j < n)%nat -> ent D i j = ksum m (fun s => real (c s) *c ent (O s) i j)) ->
  expect n D psi = total (fun s => c s * expect n (O s) psi) (seq 0 m).
Proof.
  intros ED. unfold expect. assert (X : inner n psi (apply n D psi) = ksum m (fun s => real (c s) *c inner n psi (apply n (O s) psi))).
  - rewrite (inner_ext n psi psi _ (fun i => ksum m (fun s => apply n (O s) psi i *c real (c s)))); [rewrite (inner_sum n m psi (fun s => apply n (O s) psi) (fun s => real (c s))); apply ksum_ext; intros; ring | reflexivity|].
    intros i Hi. unfold apply. rewrite (ksum_ext n _ (fun j => ksum m (fun s => ent (O s) i j *c psi j *c real (c s)))) by (intros j Hj; rewrite ED by assumption; rewrite <- ksum_mul_r; apply ksum_ext; intros; ring).
    rewrite ksum_swap. apply ksum_ext. intros s _. rewrite ksum_mul_r. reflexivity.
  - rewrite X, fst_ksum, rsum_total. apply total_ext. intros s _. cbn. ring.
Qed.
Lemma average_sum H V E T D m (c x : nat -> R) (O : nat -> mat CR) : eigenbasis H V E -> nrow V <> 0%nat -> allowed T E ->
  nrow D = nrow V -> ncol D = nrow V -> (forall s, (s < m)%nat -> nrow (O s) = nrow V /\ ncol (O s) = nrow V) ->
  (forall i j, (i < nrow V)%nat -> (j < nrow V)%nat -> ent D i j = ksum m (fun s => real (c s) *c ent (O s) i j)) ->
  (forall s, (s < m)%nat -> exp_vals_thermal V (O s) E T = Ok (x s)) -> exp_vals_thermal V D E T = Ok (total (fun s => c s * x s) (seq 0 m)).
Proof.
  intros B N HT D1 D2 SO ED AV. pose proof (E_some H V E B N) as NE. assert (L : ncol V = length E) by apply B.
  destruct (average_weights V E T HT) as (w & _ & W). assert (TT : (if Req_EM_T T 0 then 0 else T) = T) by (destruct (Req_EM_T T 0); congruence). rewrite TT in W.
  rewrite (W D) by (repeat split; assumption). f_equal.
  rewrite (total_ext _ (fun k => total (fun s => c s * (w k * expect (nrow V) (O s) (col V k))) (seq 0 m))).
  - rewrite total_swap. apply total_ext. intros s Hs. apply in_seq in Hs. rewrite total_scale. f_equal. destruct (SO s ltac:(lia)) as (S1 & S2).
    specialize (AV s ltac:(lia)). rewrite (W (O s)) in AV by (repeat split; assumption). injection AV as AV. exact AV.
  - intros k _. rewrite (expect_sum (nrow V) D m c O (col V k) ED), <- total_scale. apply total_ext. intros s _. ring.
Qed.
Lemma average_pos H V E T O x : eigenbasis H V E -> nrow V <> 0%nat -> allowed T E -> nrow O = nrow V -> ncol O = nrow V ->
  (forall psi, 0 <= expect (nrow V) O psi) -> exp_vals_thermal V O E T = Ok x -> 0 <= x.
Proof.
  intros B N HT O1 O2 P EX. pose proof (E_some H V E B N) as NE. assert (L : ncol V = length E) by apply B.
  destruct (average_weights V E T HT) as (w & WP & W). assert (TT : (if Req_EM_T T 0 then 0 else T) = T) by (destruct (Req_EM_T T 0); congruence). rewrite TT in W.
  rewrite (W O) in EX by (repeat split; assumption). injection EX as <-. apply total_ge0. intros k _. apply Rmult_le_pos; [apply WP | apply P].
Qed.
