(** Return to the initial state. *)
From Coq Require Import List Arith Lia Reals Lra Bool Permutation.
From Verif Require Import Scalars Res Sums Matrix SpecMat ModelGeometry ModelPhase ModelSymmetry SymBase ModelBase ModelThermal
  SpecThermal ThermalBase ThermalFacts ThermalBasis ThermalResponse SpecPrecess Precess SpecLongtime Longtime SpecEcho.
From Verif Require SymAverage.
Import ListNotations.
Local Open Scope R_scope.

Lemma cos_low x : 1 - x * x / 2 <= cos x.
Proof.
  assert (P : forall y, 0 <= y -> 1 - y * y / 2 <= cos y).
  { intros y Hy. pose proof (cos_2a_sin (y / 2)) as D. replace (2 * (y / 2)) with y in D by field. rewrite D.
    assert (S1 : sin (y / 2) <= y / 2) by (destruct (Req_dec y 0) as [->|N]; [replace (0 / 2) with 0 by field; rewrite sin_0; lra | left; apply sin_lt_x; lra]).
    assert (S2 : - (y / 2) <= sin (y / 2)).
    { destruct (Rle_dec (y / 2) PI) as [Q|Q]; [pose proof (sin_ge_0 (y / 2) ltac:(lra) Q); lra|]. pose proof PI2_3_2. pose proof (SIN_bound (y / 2)). lra. }
    nra. }
  destruct (Rle_dec 0 x) as [Q|Q]; [apply P, Q|]. pose proof (P (- x) ltac:(lra)) as X. rewrite cos_neg in X. lra.
Qed.
Lemma total_mult (f g : nat -> R) l m : total f l * total g m = total (fun k => total (fun j => f k * g j) m) l.
Proof. rewrite (Rmult_comm (total f l)), <- total_scale. apply total_ext. intros k _. rewrite Rmult_comm, <- total_scale. reflexivity. Qed.
Lemma apply_mmul n (A B : mat CR) phi i : ncol A = n -> apply n (mmul A B) phi i = apply n A (apply n B phi) i.
Proof.
  intros N. unfold apply, mmul. cbn [ent]. rewrite N.
  rewrite (ksum_ext n _ (fun j => ksum n (fun l => ent A i l *c (ent B l j *c phi j)))) by (intros j _; rewrite <- ksum_mul_r; apply ksum_ext; intros; ring).
  rewrite ksum_swap. apply ksum_ext. intros l _. apply (ksum_mul_l n).
Qed.
Section Echo.
  Variables (H V : mat CR) (E : list R) (psi : nat -> CR).
  Hypothesis basis : eigenbasis H V E.
  Notation n := (nrow V).
  Notation L := (length E).
  Notation en k := (nth k E 0).
  Notation x k := (inner (nrow V) (col V k) psi).
  Notation p k := (level_weight V psi k).
  Lemma x_abs k : conj (x k) *c x k = real (p k).
  Proof using. clear basis. apply conj_mul_self. Qed.
  Lemma ncolV : ncol V = L.
  Proof using basis. apply basis. Qed.
  Lemma return_sum t : inner n psi (evolve V E psi t) = ksum L (fun k => real (p k) *c cexp (- (t * en k))).
  Proof using basis.
    rewrite (inner_ext n psi psi _ (fun i => ksum (ncol V) (fun k => col V k i *c (cexp (- (t * en k)) *c x k)))) by (try reflexivity; intros i _; apply evolve_expand).
    rewrite inner_sum, ncolV. apply ksum_ext. intros k _. rewrite <- x_abs, inner_conj. ring.
  Qed.
  Lemma echo_sum t : abs2 (inner n psi (evolve V E psi t)) = total (fun k => total (fun l => p k * p l * cos (t * (en k - en l))) (seq 0 L)) (seq 0 L).
  Proof using basis.
    unfold abs2. rewrite return_sum, (csum_n L _ fst (or_introl eq_refl)), (csum_n L _ snd (or_intror eq_refl)), !total_mult, <- total_add.
    apply total_ext. intros k _. rewrite <- total_add. apply total_ext. intros l _. replace (t * (en k - en l)) with (t * en k - t * en l) by ring. rewrite cos_minus. unfold cexp. rewrite !cos_neg, !sin_neg. cbn. ring.
  Qed.
  Lemma weight_pos k : 0 <= p k.
  Proof using. clear basis. unfold level_weight, abs2. nra. Qed.
  Lemma moment phi chi (f : R) : (forall k, (k < L)%nat -> inner n (col V k) phi = real (chi k) *c x k) -> f = fst (inner n psi phi) -> f = total (fun k => chi k * p k) (seq 0 L).
  Proof using basis.
    intros X ->. rewrite (complete_inner V psi phi) by apply basis. rewrite ncolV, (csum_n L _ fst (or_introl eq_refl)). apply total_ext. intros k Hk. apply in_seq in Hk. rewrite X by lia. rewrite <- inner_conj.
    replace (conj (x k) *c (real (chi k) *c x k)) with (real (chi k) *c (conj (x k) *c x k)) by ring. rewrite x_abs. cbn. ring.
  Qed.
  Lemma eig_apply k phi : (k < L)%nat -> inner n (col V k) (apply n H phi) = real (en k) *c inner n (col V k) phi.
  Proof using basis.
    intros Hk. rewrite inner_apply_herm by (apply (SymAverage.eigenbasis_hermitian _ _ _ basis)). rewrite <- (inner_conj n phi).
    rewrite (inner_ext n phi phi (apply n H (col V k)) (fun i => real (en k) *c col V k i)); [|reflexivity | intros i Hi; apply basis; [exact Hi | rewrite ncolV; exact Hk]].
    rewrite inner_scale, kconj_mul, inner_conj, real_conj. reflexivity.
  Qed.
  Lemma norm_sum : norm2 n psi = total (fun k => p k) (seq 0 L).
  Proof using basis. rewrite (moment psi (fun _ => 1) (norm2 n psi)); [apply total_ext; intros; ring | intros k _; apply injective_projections; cbn; ring | reflexivity]. Qed.
  Lemma energy_sum : expect n H psi = total (fun k => en k * p k) (seq 0 L).
  Proof using basis. apply (moment (apply n H psi) (fun k => en k)); [intros k Hk; apply eig_apply, Hk | reflexivity]. Qed.
  Lemma square_sum : expect n (mmul H H) psi = total (fun k => en k * en k * p k) (seq 0 L).
  Proof using basis.
    apply (moment (apply n (mmul H H) psi) (fun k => en k * en k)); [|reflexivity]. intros k Hk. rewrite (inner_ext n _ (col V k) _ (apply n H (apply n H psi))); [|reflexivity | intros i _; apply apply_mmul, basis].
    rewrite !eig_apply by exact Hk. generalize (x k). intros z. apply injective_projections; cbn; ring.
  Qed.
  Hypothesis unit : norm2 n psi = 1.
  Lemma pair_ones : total (fun k => total (fun l => p k * p l) (seq 0 L)) (seq 0 L) = 1.
  Proof using basis unit. pose proof (total_mult (fun k => p k) (fun k => p k) (seq 0 L) (seq 0 L)) as M. cbv beta in M. rewrite <- M, <- norm_sum, unit. ring. Qed.
  Theorem echo_le t : abs2 (inner n psi (evolve V E psi t)) <= 1.
  Proof using basis unit.
    rewrite echo_sum, <- pair_ones. apply total_le. intros k _. apply total_le. intros l _. pose proof (weight_pos k). pose proof (weight_pos l). pose proof (COS_bound (t * (en k - en l))). assert (0 <= p k * p l) by nra. nra.
  Qed.
  Theorem echo_ge t : 1 - t * t * (expect n (mmul H H) psi - expect n H psi * expect n H psi) <= abs2 (inner n psi (evolve V E psi t)).
  Proof using basis unit.
    rewrite echo_sum. eapply Rle_trans; [|apply total_le; intros k _; apply total_le; intros l _; apply Rmult_le_compat_l; [pose proof (weight_pos k); pose proof (weight_pos l); nra | apply cos_low]]. right.
    set (P2 := total (fun k => total (fun l => p k * p l) (seq 0 L)) (seq 0 L)).
    transitivity (total (fun k => total (fun l => p k * p l + - (t * t / 2) * (en k * en k * p k * p l + (p k * (en l * en l * p l) + -2 * (en k * p k * (en l * p l))))) (seq 0 L)) (seq 0 L)); [|apply total_ext; intros k _; apply total_ext; intros l _; field].
    assert (SP : forall (f g h u : nat -> R) c l0, total (fun j => f j + c * (g j + (h j + -2 * u j))) l0 = total f l0 + c * (total g l0 + (total h l0 + -2 * total u l0))) by (intros f g h u c l0; induction l0 as [|j l0 IH]; [cbn; ring|]; rewrite !total_cons, IH; ring).
    rewrite (total_ext _ (fun k => total (fun l => p k * p l) (seq 0 L) + - (t * t / 2) * (total (fun l => en k * en k * p k * p l) (seq 0 L) + (total (fun l => p k * (en l * en l * p l)) (seq 0 L) + -2 * total (fun l => en k * p k * (en l * p l)) (seq 0 L))))) by (intros k _; apply SP).
    rewrite SP. rewrite pair_ones.
    pose proof (total_mult (fun k => en k * en k * p k) (fun k => p k) (seq 0 L) (seq 0 L)) as M1. pose proof (total_mult (fun k => p k) (fun k => en k * en k * p k) (seq 0 L) (seq 0 L)) as M2. pose proof (total_mult (fun k => en k * p k) (fun k => en k * p k) (seq 0 L) (seq 0 L)) as M3. cbv beta in M1, M2, M3.
    rewrite <- M1, <- M2, <- M3, <- square_sum, <- energy_sum, <- norm_sum, unit. field.
  Qed.
End Echo.

(** Averages over long times. *)
Definition onto (n : nat) (psi : nat -> CR) : mat CR := Mat n n (fun i j => psi i *c conj (psi j)).
Lemma onto_apply n psi phi i : apply n (onto n psi) phi i = psi i *c inner n psi phi.
Proof. unfold apply, onto, inner. cbn [ent]. rewrite <- ksum_mul_l. apply ksum_ext. intros j _. ring. Qed.
Lemma onto_expect n psi phi : expect n (onto n psi) phi = abs2 (inner n psi phi).
Proof.
  unfold expect. rewrite (inner_ext n phi phi _ (fun i => inner n psi phi *c psi i)) by (try reflexivity; intros i _; rewrite onto_apply; ring).
  rewrite inner_scale, <- (inner_conj n psi phi). generalize (inner n psi phi). intros (a, b). unfold abs2. cbn. ring.
Qed.
Lemma participation_sum V E psi : participation V E psi = total (fun k => total (fun l => same E k l * (level_weight V psi k * level_weight V psi l)) (seq 0 (length E))) (seq 0 (length E)).
Proof.
  unfold participation, energy_weight. rewrite (total_ext _ (fun e => total (fun k => total (fun l => (level_weight V psi k * level_weight V psi l) * ((if Req_EM_T (nth k E 0) e then 1 else 0) * (if Req_EM_T (nth l E 0) e then 1 else 0))) (seq 0 (length E))) (seq 0 (length E)))).
  - rewrite total_swap. apply total_ext. intros k Hk. rewrite total_swap. apply total_ext. intros l Hl. apply in_seq in Hk, Hl. rewrite total_scale, ind_sum by lia. ring.
  - intros e _. rewrite total_mult. apply total_ext. intros k _. apply total_ext. intros l _. destruct (Req_EM_T (nth k E 0) e), (Req_EM_T (nth l E 0) e); ring.
Qed.
Lemma onto_dephased V E psi : dephased V (onto (nrow V) psi) E psi = participation V E psi.
Proof.
  rewrite dephased_sum, participation_sum. apply total_ext. intros k _. apply total_ext. intros l _. f_equal. unfold zz, elem.
  rewrite (inner_ext (nrow V) (col V k) (col V k) (apply (nrow V) (onto (nrow V) psi) (col V l)) (fun i => inner (nrow V) psi (col V l) *c psi i)) by (try reflexivity; intros i _; rewrite onto_apply; ring).
  rewrite inner_scale, <- (inner_conj _ (col V l) psi). unfold level_weight. generalize (inner (nrow V) (col V k) psi), (inner (nrow V) (col V l) psi). intros (a, b) (c, d). unfold abs2. cbn. ring.
Qed.
Lemma weights_sum V E psi : total (fun e => energy_weight V E psi e) (nodup Req_EM_T E) = total (fun k => level_weight V psi k) (seq 0 (length E)).
Proof.
  unfold energy_weight. rewrite total_swap. apply total_ext. intros k Hk. apply in_seq in Hk. pose proof (ind_sum E k k ltac:(lia) ltac:(lia)) as I. unfold same in I. destruct (Req_EM_T (nth k E 0) (nth k E 0)) as [_|N]; [|congruence].
  transitivity (level_weight V psi k * total (fun e => (if Req_EM_T (nth k E 0) e then 1 else 0) * (if Req_EM_T (nth k E 0) e then 1 else 0)) (nodup Req_EM_T E)); [|rewrite I; ring]. rewrite <- total_scale. apply total_ext. intros e _. destruct (Req_EM_T (nth k E 0) e); ring.
Qed.
Lemma cauchy_list {A} (f : A -> R) l : total f l * total f l <= INR (length l) * total (fun a => f a * f a) l.
Proof.
  induction l as [|a l IH]; [cbn; lra|]. rewrite !total_cons. cbn [length]. rewrite S_INR. set (s := total f l) in *. set (q := total (fun a => f a * f a) l) in *. set (m := INR (length l)) in *. assert (M : 0 <= m) by apply pos_INR. 
  assert (Q : 0 <= q) by (unfold q; rewrite <- (total_zero (fun _ => 0) l) by reflexivity; apply total_le; intros; nra).
  assert (X : 2 * (f a * s) <= m * (f a * f a) + q).
  { destruct (Req_dec m 0) as [Z|Z].
    - assert (s * s <= 0) by (rewrite Z in IH; lra). assert (s = 0) by nra. subst s. rewrite H0. nra.
    - assert (0 < m) by lra. apply (Rmult_le_reg_l m); [assumption|]. pose proof (Rle_0_sqr (m * f a - s)) as SQ. unfold Rsqr in SQ. nra. }
  nra.
Qed.
Theorem participation_floor H V E psi : eigenbasis H V E -> norm2 (nrow V) psi = 1 -> 1 <= INR (length (nodup Req_EM_T E)) * participation V E psi.
Proof.
  intros B U. eapply Rle_trans; [|apply cauchy_list]. rewrite weights_sum, <- (norm_sum H V E psi B), U. lra.
Qed.

(** Through the programme. *)
Lemma overlap_entry V E st times Ms k D : nrow V = nrow (as_columns st) -> ncol V = length E -> (k < ncol (as_columns st))%nat -> quench st V E times = Ok Ms -> overlaps st (Columns (nth k Ms (mzero 0 0))) = Ok D ->
  ncol D = length times /\ forall a, (a < length times)%nat -> ent D k a = inner (nrow V) (col (as_columns st) k) (evolve V E (col (as_columns st) k) (nth a times 0)).
Proof.
  intros D1 D2 Hk Q OV. destruct (quench_entries st V E times D1 D2) as (Ms' & Q' & LM & X). rewrite Q in Q'. injection Q' as <-. destruct (X k ltac:(lia)) as (R1 & R2 & R3).
  unfold overlaps in OV. cbn [as_columns] in OV. rewrite R1, D1, Nat.eqb_refl in OV. injection OV as <-. split; [exact R2|]. intros a Ha. cbn [mmul madj ent ncol]. unfold inner. rewrite D1. apply ksum_ext. intros i Hi. rewrite R3 by lia. reflexivity.
Qed.
Lemma quench_ok V E st times Ms : quench st V E times = Ok Ms -> nrow V = nrow (as_columns st) /\ ncol V = length E.
Proof. unfold quench. intros Q. destruct (Nat.eqb_spec (nrow V) (nrow (as_columns st))), (Nat.eqb_spec (ncol V) (length E)); cbn in Q; try discriminate; auto. Qed.
Theorem echo_api H V E st times Ms k D a : eigenbasis H V E -> (k < ncol (as_columns st))%nat -> (a < length times)%nat -> quench st V E times = Ok Ms -> overlaps st (Columns (nth k Ms (mzero 0 0))) = Ok D ->
  abs2 (ent D k a) = total (fun i => total (fun j => level_weight V (col (as_columns st) k) i * level_weight V (col (as_columns st) k) j * cos (nth a times 0 * (nth i E 0 - nth j E 0))) (seq 0 (length E))) (seq 0 (length E)).
Proof. intros B Hk Ha Q OV. destruct (quench_ok _ _ _ _ _ Q) as (D1 & D2). destruct (overlap_entry V E st times Ms k D D1 D2 Hk Q OV) as (_ & X). rewrite X by exact Ha. apply (echo_sum H V E _ B). Qed.
Theorem bounds_api H V E st times Ms k D a e1 e2 : eigenbasis H V E -> (k < ncol (as_columns st))%nat -> (a < length times)%nat -> norm2 (nrow V) (col (as_columns st) k) = 1 ->
  quench st V E times = Ok Ms -> overlaps st (Columns (nth k Ms (mzero 0 0))) = Ok D -> exp_vals st H = Ok e1 -> exp_vals st (mmul H H) = Ok e2 ->
  1 - nth a times 0 * nth a times 0 * (nth k e2 0 - nth k e1 0 * nth k e1 0) <= abs2 (ent D k a) <= 1.
Proof.
  intros B Hk Ha U Q OV X1 X2. destruct (quench_ok _ _ _ _ _ Q) as (D1 & D2). destruct (overlap_entry V E st times Ms k D D1 D2 Hk Q OV) as (_ & X). rewrite X by exact Ha.
  assert (HR : nrow H = nrow V) by apply B. assert (HC : ncol H = nrow V) by apply B. rewrite exp_vals_of in X1 by congruence. rewrite exp_vals_of in X2 by (cbn [mmul nrow ncol]; congruence). injection X1 as <-. injection X2 as <-.
  rewrite !map_seq_nth by exact Hk. cbn [mmul nrow]. rewrite HR. fold (mmul H H). split; [apply (echo_ge H V E _ B U) | apply (echo_le H V E _ B U)].
Qed.
Theorem back_api H V E st times Ms k D a b : eigenbasis H V E -> (k < ncol (as_columns st))%nat -> (a < length times)%nat -> (b < length times)%nat -> nth b times 0 = - nth a times 0 ->
  quench st V E times = Ok Ms -> overlaps st (Columns (nth k Ms (mzero 0 0))) = Ok D -> abs2 (ent D k b) = abs2 (ent D k a).
Proof.
  intros B Hk Ha Hb T Q OV. rewrite !(echo_api H V E st times Ms k D) by assumption. apply total_ext. intros i _. apply total_ext. intros j _. rewrite T. f_equal. rewrite <- cos_neg. f_equal. ring.
Qed.
Theorem echo_mean H V E st k dt : eigenbasis H V E -> (k < ncol (as_columns st))%nat -> no_resonance dt E ->
  exists C, forall N Ms D, (1 <= N)%nat -> quench st V E (steps dt N) = Ok Ms -> overlaps st (Columns (nth k Ms (mzero 0 0))) = Ok D ->
    Rabs (mean (row_abs2 D k) - participation V E (col (as_columns st) k)) <= C / INR N.
Proof.
  intros B Hk NR. destruct (long_mean H V (onto (nrow V) (col (as_columns st) k)) E (col (as_columns st) k) dt B NR) as (C & W). exists C. intros N Ms D HN Q OV. destruct (quench_ok _ _ _ _ _ Q) as (D1 & D2). destruct (overlap_entry V E st _ Ms k D D1 D2 Hk Q OV) as (NC & X).
  assert (LS : length (steps dt N) = N) by (unfold steps; rewrite map_length, seq_length; reflexivity). rewrite LS in NC, X. unfold mean, row_abs2. rewrite map_length, seq_length, NC, total_map, <- onto_dephased.
  rewrite (total_ext _ (fun j => expect (nrow V) (onto (nrow V) (col (as_columns st) k)) (evolve V E (col (as_columns st) k) (INR j * dt)))); [apply W, HN|]. intros j Hj. apply in_seq in Hj. rewrite X by lia. rewrite onto_expect. unfold steps. rewrite (map_seq_nth (fun j => INR j * dt)) by lia. reflexivity.
Qed.
