(** Uncertainty relation. *)
From Coq Require Import List Arith Lia Reals Lra Bool Permutation.
From Verif Require Import Scalars Res Sums Matrix SpecMat ModelGeometry ModelPhase ModelSymmetry SymBase ModelBase ModelThermal
  SpecThermal ThermalBase ThermalFacts ThermalBasis ThermalResponse SpecPrecess Precess SpecLongtime Longtime SpecEcho Echo SpecRates Rates SpecUncertain.
From Verif Require SymAverage.
Import ListNotations.
Local Open Scope R_scope.

Lemma norm_ge0 n f : 0 <= norm2 n f.
Proof.
  unfold norm2, inner. induction n as [|n IH]; [cbn; lra|]. cbn [ksum]. destruct (f n) as (a, b). change (0 <= fst (ksum n (fun i => conj (f i) *c f i)) + (a * a - (- b) * b)). nra.
Qed.
Lemma discriminant p q r : 0 <= q -> (forall s, 0 <= p + s * s * q - 2 * s * r) -> r * r <= p * q.
Proof.
  intros Q F. destruct (Req_dec q 0) as [Z|Z].
  - subst q. destruct (Req_dec r 0) as [->|N]; [lra|]. exfalso. pose proof (F ((p + 1) / (2 * r))) as X. replace (2 * ((p + 1) / (2 * r)) * r) with (p + 1) in X by (field; exact N). lra.
  - pose proof (F (r / q)) as X. replace (p + r / q * (r / q) * q - 2 * (r / q) * r) with (p - r * r / q) in X by (field; exact Z). apply (Rmult_le_reg_r (/ q)); [apply Rinv_0_lt_compat; lra|]. replace (p * q * / q) with p by (field; exact Z). unfold Rdiv in X. lra.
Qed.
Lemma inner_add_r n a b c : inner n a (fun i => b i +c c i) = inner n a b +c inner n a c.
Proof. unfold inner. rewrite <- ksum_add. apply ksum_ext. intros i _. ring. Qed.
Lemma inner_add_l n a b c : inner n (fun i => a i +c b i) c = inner n a c +c inner n b c.
Proof. unfold inner. rewrite <- ksum_add. apply ksum_ext. intros i _. rewrite kconj_add. ring. Qed.
Lemma inner_scale_l n s a b : inner n (fun i => s *c a i) b = conj s *c inner n a b.
Proof. unfold inner. rewrite <- ksum_mul_l. apply ksum_ext. intros i _. rewrite kconj_mul. ring. Qed.
Lemma inner_self n a : inner n a a = real (norm2 n a).
Proof.
  pose proof (inner_conj n a a) as C. unfold norm2. destruct (inner n a a) as (x, y). apply (f_equal snd) in C. cbn in C. apply injective_projections; cbn; lra.
Qed.
Lemma schwarz_im n f g : snd (inner n f g) * snd (inner n f g) <= norm2 n f * norm2 n g.
Proof.
  apply discriminant; [apply norm_ge0|]. intros s. pose proof (norm_ge0 n (fun i => f i +c (0, s) *c g i)) as P. unfold norm2 at 1 in P.
  rewrite inner_add_r, !inner_add_l, !inner_scale, !inner_scale_l, !inner_self in P. rewrite <- (inner_conj n f g) in P. destruct (inner n f g) as (x, y). cbn in P |- *. nra.
Qed.
Section Two.
  Variables (n : nat) (A B : mat CR) (psi : nat -> CR).
  Hypothesis hA : hermitian_op n A.
  Hypothesis hB : hermitian_op n B.
  Hypothesis unit : norm2 n psi = 1.
  Definition off (O : mat CR) (x : R) (i : nat) : CR := apply n O psi i +c real (- x) *c psi i.
  Lemma expect_self (O : mat CR) : hermitian_op n O -> inner n psi (apply n O psi) = real (expect n O psi).
  Proof using.
    clear. intros (_ & _ & HO). pose proof (inner_apply_herm n O psi psi HO) as X. pose proof (inner_conj n psi (apply n O psi)) as C. rewrite <- X in C. unfold expect. destruct (inner n psi (apply n O psi)) as (x, y). apply (f_equal snd) in C. cbn in C. apply injective_projections; cbn; lra.
  Qed.
  Lemma off_norm (O : mat CR) : hermitian_op n O -> norm2 n (off O (expect n O psi)) = variance (expect n O psi) (expect n (mmul O O) psi).
  Proof using unit.
    clear hA hB A B. intros HO. pose proof (expect_self O HO) as S1. destruct HO as (R1 & R2 & HO). unfold norm2, off. rewrite inner_add_r, !inner_add_l, !inner_scale, !inner_scale_l, (inner_self n psi), unit. rewrite S1.
    rewrite <- (inner_conj n psi (apply n O psi)), S1. rewrite <- (inner_apply_herm n O psi (apply n O psi) HO). unfold variance. change (expect n (mmul O O) psi) with (fst (inner n psi (apply n (mmul O O) psi))).
    rewrite (inner_ext n psi psi (apply n (mmul O O) psi) (apply n O (apply n O psi)) ltac:(reflexivity)) by (intros i _; apply apply_mmul, R2). set (e := expect n O psi). destruct (inner n psi (apply n O (apply n O psi))) as (x, y). cbn. ring.
  Qed.
  Lemma off_rate : expect n (rate_op A B) psi = - 2 * snd (inner n (off A (expect n A psi)) (off B (expect n B psi))).
  Proof using hA hB unit.
    pose proof (expect_self A hA) as SA. pose proof (expect_self B hB) as SB. destruct hA as (A1 & A2 & A3), hB as (B1 & B2 & B3). unfold off.
    rewrite inner_add_r, !inner_add_l, !inner_scale, !inner_scale_l, (inner_self n psi), unit, SB. rewrite <- (inner_conj n psi (apply n A psi)), SA. rewrite <- (inner_apply_herm n A psi (apply n B psi) A3).
    unfold expect at 1. rewrite (inner_ext n psi psi (apply n (rate_op A B) psi) (fun i => (0, 1) *c (apply n A (apply n B psi) i +c real (-1) *c apply n B (apply n A psi) i))).
    - rewrite inner_scale, inner_add_r, inner_scale. replace (inner n psi (apply n B (apply n A psi))) with (conj (inner n psi (apply n A (apply n B psi)))) by (rewrite (inner_apply_herm n A _ _ A3), inner_conj, <- (inner_apply_herm n B _ _ B3); reflexivity).
      generalize (inner n psi (apply n A (apply n B psi))), (expect n A psi), (expect n B psi). intros (x, y) a b. cbn. ring.
    - reflexivity.
    - intros i Hi.
      assert (X : forall C D : mat CR, apply n C (apply n D psi) i = ksum n (fun j => ksum n (fun k => ent C i k *c ent D k j) *c psi j)).
      { intros C D. unfold apply. rewrite (ksum_ext n _ (fun k => ksum n (fun j => ent C i k *c (ent D k j *c psi j)))) by (intros k _; rewrite ksum_mul_l; reflexivity). rewrite ksum_swap. apply ksum_ext. intros j _. rewrite <- ksum_mul_r. apply ksum_ext. intros k _. ring. }
      assert (SB2 : forall m (f g : nat -> CR), ksum m (fun k => f k -c g k) = ksum m f +c real (-1) *c ksum m g).
      { induction m as [|m IH]; intros f g; cbn [ksum]; [|rewrite IH]; [apply injective_projections; cbn; ring|]. generalize (ksum m f), (ksum m g), (f m), (g m). intros (x1, y1) (x2, y2) (x3, y3) (x4, y4). apply injective_projections; cbn; ring. }
      rewrite !X. unfold apply, rate_op. cbn [ent]. rewrite A1. 
      rewrite (ksum_ext n _ (fun j => (0, 1) *c (ksum n (fun k => ent A i k *c ent B k j) *c psi j +c real (-1) *c (ksum n (fun k => ent B i k *c ent A k j) *c psi j)))) by (intros j _; rewrite SB2; ring).
      rewrite ksum_mul_l, ksum_add, ksum_mul_l. reflexivity.
  Qed.
  Theorem uncertainty : expect n (rate_op A B) psi * expect n (rate_op A B) psi <= 4 * (variance (expect n A psi) (expect n (mmul A A) psi) * variance (expect n B psi) (expect n (mmul B B) psi)).
  Proof using hA hB unit.
    rewrite off_rate, <- (off_norm A hA), <- (off_norm B hB). pose proof (schwarz_im n (off A (expect n A psi)) (off B (expect n B psi))) as P. nra.
  Qed.
End Two.
Lemma variance_ge0 n O psi : hermitian_op n O -> norm2 n psi = 1 -> 0 <= variance (expect n O psi) (expect n (mmul O O) psi).
Proof. intros HO U. rewrite <- (off_norm n psi U O HO). apply norm_ge0. Qed.
Lemma variance_0 n O psi : hermitian_op n O -> norm2 n psi = 1 -> (variance (expect n O psi) (expect n (mmul O O) psi) = 0 <-> stationary n O psi (expect n O psi)).
Proof.
  intros HO U. rewrite <- (off_norm n psi U O HO). split; intros X.
  - assert (Z : forall m f, norm2 m f = 0 -> forall i, (i < m)%nat -> f i = c0).
    { clear. induction m as [|m IH]; intros f Q i Hi; [lia|]. pose proof (norm_ge0 m f) as P. unfold norm2, inner in *. cbn [ksum] in Q. set (k := ksum m _) in *.
      assert (Q1 : fst k + nsq (f m) = 0) by (rewrite <- Q; unfold nsq; destruct (f m) as (x, y); cbn; ring). pose proof (nsq_ge (f m)). assert (Q2 : fst k = 0) by lra. assert (Q3 : nsq (f m) = 0) by lra.
      destruct (Nat.eq_dec i m) as [->|N]; [apply nsq_0, Q3 | apply (IH f Q2); lia]. }
    intros i Hi. specialize (Z n _ X i Hi). unfold off in Z. revert Z. change (expect n O psi, 0) with (real (expect n O psi)). generalize (apply n O psi i), (psi i), (expect n O psi). intros (a, b) (c, d) e Z. pose proof (f_equal fst Z) as Z1. pose proof (f_equal snd Z) as Z2. cbn in Z1, Z2. apply injective_projections; cbn; lra.
  - unfold norm2, inner. rewrite (@ksum_zero CR); [reflexivity|]. intros i Hi. unfold off. rewrite (X i Hi). change (expect n O psi, 0) with (real (expect n O psi)). generalize (psi i), (expect n O psi). intros (c, d) e. apply injective_projections; cbn; ring.
Qed.

(** Through the programme. *)
Lemma exp_vals_nth st O v k n : exp_vals st O = Ok v -> nrow O = n -> ncol O = n -> nrow (as_columns st) = n -> (k < ncol (as_columns st))%nat -> nth k v 0 = expect n O (col (as_columns st) k).
Proof. intros X R1 R2 R3 Hk. rewrite exp_vals_of in X by congruence. injection X as <-. rewrite map_seq_nth by exact Hk. rewrite R1. reflexivity. Qed.
Theorem uncertainty_api n A B st k a a2 b b2 c : hermitian_op n A -> hermitian_op n B -> nrow (as_columns st) = n -> (k < ncol (as_columns st))%nat -> norm2 n (col (as_columns st) k) = 1 ->
  exp_vals st A = Ok a -> exp_vals st (mmul A A) = Ok a2 -> exp_vals st B = Ok b -> exp_vals st (mmul B B) = Ok b2 -> exp_vals st (rate_op A B) = Ok c ->
  nth k c 0 * nth k c 0 <= 4 * (variance (nth k a 0) (nth k a2 0) * variance (nth k b 0) (nth k b2 0)).
Proof.
  intros HA HB R Hk U XA XA2 XB XB2 XC. pose proof HA as (A1 & A2 & _). pose proof HB as (B1 & B2 & _).
  rewrite (exp_vals_nth st A a k n XA), (exp_vals_nth st _ a2 k n XA2), (exp_vals_nth st B b k n XB), (exp_vals_nth st _ b2 k n XB2), (exp_vals_nth st _ c k n XC) by assumption. apply uncertainty; assumption.
Qed.
Theorem variance_api n O st k a a2 : hermitian_op n O -> nrow (as_columns st) = n -> (k < ncol (as_columns st))%nat -> norm2 n (col (as_columns st) k) = 1 ->
  exp_vals st O = Ok a -> exp_vals st (mmul O O) = Ok a2 -> 0 <= variance (nth k a 0) (nth k a2 0) /\ (variance (nth k a 0) (nth k a2 0) = 0 <-> stationary n O (col (as_columns st) k) (nth k a 0)).
Proof.
  intros HO R Hk U X X2. pose proof HO as (O1 & O2 & _). rewrite (exp_vals_nth st O a k n X), (exp_vals_nth st _ a2 k n X2) by assumption. split; [apply variance_ge0 | apply variance_0]; assumption.
Qed.
Lemma evolve_unit H V E psi t : eigenbasis H V E -> norm2 (nrow V) psi = 1 -> norm2 (nrow V) (evolve V E psi t) = 1.
Proof.
  intros B U. unfold norm2. rewrite (evolve_inner V E) by apply B. rewrite <- U. unfold norm2. f_equal. rewrite (complete_inner V psi psi) by apply B. apply ksum_ext. intros k _. rewrite inner_conj. reflexivity.
Qed.
Theorem speed_api H V E O st k times Ms v v2 w e1 e2 : eigenbasis H V E -> hermitian_op (nrow V) O -> (k < ncol (as_columns st))%nat -> norm2 (nrow V) (col (as_columns st) k) = 1 ->
  quench st V E times = Ok Ms -> exp_vals (Columns (nth k Ms (mzero 0 0))) O = Ok v -> exp_vals (Columns (nth k Ms (mzero 0 0))) (mmul O O) = Ok v2 -> exp_vals (Columns (nth k Ms (mzero 0 0))) (rate_op H O) = Ok w ->
  exp_vals st H = Ok e1 -> exp_vals st (mmul H H) = Ok e2 -> forall a, (a < length times)%nat ->
  nth a w 0 * nth a w 0 <= 4 * (variance (nth k e1 0) (nth k e2 0) * variance (nth a v 0) (nth a v2 0)).
Proof.
  intros B HO Hk U Q X X2 XW Y Y2 a Ha. assert (HR : nrow H = nrow V) by apply B. assert (HC : ncol H = nrow V) by apply B. pose proof (SymAverage.eigenbasis_hermitian _ _ _ B) as HH. pose proof HO as (O1 & O2 & _). destruct (quench_ok _ _ _ _ _ Q) as (D1 & D2).
  rewrite (path_entries V E st times Ms k O v Q Hk O1 O2 X a Ha), (path_entries V E st times Ms k (mmul O O) v2 Q Hk O1 O2 X2 a Ha), (path_entries V E st times Ms k (rate_op H O) w Q Hk HR HR XW a Ha).
  rewrite (exp_vals_nth st H e1 k (nrow V) Y), (exp_vals_nth st _ e2 k (nrow V) Y2) by (try assumption; congruence).
  rewrite <- (conserved H V H E (col (as_columns st) k) B (nth a times 0) (energy_commutes _ _)).
  assert (C2 : commute_on (nrow V) H (mmul H H)).
  { intros i j _ _. cbn [mmul ent]. rewrite HC. rewrite (ksum_ext _ _ (fun l => ksum (nrow V) (fun m => ent H i l *c (ent H l m *c ent H m j)))) by (intros; rewrite ksum_mul_l; reflexivity). rewrite ksum_swap. apply ksum_ext. intros m _. rewrite <- ksum_mul_r. apply ksum_ext. intros l _. ring. }
  rewrite <- (conserved H V (mmul H H) E (col (as_columns st) k) B (nth a times 0) C2).
  apply uncertainty; [split; [exact HR|]; split; [exact HC | exact HH] | exact HO | apply (evolve_unit H); assumption].
Qed.
