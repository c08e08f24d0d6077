(** Weight of the conductivity for a current that is the commutator with a position. *)
From Coq Require Import List Arith Lia Reals Lra Bool.
From Verif Require Import Scalars Res Sums Matrix ModelGeometry ModelPhase ModelSymmetry SymBase ModelBase ModelThermal SpecThermal ThermalBase ThermalFacts ThermalBasis ThermalResponse ThermalCond Spectral Thermo SpecHeat HeatCore SpecConvex Convex.
From Verif Require SymAverage.
Import ListNotations.
Local Open Scope R_scope.

Section Rule.
  Variables (H V : mat CR) (E : list R) (n : nat) (x : nat -> R).
  Hypothesis basis : eigenbasis H V E.
  Hypothesis rows : nrow V = n.
  Notation l := (seq 0 (length E)).
  Notation en k := (nth k E 0).
  Definition moved (psi : nat -> CR) (a : nat) : CR := real (x a) *c psi a.
  (** Matrix elements of the position in the eigenbasis. *)
  Definition pos (k m : nat) : CR := inner n (col V k) (moved (col V m)).
  Lemma pos_conj k m : pos m k = conj (pos k m).
  Proof using.
    unfold pos. rewrite inner_conj. unfold inner, moved. apply ksum_ext. intros a _. destruct (col V m a) as (p, q), (col V k a) as (r, s). apply injective_projections; cbn; ring.
  Qed.
  Lemma pos_sym k m : abs2 (pos m k) = abs2 (pos k m).
  Proof using. rewrite pos_conj. unfold abs2. destruct (pos k m) as (p, q). cbn. ring. Qed.

  Variables (J K : mat CR).
  Hypothesis Jent : forall a b, (a < n)%nat -> (b < n)%nat -> ent J a b = (0, x b - x a) *c ent H a b.
  Hypothesis Kent : forall a b, (a < n)%nat -> (b < n)%nat -> ent K a b = real ((x a - x b) ^ 2) *c ent H a b.
  Lemma herm : hermitian n H.
  Proof using basis rows. pose proof (SymAverage.eigenbasis_hermitian H V E basis) as HH. rewrite rows in HH. exact HH. Qed.
  Lemma eig k a : (k < length E)%nat -> (a < n)%nat -> apply n H (col V k) a = real (en k) *c col V k a.
  Proof using basis rows. destruct basis as ((L & _ & _ & EV) & _). rewrite rows in EV. intros Hk Ha. apply EV; lia. Qed.

  Lemma apply_J psi a : (a < n)%nat -> apply n J psi a = (0, 1) *c (apply n H (moved psi) a -c moved (apply n H psi) a).
  Proof using Jent.
    intros Ha. unfold apply, moved. rewrite <- ksum_mul_l, <- ksum_minus, <- ksum_mul_l. apply ksum_ext. intros b Hb. rewrite (Jent a b Ha Hb). destruct (ent H a b) as (p, q), (psi b) as (r, s). apply injective_projections; cbn; ring.
  Qed.
  Lemma inner_minus a b c : inner n a (fun i => b i -c c i) = inner n a b -c inner n a c.
  Proof using. unfold inner. rewrite <- ksum_minus. apply ksum_ext. intros i _. destruct (a i) as (p, q), (b i) as (r, s), (c i) as (t, u). apply injective_projections; cbn; ring. Qed.
  Lemma inner_moved a b : inner n a (moved b) = inner n (moved a) b.
  Proof using. unfold inner, moved. apply ksum_ext. intros i _. destruct (a i) as (p, q), (b i) as (r, s). apply injective_projections; cbn; ring. Qed.
  Lemma inner_eig k b : (k < length E)%nat -> inner n (col V k) (apply n H b) = real (en k) *c inner n (col V k) b.
  Proof using basis rows.
    intros Hk. rewrite (inner_apply_herm n H _ _ herm), (inner_ext n _ (fun i => real (en k) *c col V k i) b b); [|intros i Hi; apply eig; assumption | reflexivity].
    unfold inner. rewrite <- ksum_mul_l. apply ksum_ext. intros i _. destruct (col V k i) as (p, q), (b i) as (r, s). apply injective_projections; cbn; ring.
  Qed.
  Lemma J_elem k m : (k < length E)%nat -> (m < length E)%nat -> inner n (col V k) (apply n J (col V m)) = (0, en k - en m) *c pos k m.
  Proof using basis rows Jent.
    intros Hk Hm. rewrite (inner_ext n (col V k) (col V k) _ (fun a => (0, 1) *c (apply n H (moved (col V m)) a -c real (en m) *c moved (col V m) a))).
    - rewrite inner_scale, inner_minus, inner_scale, (inner_eig k _ Hk). fold (pos k m). destruct (pos k m) as (p, q). apply injective_projections; cbn; ring.
    - reflexivity.
    - intros a Ha. rewrite (apply_J _ _ Ha). change (moved (apply n H (col V m)) a) with (real (x a) *c apply n H (col V m) a). change (moved (col V m) a) with (real (x a) *c col V m a). rewrite (eig m a Hm Ha). destruct (apply n H (moved (col V m)) a) as (p, q), (col V m a) as (r, s). apply injective_projections; cbn; ring.
  Qed.
  Lemma J_abs2 k m : (k < length E)%nat -> (m < length E)%nat -> abs2 (inner n (col V k) (apply n J (col V m))) = (en k - en m) ^ 2 * abs2 (pos k m).
  Proof using basis rows Jent. intros Hk Hm. rewrite (J_elem k m Hk Hm). destruct (pos k m) as (p, q). unfold abs2. cbn. ring. Qed.

  (** Twice the mean excitation energy of a displaced state. *)
  Lemma K_mean m : (m < length E)%nat -> expect n K (col V m) = 2 * total (fun k => abs2 (pos k m) * (en m - en k)) l.
  Proof using basis rows Kent.
    intros Hm. set (v := col V m).
    assert (A : inner n v (apply n K v) = real (2 * en m) *c inner n (moved v) (moved v) -c real 2 *c inner n (moved v) (apply n H (moved v))).
    { rewrite (inner_ext n v v _ (fun a => (moved (moved (apply n H v)) a -c real 2 *c moved (apply n H (moved v)) a) -c real (-1) *c apply n H (moved (moved v)) a)).
      - rewrite !inner_minus, !inner_scale, inner_moved, inner_moved, inner_moved. unfold v at 8. rewrite (inner_eig m _ Hm). fold v. rewrite (inner_moved v (moved v)).
        rewrite (inner_ext n (moved (moved v)) (moved (moved v)) (apply n H v) (fun a => real (en m) *c v a)) by (reflexivity || (intros a Ha; apply (eig m a Hm Ha))).
        rewrite inner_scale, <- (inner_moved (moved v) v). destruct (inner n (moved v) (moved v)) as (p, q), (inner n (moved v) (apply n H (moved v))) as (r, s). apply injective_projections; cbn; ring.
      - reflexivity.
      - intros a Ha. unfold apply, moved. rewrite <- !ksum_mul_l, <- !ksum_minus. apply ksum_ext. intros b Hb. rewrite (Kent a b Ha Hb). destruct (ent H a b) as (p, q), (v b) as (r, s). apply injective_projections; cbn; ring. }
    unfold expect at 1. rewrite A. transitivity (2 * (en m * norm2 n (moved v) - expect n H (moved v))).
    { unfold norm2, expect. destruct (inner n (moved v) (moved v)) as (p, q), (inner n (moved v) (apply n H (moved v))) as (r, s). cbn. ring. }
    rewrite (share_sum H V E n basis rows), (share_energy H V E n basis rows). f_equal.
    transitivity (total (fun k => en m * share V n (moved v) k + (-1) * (share V n (moved v) k * en k)) l); [rewrite total_add, !total_scale; ring|].
    apply total_ext. intros k _. unfold share. change (inner n (col V k) (moved v)) with (pos k m). ring.
  Qed.

  (** Sums over pairs of levels. *)
  Lemma pairs_sum (p : nat -> R) : sum_nm (length E) (fun k m => abs2 (pos k m) * ((en k - en m) * (p m - p k))) = - total (fun m => p m * expect n K (col V m)) l.
  Proof using basis rows Kent.
    unfold sum_nm. rewrite (total_ext (fun k => total (fun m => abs2 (pos k m) * ((en k - en m) * (p m - p k))) l) (fun k => total (fun m => abs2 (pos k m) * (en k - en m) * p m) l + (-1) * total (fun m => abs2 (pos k m) * (en k - en m) * p k) l)).
    2:{ intros k _. rewrite <- total_scale, <- total_add. apply total_ext. intros m _. ring. }
    rewrite total_add, total_scale, total_swap.
    rewrite (total_ext (fun k => total (fun m => abs2 (pos k m) * (en k - en m) * p k) l) (fun k => p k * (/ 2 * expect n K (col V k)))).
    2:{ intros k Hk. apply in_seq in Hk. rewrite (K_mean k) by lia. rewrite <- !total_scale. apply total_ext. intros m _. rewrite (pos_sym k m). field. }
    rewrite (total_ext (fun b => total (fun a => abs2 (pos a b) * (en a - en b) * p b) l) (fun k => - p k * (/ 2 * expect n K (col V k)))).
    2:{ intros k Hk. apply in_seq in Hk. rewrite (K_mean k) by lia. rewrite <- !total_scale. apply total_ext. intros m _. field. }
    rewrite <- total_scale, <- total_add. replace (- total (fun m => p m * expect n K (col V m)) l) with ((-1) * total (fun m => p m * expect n K (col V m)) l) by ring. rewrite <- total_scale. apply total_ext. intros k _. field.
  Qed.

  Hypothesis some : n <> 0%nat.
  Hypothesis Jsize : nrow J = n /\ ncol J = n.
  Hypothesis Ksize : nrow K = n /\ ncol K = n.
  Lemma J_matrix M : matrix_elems V J = Ok M -> square_size M (length E) /\ forall k m, ent M k m = inner n (col V k) (apply n J (col V m)).
  Proof using basis rows Jsize.
    destruct basis as ((L & _) & _). unfold matrix_elems, cmulv. rewrite (proj2 Jsize), rows, Nat.eqb_refl. cbn [bind madj mmul nrow ncol]. rewrite (proj1 Jsize), rows, Nat.eqb_refl. intros [= <-].
    split; [split; cbn; congruence|]. intros k m. cbn. rewrite rows, (proj2 Jsize). reflexivity.
  Qed.
  Lemma K_fits : fits V K E.
  Proof using basis rows some Ksize. split; [rewrite rows; apply Ksize|]. split; [rewrite rows; apply Ksize|]. split; [apply basis|]. apply (E_some H V E basis). congruence. Qed.
  Theorem weight_hot M ns T r k : (0 < ns)%nat -> T <> 0 -> matrix_elems V J = Ok M -> integrate_conductivity ns M E T = Ok r -> exp_vals_thermal V K E T = Ok k -> r = - (PI * k / INR ns).
  Proof using basis rows Jent Kent some Jsize Ksize.
    intros Hs HT EM ER EK. destruct (J_matrix M EM) as (SQ & W). destruct K_fits as (F1 & F2 & F3 & NE). rewrite (integrate_finite ns M E SQ NE Hs T HT) in ER. injection ER as <-.
    rewrite (thermal_finite V K E T ltac:(split; [exact F1|]; split; [exact F2|]; split; assumption) HT) in EK. injection EK as <-.
    unfold kubo_weight. rewrite (sum_nm_ext (length E) _ (fun k m => abs2 (pos k m) * ((en k - en m) * (prob T E m - prob T E k)))).
    - rewrite pairs_sum. unfold boltzmann, levels. rewrite !total_map. cbn [energy value fst snd]. unfold prob. rewrite rows. rewrite (total_nth (fun e => exp (- e / T)) E). set (z := total (fun k => exp (- en k / T)) l).
      rewrite (total_ext (fun m => exp (- en m / T) / z * expect n K (col V m)) (fun m => / z * (exp (- en m / T) * expect n K (col V m)))) by (intros; unfold Rdiv; ring). rewrite total_scale. unfold Rdiv. ring.
    - intros a b Ha Hb. rewrite W, (J_abs2 a b Ha Hb). destruct (Req_EM_T (en a) (en b)) as [Q|Q]; [rewrite Q; ring | field; lra].
  Qed.
  Theorem weight_cold M ns r k : (0 < ns)%nat -> unique_ground E -> sorted_list E -> apart gap13 E -> matrix_elems V J = Ok M -> integrate_conductivity ns M E 0 = Ok r -> exp_vals_thermal V K E 0 = Ok k -> r = - (PI * k / INR ns).
  Proof using basis rows Jent Kent some Jsize Ksize.
    intros Hs (NE & UG) SO AP EM ER EK. destruct (J_matrix M EM) as (SQ & W). pose proof K_fits as FK. rewrite (thermal_zero V K E FK SO AP) in EK. injection EK as <-.
    unfold integrate_conductivity in ER. rewrite square_of_ok in ER by assumption. cbn [negb] in ER. destruct E as [|e0 t] eqn:EE; [congruence|]. rewrite <- EE in *. rewrite is_zero_0 in ER. injection ER as <-.
    assert (L0 : (0 < length E)%nat) by (rewrite EE; cbn; lia). assert (E0 : en 0 = e0) by (rewrite EE; reflexivity).
    assert (Q : average_at (en 0) (levels E V K) = expect n K (col V 0)).
    { unfold average_at, levels. rewrite !total_map. unfold at_energy. cbn [energy value fst snd]. rewrite rows.
      assert (S0 : l = 0%nat :: seq 1 (length E - 1)) by (destruct (length E) as [|q]; [lia|]; cbn; rewrite Nat.sub_0_r; reflexivity). rewrite S0, !total_cons.
      rewrite (total_zero _ (seq 1 (length E - 1))), (total_zero _ (seq 1 (length E - 1))).
      - destruct (Req_EM_T (en 0) (en 0)); [field | congruence].
      - intros a Ha. apply in_seq in Ha. specialize (UG a ltac:(lia)). destruct (Req_EM_T (en a) (en 0)); [lra | reflexivity].
      - intros a Ha. apply in_seq in Ha. specialize (UG a ltac:(lia)). destruct (Req_EM_T (en a) (en 0)); [lra | ring]. }
    rewrite Q, (K_mean 0 L0). rewrite sum1_total.
    rewrite (total_ext _ (fun k => abs2 (pos k 0) * (en k - en 0))).
    - rewrite (total_ext (fun k => abs2 (pos k 0) * (en 0 - en k)) (fun k => (-1) * (abs2 (pos k 0) * (en k - en 0)))) by (intros; ring). rewrite total_scale. field. apply not_0_INR. lia.
    - intros a Ha. apply in_seq in Ha. change (modulus (ent M a 0) * (modulus (ent M a 0) * 1)) with (modulus (ent M a 0) ^ 2). rewrite modulus_abs2, W, (J_abs2 a 0) by lia. rewrite E0. destruct (is_zero (en a - e0)) eqn:Z; [apply is_zero_true in Z; rewrite Z; ring|].
      assert (en a - e0 <> 0) by (intros X; rewrite X, is_zero_0 in Z; discriminate). field. assumption.
  Qed.
End Rule.
