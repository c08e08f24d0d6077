(** Statements about thermal averages and time evolution in the form of the
    properties. *)
From Coq Require Import List Arith Lia Reals Lra Bool Permutation.
From Verif Require Import Scalars Res Matrix SpecMat ModelGeometry ModelPhase ModelSymmetry SymBase ModelBase
  ModelThermal SpecThermal ThermalBase ThermalSectors ThermalBasis ThermalDiag ThermalResponse ThermalCond ThermalSites RefuteThermal.
Import ListNotations.
Local Open Scope R_scope.

(** ** Thermal averages *)
Lemma thermal_shift V op E T c : fits V op E -> T <> 0 ->
  exp_vals_thermal V op (map (fun e => e + c) E) T = exp_vals_thermal V op E T.
Proof.
  intros F HT. assert (F' : fits V op (map (fun e => e + c) E)).
  { destruct F as (A & B & C & D). repeat split; auto; [rewrite map_length; exact C | destruct E; [congruence | discriminate]]. }
  rewrite (thermal_finite V op _ T F' HT), (thermal_finite V op E T F HT). f_equal.
  rewrite <- (boltzmann_shift T c (levels E V op) HT). f_equal.
  unfold levels. rewrite map_map, map_length. apply map_ext_in. intros k Hk. apply in_seq in Hk. cbn [energy value fst snd].
  f_equal. rewrite (nth_indep _ 0 (0 + c)) by (rewrite map_length; lia). apply (map_nth (fun e => e + c)).
Qed.

Lemma levels_ne E V op : E <> [] -> levels E V op <> [].
Proof. destruct E; [congruence|]. intros _. discriminate. Qed.
Lemma thermal_bounds V op E T lo hi : fits V op E -> T <> 0 \/ (sorted_list E /\ apart gap13 E) ->
  (forall k, (k < ncol V)%nat -> lo <= expect (nrow V) op (col V k) <= hi) ->
  exists r, exp_vals_thermal V op E T = Ok r /\ lo <= r <= hi.
Proof.
  intros F HT B.
  assert (VB : forall a, In a (levels E V op) -> lo <= value a <= hi).
  { intros a Ha. unfold levels in Ha. apply in_map_iff in Ha as (k & <- & Hk). apply in_seq in Hk. cbn [value snd].
    apply B. destruct F as (_ & _ & C & _). lia. }
  assert (NE : E <> []) by apply F.
  destruct (Req_EM_T T 0) as [->|NT].
  - destruct HT as [C|(S & A)]; [congruence|]. rewrite (thermal_zero V op E F S A). eexists. split; [reflexivity|].
    unfold average_at. apply weighted_bounds; [intros; apply at_energy_ge | | exact VB].
    apply average_den_pos. rewrite energies_levels. destruct E; [congruence | left; reflexivity].
  - rewrite (thermal_finite V op E T F NT). eexists. split; [reflexivity|].
    unfold boltzmann. apply weighted_bounds; [intros; left; apply exp_pos | | exact VB].
    apply boltzmann_den_pos, levels_ne, NE.
Qed.
Lemma thermal_limit V op E : fits V op E -> sorted_list E -> apart gap13 E ->
  exists r0, exp_vals_thermal V op E 0 = Ok r0 /\
    tends_at_0 (fun T => match exp_vals_thermal V op E T with Ok r => r | Raise _ => 0 end) r0.
Proof.
  intros F S A. rewrite (thermal_zero V op E F S A). eexists. split; [reflexivity|].
  apply (tends_ext (fun T => boltzmann T (levels E V op))).
  - intros T HT. rewrite (thermal_finite V op E T F) by lra. reflexivity.
  - apply boltzmann_limit. rewrite energies_levels. apply sorted_least; [apply F | exact S].
Qed.

(** ** Weights *)
Lemma weights_offset E T : E <> [] -> sorted_list E -> (T = 0 -> apart gap13 E) ->
  exists w z, thermal_weights true E T = Ok (w, z) /\ length w = length E /\ 0 < z /\ total (fun x => x) w = z /\
    (T <> 0 -> forall k, (k < length E)%nat -> nth k w 0 / z = prob T E k) /\
    (T = 0 -> forall k, (k < length E)%nat ->
       nth k w 0 / z = at_energy (nth 0 E 0) (nth k E 0, 0) / total (fun e => at_energy (nth 0 E 0) (e, 0)) E).
Proof.
  intros NE S A. destruct E as [|e0 t]; [congruence|]. unfold thermal_weights. cbn [bind].
  destruct (Req_EM_T T 0) as [->|NT].
  - rewrite is_zero_0. specialize (A eq_refl).
    destruct (sorted_split e0 t S) as (n & rest & EQ & LT). rewrite EQ in A |- *.
    rewrite (ground_count e0 n rest LT A), map_length. set (E := repeat e0 (Datatypes.S n) ++ rest) in *.
    assert (LE : length E = (Datatypes.S n + length rest)%nat) by (unfold E; rewrite app_length, repeat_length; reflexivity).
    assert (G : forall m k, nth k (repeat 1 (Datatypes.S n) ++ repeat 0 m) 0 = if (k <? Datatypes.S n)%nat then 1 else 0).
    { intros m k. destruct (Nat.ltb_spec k (Datatypes.S n)).
      - rewrite app_nth1 by (rewrite repeat_length; lia). rewrite (nth_indep _ 0 1) by (rewrite repeat_length; lia). apply nth_repeat.
      - rewrite app_nth2 by (rewrite repeat_length; lia). apply nth_repeat. }
    assert (TZ : total (fun e => at_energy e0 (e, 0)) E = INR (Datatypes.S n)).
    { unfold E. rewrite total_app, (total_zero _ rest).
      - rewrite Rplus_0_r. generalize (Datatypes.S n). induction n0 as [|m IH]; [reflexivity|]. cbn [repeat]. rewrite total_cons, IH, S_INR.
        unfold at_energy. cbn [energy fst]. destruct (Req_EM_T e0 e0); [ring | congruence].
      - intros x Hx. unfold at_energy. cbn [energy fst]. destruct (Req_EM_T x e0) as [->|]; [|reflexivity]. specialize (LT e0 Hx). lra. }
    assert (N0 : nth 0 E 0 = e0) by reflexivity. rewrite N0, TZ.
    do 2 eexists. split; [reflexivity|]. split; [rewrite app_length, !repeat_length; lia|].
    split; [apply lt_0_INR; lia|]. split.
    { rewrite total_app, (total_zero _ (repeat 0 _)) by (intros x Hx; apply repeat_spec in Hx; exact Hx).
      rewrite Rplus_0_r. generalize (Datatypes.S n). induction n0 as [|m IH]; [reflexivity|]. cbn [repeat]. rewrite total_cons, IH, S_INR. ring. }
    split; [intros C; congruence|]. intros _ k Hk. rewrite G. f_equal.
    unfold at_energy, E. cbn [energy fst]. rewrite nth_rep_app. destruct (Nat.ltb_spec k (Datatypes.S n)).
    + destruct (Req_EM_T e0 e0); [reflexivity | congruence].
    + destruct (Req_EM_T (nth (k - Datatypes.S n) rest 0) e0) as [Q|]; [|reflexivity].
      assert (In (nth (k - Datatypes.S n) rest 0) rest) by (apply nth_In; lia). specialize (LT _ H0). lra.
  - rewrite (is_zero_false T NT). set (E := e0 :: t) in *. do 2 eexists. split; [reflexivity|].
    split; [rewrite !map_length; reflexivity|].
    rewrite lsum_map, total_map.
    assert (ZE : total (fun a => exp (- (1 / T) * (a - e0))) E = sum1 (length E) (fun n => exp (- (1 / T) * (nth n E 0 - e0)))).
    { rewrite sum1_total. apply (total_nth (fun a => exp (- (1 / T) * (a - e0)))). }
    assert (ZP : 0 < sum1 (length E) (fun n => exp (- (1 / T) * (nth n E 0 - e0)))) by (rewrite sum1_total; apply (z_pos e0 t T)).
    split; [rewrite ZE; exact ZP|]. split; [rewrite !total_map; reflexivity|].
    split; [|intros C; congruence]. intros _ k Hk. rewrite map_map.
    rewrite (nth_indep _ 0 (exp (- (1 / T) * (0 - e0)))) by (rewrite map_length; exact Hk).
    rewrite (map_nth (fun e => exp (- (1 / T) * (e - e0)))). rewrite ZE. pose proof (prob_shift e0 t T k NT) as PS. fold E in PS. rewrite PS. field. lra.
Qed.

(** ** Evolution *)
Lemma quench_entries st V E times : nrow V = nrow (as_columns st) -> ncol V = length E ->
  exists Ms, quench st V E times = Ok Ms /\ length Ms = ncol (as_columns st) /\
    forall s, (s < length Ms)%nat -> nrow (nth s Ms (mzero 0 0)) = nrow V /\ ncol (nth s Ms (mzero 0 0)) = length times /\
      forall i a, (i < nrow V)%nat -> (a < length times)%nat ->
        ent (nth s Ms (mzero 0 0)) i a = evolve V E (col (as_columns st) s) (nth a times 0) i.
Proof.
  intros H1 H2. unfold quench. rewrite H1, H2, !Nat.eqb_refl. cbn [andb]. eexists. split; [reflexivity|].
  split; [rewrite map_length, seq_length; reflexivity|]. intros s Hs. rewrite map_length, seq_length in Hs.
  set (f := fun s => Mat _ _ _). rewrite (nth_indep _ (mzero 0 0) (f 0%nat)) by (rewrite map_length, seq_length; exact Hs).
  rewrite (map_nth f), seq_nth by exact Hs. cbn [Nat.add]. unfold f. cbn [nrow ncol ent]. split; [symmetry; exact H1 || reflexivity|]. split; [reflexivity|].
  intros i a Hi Ha. reflexivity.
Qed.

Lemma quench_group H V E : eigenbasis H V E ->
  exists U : R -> (nat -> CR) -> nat -> CR,
    (forall st times, nrow (as_columns st) = nrow V ->
       exists Ms, quench st V E times = Ok Ms /\ length Ms = ncol (as_columns st) /\
         forall s, (s < length Ms)%nat -> nrow (nth s Ms (mzero 0 0)) = nrow V /\ ncol (nth s Ms (mzero 0 0)) = length times /\
           forall i a, (i < nrow V)%nat -> (a < length times)%nat ->
             ent (nth s Ms (mzero 0 0)) i a = U (nth a times 0) (col (as_columns st) s) i) /\
    (forall psi i, (i < nrow V)%nat -> U 0 psi i = psi i) /\
    (forall s t psi i, (i < nrow V)%nat -> U t (U s psi) i = U (s + t) psi i) /\
    (forall t phi psi, inner (nrow V) (U t phi) (U t psi) = inner (nrow V) phi psi) /\
    (forall t psi, norm2 (nrow V) (U t psi) = norm2 (nrow V) psi) /\
    (forall t psi, expect (nrow V) H (U t psi) = expect (nrow V) H psi) /\
    (forall t psi i, (i < nrow V)%nat ->
       derivable_pt_lim (fun t => fst (U t psi i)) t (snd (apply (nrow V) H (U t psi) i)) /\
       derivable_pt_lim (fun t => snd (U t psi i)) t (- fst (apply (nrow V) H (U t psi) i))).
Proof.
  intros (EG & ON & CM). exists (fun t psi => evolve V E psi t).
  split. { intros st times Hs. apply quench_entries; [symmetry; exact Hs | apply EG]. }
  split; [intros; apply evolve_start; assumption|].
  split; [intros; apply evolve_compose; assumption|].
  split; [intros; apply evolve_isometry; assumption|].
  split; [intros; unfold norm2; rewrite evolve_isometry by assumption; reflexivity|].
  split.
  { intros t psi. rewrite (evolve_energy V E ON H EG psi t 0). unfold expect.
    rewrite (inner_ext _ (evolve V E psi 0) psi _ (apply (nrow V) H psi)); [reflexivity | |].
    - intros i Hi. apply evolve_start; assumption.
    - intros i Hi. apply apply_ext. intros j Hj. apply evolve_start; assumption. }
  intros t psi i Hi. apply (evolve_schrodinger V E H EG); assumption.
Qed.

Lemma norms_vector n v : norms (OneState n v) = Raise AttributeError.
Proof. reflexivity. Qed.
Lemma retarded_zero_sign A B E f w eta : square_size A (length E) -> square_size B (length E) -> unique_ground E -> f <> OtherFmt ->
  exists r, response_retarded A B E 0 f w eta = Ok r /\
    tends_at_0 (fun T => lehmann (match f with BosonFmt => -1 | _ => 1 end) A B E T w eta) r.
Proof.
  intros HA HB U Hf. destruct (retarded_zero A B E f w eta HA HB U Hf) as (r & H1 & H2). exists r. split; [exact H1|].
  destruct f; [exact H2 | exact H2 | congruence].
Qed.
Lemma weights_plain E T : E <> [] -> T <> 0 ->
  exists w z, thermal_weights false E T = Ok (w, z) /\ z = total (fun e => exp (- e / T)) E /\
    length w = length E /\ forall k, (k < length E)%nat -> nth k w 0 / z = prob T E k.
Proof.
  intros NE NT. unfold thermal_weights. cbn [bind]. rewrite (is_zero_false T NT).
  assert (X : forall e, - (1 / T) * e = - e / T) by (intros; field; exact NT).
  do 2 eexists. split; [reflexivity|]. rewrite lsum_map. split; [apply total_ext; intros; rewrite X; reflexivity|].
  split; [apply map_length|]. intros k Hk. unfold prob. f_equal.
  - rewrite (nth_indep _ 0 (exp (- (1 / T) * 0))) by (rewrite map_length; exact Hk). rewrite (map_nth (fun e => exp (- (1 / T) * e))). rewrite X. reflexivity.
  - apply total_ext. intros. rewrite X. reflexivity.
Qed.
