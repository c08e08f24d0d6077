(** Particles that do not interact, at zero temperature: proofs. *)
From Coq Require Import List Arith Lia Reals Lra ZArith QArith Bool Permutation.
From Verif Require Import Scalars Res Sums Matrix ModelBase ModelFermions ModelGeometry ModelPhase ModelSymmetry SymBase SpecMat
  ModelThermal SpecThermal ThermalBase ThermalFacts ThermalResponse SpecFermiGas SpecFree SpecZero FreeThermal FreeSpectrum FermiOps.
From Verif Require HamProofs FreeWick.
Import ListNotations.
Local Open Scope R_scope.

(** ** Limits *)
Lemma weight_limit e : tends_at_0 (fun T => fermi_weight T e) (step_weight e).
Proof.
  unfold step_weight. destruct (Rlt_dec e 0) as [N|N].
  - intros eps He. exists (eps * - e). split; [nra|]. intros T (T1 & T2).
    unfold fermi_weight, occupation. replace (- (1 / T) * (e - 0)) with (- e / T) by (field; lra).
    assert (P : 0 < - e / T) by (apply Rdiv_lt_0_compat; lra). pose proof (exp_ineq1 _ (Rgt_not_eq _ _ P)) as X. set (y := exp (- e / T)) in *.
    replace (y / (1 + y) - 1) with (- (1 / (1 + y))) by (field; lra). rewrite Rabs_Ropp, Rabs_right.
    2:{ apply Rle_ge, Rlt_le, Rdiv_lt_0_compat; lra. }
    apply (Rmult_lt_reg_r (1 + y)); [lra|]. replace (1 / (1 + y) * (1 + y)) with 1 by (field; lra).
    assert (1 < eps * (- e / T)). { apply (Rmult_lt_reg_r T); [lra|]. replace (eps * (- e / T) * T) with (eps * - e) by (field; lra). lra. }
    nra.
  - destruct (Req_EM_T e 0) as [->|Z].
    + apply (tends_ext (fun _ => 1 / 2)); [|apply tends_const]. intros T HT. unfold fermi_weight, occupation.
      replace (- (1 / T) * (0 - 0)) with 0 by ring. rewrite exp_0. field.
    + intros eps He. exists (eps * e). split; [nra|]. intros T (T1 & T2).
      unfold fermi_weight, occupation. replace (- (1 / T) * (e - 0)) with (- (e / T)) by (field; lra).
      assert (P : 0 < e / T) by (apply Rdiv_lt_0_compat; lra). pose proof (exp_ineq1 _ (Rgt_not_eq _ _ P)) as X. rewrite exp_Ropp. set (y := exp (e / T)) in *.
      replace (/ y / (1 + / y) - 0) with (1 / (1 + y)) by (field; split; lra). rewrite Rabs_right.
      2:{ apply Rle_ge, Rlt_le, Rdiv_lt_0_compat; lra. }
      apply (Rmult_lt_reg_r (1 + y)); [lra|]. replace (1 / (1 + y) * (1 + y)) with 1 by (field; lra).
      assert (1 < eps * (e / T)). { apply (Rmult_lt_reg_r T); [lra|]. replace (eps * (e / T) * T) with (eps * e) by (field; lra). lra. }
      nra.
Qed.

(** Componentwise limits. *)
Definition ctends (F : R -> CR) (z : CR) : Prop := tends_at_0 (fun T => fst (F T)) (fst z) /\ tends_at_0 (fun T => snd (F T)) (snd z).
Lemma ctends_ksum n (F : R -> nat -> CR) (G : nat -> CR) : (forall a, (a < n)%nat -> ctends (fun T => F T a) (G a)) -> ctends (fun T => ksum n (F T)) (ksum n G).
Proof.
  induction n as [|n IH]; intros HF; [split; apply (tends_const 0)|]. destruct (IH ltac:(intros a Ha; apply HF; lia)) as (I1 & I2). destruct (HF n ltac:(lia)) as (J1 & J2).
  cbn [ksum]. split; [apply (tends_plus (fun T => fst (ksum n (F T))) (fun T => fst (F T n))) | apply (tends_plus (fun T => snd (ksum n (F T))) (fun T => snd (F T n)))]; assumption.
Qed.
Lemma ctends_scale w z L : tends_at_0 w L -> ctends (fun T => real (w T) *c z) (real L *c z).
Proof.
  intros W. split.
  - apply (tends_ext (fun T => w T * fst z)); [intros; cbn; ring|]. replace (fst (real L *c z)) with (L * fst z) by (cbn; ring). apply tends_mul; [exact W | apply tends_const].
  - apply (tends_ext (fun T => w T * snd z)); [intros; cbn; ring|]. replace (snd (real L *c z)) with (L * snd z) by (cbn; ring). apply tends_mul; [exact W | apply tends_const].
Qed.
Lemma ctends_abs2 F z : ctends F z -> tends_at_0 (fun T => abs2 (F T)) (abs2 z).
Proof. intros (A & B). unfold abs2. apply (tends_plus (fun T => fst (F T) * fst (F T)) (fun T => snd (F T) * snd (F T))); apply tends_mul; assumption. Qed.
Lemma filled_limit U e i j : ctends (fun T => filled T U e i j) (filled_zero U e i j).
Proof.
  unfold filled, filled_zero. apply ctends_ksum. intros a Ha. apply (ctends_scale (fun T => fermi_weight T (nth a e 0))). apply weight_limit.
Qed.
Lemma energy_limit x : tends_at_0 (fun T => x * fermi_weight T x) (Rmin 0 x).
Proof.
  replace (Rmin 0 x) with (x * step_weight x); [apply tends_mul; [apply tends_const | apply weight_limit]|].
  unfold step_weight. destruct (Rlt_dec x 0); [rewrite Rmin_right by lra; ring|]. destruct (Req_EM_T x 0) as [->|]; [rewrite Rmin_left by lra; ring|]. rewrite Rmin_left by lra. ring.
Qed.
(** The average at zero temperature is the limit of the averages. *)
Lemma zero_from V A E (phi : R -> R) L : fits V A E -> sorted_list E -> apart gap13 E -> (forall T, 0 < T -> exp_vals_thermal V A E T = Ok (phi T)) -> tends_at_0 phi L ->
  exp_vals_thermal V A E 0 = Ok L.
Proof.
  intros F S AP HP HL. destruct (thermal_limit V A E F S AP) as (r & E0 & TL). rewrite E0. f_equal. apply (tends_unique phi); [|exact HL].
  apply (tends_ext (fun T => match exp_vals_thermal V A E T with Ok r => r | Raise _ => 0 end)); [|exact TL]. intros T HT. rewrite HP by exact HT. reflexivity.
Qed.

(** ** The lowest of the sums *)
Lemma sea_cons x l : sea (x :: l) = Rmin 0 x + sea l. Proof. reflexivity. Qed.
Lemma sea_app a b : sea (a ++ b) = sea a + sea b. Proof. unfold sea. apply total_app. Qed.
Lemma sea_least l : forall y, In y (subset_sums l) -> sea l <= y.
Proof.
  induction l as [|x l IH]; intros y Hy; [destruct Hy as [<-|[]]; cbn; unfold sea, total; cbn; lra|].
  rewrite sea_cons. cbn [subset_sums fold_right] in Hy. apply in_app_or in Hy as [Hy|Hy].
  - specialize (IH y Hy). pose proof (Rmin_l 0 x). lra.
  - apply in_map_iff in Hy as (z & <- & Hz). specialize (IH z Hz). pose proof (Rmin_r 0 x). lra.
Qed.
Lemma times_app x a b : times x (a ++ b) = (times x a + times x b)%nat. Proof. apply count_occ_app. Qed.
Lemma times_shift x c l : times x (map (Rplus c) l) = times (x - c) l.
Proof.
  induction l as [|y l IH]; [reflexivity|]. unfold times in *. cbn [map count_occ]. destruct (Req_EM_T (c + y) x), (Req_EM_T y (x - c)); try lra; rewrite IH; reflexivity.
Qed.
Lemma times_none x l : (forall y, In y l -> x < y) -> times x l = 0%nat.
Proof. intros HL. apply count_occ_not_In. intros C. specialize (HL x C). lra. Qed.
Lemma sea_times l : times (sea l) (subset_sums l) = (2 ^ times 0 l)%nat.
Proof.
  induction l as [|x l IH].
  - unfold times, sea, total. cbn. destruct (Req_EM_T 0 0); [reflexivity | lra].
  - rewrite sea_cons. change (subset_sums (x :: l)) with (subset_sums l ++ map (Rplus x) (subset_sums l)). rewrite times_app, times_shift.
    pose proof (sea_least l) as SL. unfold times at 3. cbn [count_occ]. fold (times 0 l). destruct (Req_EM_T x 0) as [->|Z].
    + rewrite Rmin_left by lra. rewrite Rplus_0_l, Rminus_0_r, IH, Nat.pow_succ_r'. lia.
    + destruct (Rlt_dec x 0).
      * rewrite Rmin_right by lra. rewrite (times_none (x + sea l)) by (intros y Hy; specialize (SL y Hy); lra). replace (x + sea l - x) with (sea l) by ring. exact IH.
      * rewrite Rmin_left by lra. rewrite (times_none (0 + sea l - x)) by (intros y Hy; specialize (SL y Hy); lra). rewrite Rplus_0_l, IH. lia.
Qed.
Lemma sea_in l : In (sea l) (subset_sums l).
Proof. apply (count_occ_In Req_EM_T). change (times (sea l) (subset_sums l) > 0)%nat. rewrite sea_times. pose proof (Nat.pow_nonzero 2 (times 0 l)). lia. Qed.
Lemma sea_flat {B} (h : B -> list R) l : sea (flat_map h l) = total (fun x => sea (h x)) l.
Proof. unfold sea. apply total_flat. Qed.

Section Zero.
  Variable f : fermions CR.
  Hypothesis free : non_interacting f.
  Variables (H V : mat CR) (E : list R).
  Hypothesis ham : createH f None = Ok H.
  Hypothesis basis : eigenbasis H V E.
  Hypothesis SE : sorted_list E.
  Hypothesis AE : apart gap13 E.
  Notation ns := (fg_nsites (f_geom f)). Notation m := (f_nspecies f).
  Notation N := (2 ^ nlog (f_sys f))%nat.

  Lemma fits_square A : square N A -> fits V A E.
  Proof using free ham basis.
    intros (S1 & S2). pose proof (FreeWick.V_rows f free H V E ham basis) as VR.
    repeat split; try congruence; [apply basis | apply (FreeWick.E_ne f free H V E ham basis)].
  Qed.
  Lemma two_square i k j k' o o' fm A : fm <> OtherFormat -> (i < ns)%nat -> (j < ns)%nat -> (k < m)%nat -> (k' < m)%nat -> square 2 o -> square 2 o' ->
    two_site_op (f_sys f) i k j k' o o' fm = Ok A -> square N A.
  Proof using.
    intros F Hi Hj Hk Hk' S1 S2 EA. destruct (two_ok (f_sys f) i k j k' o o' fm (HamProofs.f_two f) F Hi Hk Hj Hk' S1 S2) as (B & EB & SB & _).
    rewrite EA in EB. injection EB as <-. exact SB.
  Qed.

  Section One.
    Variables (k : nat) (U : mat CR) (e : list R).
    Hypothesis Hk : (k < m)%nat.
    Hypothesis modes_k : eigenbasis (particle_matrix f k) U e.
    Notation G := (filled_zero U e).
    Theorem density_zero i A : (i < ns)%nat -> single_site_op (f_sys f) i k n_op Boson = Ok A -> exp_vals_thermal V A E 0 = Ok (fst (G i i)).
    Proof using All.
      intros Hi EA. apply (zero_from V A E (fun T => fst (filled T U e i i))); try assumption.
      - apply fits_square. destruct (single_ok (f_sys f) i k n_op Boson (HamProofs.f_two f) ltac:(discriminate) Hi Hk (sq2 _ _ _ _)) as (B & EB & SB & _).
        rewrite EA in EB. injection EB as <-. exact SB.
      - intros T HT. apply (density_avg f free H V E T ham basis ltac:(lra) k U e Hk modes_k i A Hi EA).
      - apply filled_limit.
    Qed.
    Theorem bond_zero i j k' A : (i < ns)%nat -> (j < ns)%nat -> (k' < m)%nat -> two_site_op (f_sys f) i k j k' cdag_op c_op Fermion = Ok A ->
      exp_vals_thermal V A E 0 = Ok (if (k' =? k)%nat then fst (G i j) else 0).
    Proof using All.
      intros Hi Hj Hk' EA. apply (zero_from V A E (fun T => if (k' =? k)%nat then fst (filled T U e i j) else 0)); try assumption.
      - apply fits_square. apply (two_square i k j k' cdag_op c_op Fermion A); try assumption; try discriminate; apply sq2.
      - intros T HT. apply (bond_avg f free H V E T ham basis ltac:(lra) k U e Hk modes_k i j k' A Hi Hj Hk' EA).
      - destruct (k' =? k)%nat; [apply filled_limit | apply tends_const].
    Qed.
    Theorem pair_zero i j A : (i < ns)%nat -> (j < ns)%nat -> two_site_op (f_sys f) i k j k n_op n_op Boson = Ok A ->
      exp_vals_thermal V A E 0 = Ok (fst (G i i) * fst (G j j) + (if (i =? j)%nat then fst (G i i) else 0) - abs2 (G i j)).
    Proof using All.
      intros Hi Hj EA. apply (zero_from V A E (fun T => fst (filled T U e i i) * fst (filled T U e j j) + (if (i =? j)%nat then fst (filled T U e i i) else 0) - abs2 (filled T U e i j))); try assumption.
      - apply fits_square. apply (two_square i k j k n_op n_op Boson A); try assumption; try discriminate; apply sq2.
      - intros T HT. apply (pair_avg f free H V E T ham basis ltac:(lra) k U e Hk modes_k i j A Hi Hj EA).
      - apply (tends_minus (fun T => fst (filled T U e i i) * fst (filled T U e j j) + (if (i =? j)%nat then fst (filled T U e i i) else 0)) (fun T => abs2 (filled T U e i j))).
        + apply (tends_plus (fun T => fst (filled T U e i i) * fst (filled T U e j j)) (fun T => if (i =? j)%nat then fst (filled T U e i i) else 0)).
          * apply tends_mul; apply filled_limit.
          * destruct (i =? j)%nat; [apply filled_limit | apply tends_const].
        + apply ctends_abs2, filled_limit.
    Qed.
  End One.

  Variables (U : nat -> mat CR) (e : nat -> list R).
  Hypothesis modes : forall k, (k < m)%nat -> eigenbasis (particle_matrix f k) (U k) (e k).
  Theorem species_zero k k' i j A : (k < m)%nat -> (k' < m)%nat -> k <> k' -> (i < ns)%nat -> (j < ns)%nat -> two_site_op (f_sys f) i k j k' n_op n_op Boson = Ok A ->
    exp_vals_thermal V A E 0 = Ok (fst (filled_zero (U k) (e k) i i) * fst (filled_zero (U k') (e k') j j)).
  Proof using All.
    intros Hk Hk' Ne Hi Hj EA. apply (zero_from V A E (fun T => fst (filled T (U k) (e k) i i) * fst (filled T (U k') (e k') j j))); try assumption.
    - apply fits_square. apply (two_square i k j k' n_op n_op Boson A); try assumption; try discriminate; apply sq2.
    - intros T HT. apply (species_avg f free H V E T ham basis ltac:(lra) U e modes k k' i j A Hk Hk' Ne Hi Hj EA).
    - apply tends_mul; apply filled_limit.
  Qed.
  (** The lowest energy, and how often it occurs. *)
  Notation L := (flat_map e (seq 0 m)).
  Theorem ground_energy : nth 0 E 0 = sea L.
  Proof using free ham basis SE modes.
    clear AE. pose proof (spectrum_ok f free H V E ham basis U e modes) as P. pose proof (FreeWick.E_ne f free H V E ham basis) as NE.
    destruct E as [|e0 l]; [congruence|]. cbn [nth].
    assert (I1 : In (sea L) (e0 :: l)) by (apply (Permutation_in _ (Permutation_sym P)), sea_in).
    assert (I2 : sea L <= e0) by (apply sea_least; apply (Permutation_in _ P); left; reflexivity).
    apply (In_nth _ _ 0) in I1 as (n & Hn & En). pose proof (SE 0%nat n ltac:(lia)) as Q. rewrite En in Q. cbn [nth] in Q. lra.
  Qed.
  Theorem ground_times : times (nth 0 E 0) E = (2 ^ times 0 L)%nat.
  Proof using free ham basis SE modes.
    rewrite ground_energy. rewrite <- sea_times. unfold times. apply (Permutation_count_occ Req_EM_T). apply (spectrum_ok f free H V E ham basis U e modes).
  Qed.
  Theorem energy_zero : exp_vals_thermal V H E 0 = Ok (sea L).
  Proof using All.
    rewrite sea_flat. apply (zero_from V H E (fun T => total (fun k => total (fun x => x * fermi_weight T x) (e k)) (seq 0 m))); try assumption.
    - destruct basis as ((X1 & X2 & X3 & _) & _). repeat split; try congruence. apply (FreeWick.E_ne f free H V E ham basis).
    - intros T HT. apply (energy_avg f free H V E T ham basis ltac:(lra) U e modes).
    - unfold sea. apply tends_total. intros k Hk. apply tends_total. intros x Hx. apply energy_limit.
  Qed.
End Zero.
