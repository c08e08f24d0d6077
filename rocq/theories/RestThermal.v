(** Thermal averages of many sites and the trace of the exponential: proofs. *)
From Coq Require Import List Arith Lia Reals Lra Bool.
From Verif Require Import Scalars Res Sums Matrix SpecMat ModelGeometry ModelPhase ModelSymmetry SymBase ModelBase
  ModelThermal SpecThermal ThermalBase ThermalSectors ThermalBasis ThermalSites ModelRest SpecRest FreeSpectrum.
Import ListNotations.
Local Open Scope R_scope.

Lemma one_temp V O E T : fits V O E -> cold_ok E T -> exists v, exp_vals_thermal V O E T = Ok v /\ thermal_mean T E (fun k => expect (nrow V) O (col V k)) v.
Proof.
  intros F C. destruct (Req_dec T 0) as [->|NZ].
  - destruct C as [C|[S A]]; [lra|]. eexists. split; [apply thermal_zero; assumption|]. split; [lra | reflexivity].
  - eexists. split; [apply thermal_finite; assumption|]. split; [reflexivity | lra].
Qed.
Lemma temps_ok V O E temps : fits V O E -> (forall T, In T temps -> cold_ok E T) ->
  exists row, rmap (exp_vals_thermal V O E) temps = Ok row /\ Forall2 (fun T v => thermal_mean T E (fun k => expect (nrow V) O (col V k)) v) temps row.
Proof.
  intros F. induction temps as [|T l IH]; intros C; [exists []; split; [reflexivity | constructor]|].
  destruct (one_temp V O E T F (C T (or_introl eq_refl))) as (v & Ev & Hv). destruct IH as (row & Er & Hr); [intros; apply C; right; assumption|].
  exists (v :: row). split; [cbn [rmap]; rewrite Ev; cbn [bind]; rewrite Er; reflexivity | constructor; assumption].
Qed.
Section Rows.
  Variables (V : cmat) (E : list R) (P : option cmat) (temps : list R).
  Let Q := the_projector P (nrow V).
  Hypothesis rows : nrow Q = nrow V.
  Hypothesis cols : ncol V = length E.
  Hypothesis some : E <> [].
  Hypothesis cold : forall T, In T temps -> cold_ok E T.
  Lemma one_row op : nrow op = ncol Q -> ncol op = ncol Q ->
    exists row, (full <- conj_by P (nrow V) op ;; rmap (exp_vals_thermal V full E) temps) = Ok row /\
      Forall2 (fun T v => thermal_mean T E (fun k => expect (ncol Q) op (lift Q (col V k))) v) temps row.
  Proof using All.
    intros R1 R2. unfold conj_by, cmulv. change (match P with Some P0 => P0 | None => meye (nrow V) end) with Q.
    rewrite R1, Nat.eqb_refl. cbn [bind mmul madj ncol nrow]. rewrite R2, Nat.eqb_refl. cbn [bind].
    destruct (temps_ok V (mmul (mmul Q op) (madj Q)) E temps) as (row & ER & FR).
    - unfold fits. cbn [mmul madj nrow ncol]. repeat split; try assumption; rewrite ?rows; reflexivity.
    - exact cold.
    - exists row. split; [exact ER|].
      assert (X : map (fun k => (nth k E 0, expect (nrow V) (mmul (mmul Q op) (madj Q)) (col V k))) (seq 0 (length E)) =
        map (fun k => (nth k E 0, expect (ncol Q) op (lift Q (col V k)))) (seq 0 (length E))).
      { apply map_ext. intros k. f_equal. rewrite <- rows. apply expect_lift; assumption. }
      unfold thermal_mean in *. cbv zeta in *. rewrite X in FR. exact FR.
  Qed.
  Lemma many_rows {A} (f : A -> res cmat) l : (forall i, In i l -> exists op, f i = Ok op /\ nrow op = ncol Q /\ ncol op = ncol Q) ->
    exists rs, rmap (fun i => op <- f i ;; full <- conj_by P (nrow V) op ;; rmap (exp_vals_thermal V full E) temps) l = Ok rs /\
      Forall2 (fun i row => exists op, f i = Ok op /\ Forall2 (fun T v => thermal_mean T E (fun k => expect (ncol Q) op (lift Q (col V k))) v) temps row) l rs.
  Proof using All.
    induction l as [|i l IH]; intros H; [exists []; split; [reflexivity | constructor]|].
    destruct (H i (or_introl eq_refl)) as (op & EO & R1 & R2). destruct IH as (rs & ER & FR); [intros; apply H; right; assumption|].
    destruct (one_row op R1 R2) as (row & E1 & F1). exists (row :: rs). split.
    - cbn [rmap]. rewrite EO. cbn [bind]. rewrite E1. cbn [bind]. rewrite ER. reflexivity.
    - constructor; [exists op; split; assumption | exact FR].
  Qed.
  Lemma thermal_sites_ok nsites site_op sites : let l := match sites with None => seq 0 nsites | Some l => l end in
    (forall i, In i l -> exists op, site_op i = Ok op /\ nrow op = ncol Q /\ ncol op = ncol Q) ->
    exists rs, thermal_exp_sites V E nsites site_op temps sites P = Ok (rs, l) /\
      Forall2 (fun i row => exists op, site_op i = Ok op /\ Forall2 (fun T v => thermal_mean T E (fun k => expect (ncol Q) op (lift Q (col V k))) v) temps row) l rs.
  Proof using All.
    intros l H. destruct (many_rows site_op l H) as (rs & ER & FR). exists rs. split; [|exact FR].
    unfold thermal_exp_sites. fold l. rewrite ER. reflexivity.
  Qed.
  Lemma thermal_pairs_ok nsites pair_op : (forall i j, (j <= i < nsites)%nat -> exists op, pair_op i j = Ok op /\ nrow op = ncol Q /\ ncol op = ncol Q) ->
    exists rs pairs, thermal_corr_sites V E nsites pair_op temps None P = Ok (rs, pairs) /\
      NoDup pairs /\ (forall i j, In (i, j) pairs <-> (j <= i < nsites)%nat) /\
      Forall2 (fun p row => exists op, pair_op (fst p) (snd p) = Ok op /\
        Forall2 (fun T v => thermal_mean T E (fun k => expect (ncol Q) op (lift Q (col V k))) v) temps row) pairs rs.
  Proof using All.
    intros H. destruct (many_rows (fun p => pair_op (fst p) (snd p)) (all_pairs nsites)) as (rs & ER & FR).
    { intros [i j] Hp. apply H. apply all_pairs_in, Hp. }
    exists rs, (all_pairs nsites). split; [unfold thermal_corr_sites; cbn [bind]; rewrite ER; reflexivity|].
    split; [apply all_pairs_nodup|]. split; [intros; apply all_pairs_in | exact FR].
  Qed.
  (** Given lists of sites are paired one by one. *)
  Lemma zip_ok l1 : forall l2, (length l1 <= length l2)%nat -> zip_sites l1 l2 = Ok (combine l1 l2).
  Proof using.
    clear. induction l1 as [|x l1 IH]; intros [|y l2] L; cbn in *; try reflexivity; try lia. rewrite IH by lia. reflexivity.
  Qed.
  Lemma zip_raises l1 : forall l2, (length l2 < length l1)%nat -> zip_sites l1 l2 = Raise IndexError.
  Proof using.
    clear. induction l1 as [|x l1 IH]; intros [|y l2] L; cbn in *; try reflexivity; try lia. rewrite IH by lia. reflexivity.
  Qed.
  Lemma thermal_given_ok nsites pair_op l1 l2 : 
    (length l2 < length l1)%nat /\ thermal_corr_sites V E nsites pair_op temps (Some (l1, l2)) P = Raise IndexError \/
    (length l1 <= length l2)%nat /\ ((forall i j, In (i, j) (combine l1 l2) -> exists op, pair_op i j = Ok op /\ nrow op = ncol Q /\ ncol op = ncol Q) ->
      exists rs, thermal_corr_sites V E nsites pair_op temps (Some (l1, l2)) P = Ok (rs, combine l1 l2) /\
      Forall2 (fun p row => exists op, pair_op (fst p) (snd p) = Ok op /\
        Forall2 (fun T v => thermal_mean T E (fun k => expect (ncol Q) op (lift Q (col V k))) v) temps row) (combine l1 l2) rs).
  Proof using All.
    destruct (Nat.lt_ge_cases (length l2) (length l1)) as [L|L]; [left | right]; (split; [exact L|]).
    - unfold thermal_corr_sites. rewrite zip_raises by exact L. reflexivity.
    - intros H. destruct (many_rows (fun p => pair_op (fst p) (snd p)) (combine l1 l2)) as (rs & ER & FR).
      { intros [i j] Hp. apply H. exact Hp. }
      exists rs. split; [|exact FR]. unfold thermal_corr_sites. rewrite zip_ok by exact L. cbn [bind]. rewrite ER. reflexivity.
  Qed.
End Rows.

(** ** The trace of the exponential *)
Lemma series_unique a l l' : series_to a l -> series_to a l' -> l = l'.
Proof. intros; eapply UL_sequence; eassumption. Qed.
Lemma series_exp x : series_to (fun k => x ^ k) (exp x).
Proof.
  unfold series_to. unfold exp. destruct (exist_exp x) as (l & Hl). cbn. intros eps He. destruct (Hl eps He) as (N & HN). exists N. intros n Hn.
  specialize (HN n Hn). erewrite sum_eq; [exact HN|]. intros i _. cbn. unfold Rdiv. ring.
Qed.
Lemma series_sum m (a : nat -> nat -> R) (l : nat -> R) : (forall i, (i < m)%nat -> series_to (a i) (l i)) ->
  series_to (fun k => rsum m (fun i => a i k)) (rsum m l).
Proof.
  induction m as [|m IH]; intros H.
  - cbn [rsum]. intros eps He. exists 0%nat. intros n _. unfold R_dist. rewrite (sum_eq _ (fun _ => 0)) by (intros; unfold Rdiv; ring). rewrite sum_cte, Rmult_0_l, Rminus_0_r, Rabs_R0. exact He.
  - cbn [rsum]. assert (A := IH ltac:(intros; apply H; lia)). assert (B := H m ltac:(lia)). unfold series_to in *.
    assert (C := CV_plus _ _ _ _ A B). intros eps He. destruct (C eps He) as (N & HN). exists N. intros n Hn. specialize (HN n Hn).
    rewrite <- plus_sum in HN. erewrite sum_eq; [exact HN|]. intros i _. cbn. unfold Rdiv. ring.
Qed.
Lemma series_scale c a l : series_to a l -> series_to (fun k => c * a k) (c * l).
Proof.
  intros H. unfold series_to in *.
  assert (K : Un_cv (fun _ : nat => c) c).
  { intros eps He. exists 0%nat. intros n _. unfold R_dist. rewrite Rminus_eq_0, Rabs_R0. exact He. }
  assert (C := CV_mult _ _ _ _ K H).
  intros eps He. destruct (C eps He) as (N & HN). exists N. intros n Hn. specialize (HN n Hn).
  rewrite scal_sum in HN. erewrite sum_eq; [exact HN|]. intros i _. cbn. unfold Rdiv. ring.
Qed.

Section Trace.
  Variables (H V : mat CR) (E : list R) (beta : R).
  Hypothesis basis : eigenbasis H V E.
  Notation n := (nrow V).
  Notation M := (mscale (real (- beta)) H).
  Lemma power_eigen k : forall i j, (i < n)%nat -> (j < n)%nat ->
    ent (mpower n M k) i j = ksum (ncol V) (fun a => real ((- beta * nth a E 0) ^ k) *c (ent V i a *c conj (ent V j a))).
  Proof.
    destruct basis as ((EC & R1 & R2 & EG) & ON & CB).
    induction k as [|k IH]; intros i j Hi Hj.
    - cbn [mpower meye ent pow]. rewrite (CB (fun i => kb (i =? j)%nat) i Hi). apply ksum_ext. intros a Ha.
      unfold inner. rewrite (ksum_single n j) by (try exact Hj; intros l Hl Ne; rewrite (proj2 (Nat.eqb_neq l j)) by exact Ne; cbn [kb]; ring).
      rewrite Nat.eqb_refl. cbn [kb]. change (real 1) with c1. unfold col. ring.
    - cbn [mpower mmul ent ncol mscale]. rewrite R2.
      rewrite (ksum_ext n _ (fun l => ksum (ncol V) (fun a => real (- beta) *c (ent H i l *c ent V l a) *c (real ((- beta * nth a E 0) ^ k) *c conj (ent V j a))))).
      2:{ intros l Hl. rewrite IH by assumption. rewrite <- ksum_mul_l. apply ksum_ext. intros a _. ring. }
      rewrite ksum_swap. apply ksum_ext. intros a Ha. rewrite ksum_mul_r.
      transitivity (real (- beta) *c apply n H (col V a) i *c (real ((- beta * nth a E 0) ^ k) *c conj (ent V j a))).
      + f_equal. unfold apply, col. rewrite <- ksum_mul_l. reflexivity.
      + rewrite EG by assumption. change (nth a E 0, 0) with (real (nth a E 0)). cbn [pow]. rewrite !real_mul. ring.
  Qed.
  Lemma trace_exp X : is_exponential M X -> rsum n (fun i => fst (ent X i i)) = total (fun e => exp (- beta * e)) E.
  Proof.
    destruct basis as ((EC & R1 & R2 & EG) & ON & CB). intros (X1 & X2 & XE). cbn [mscale nrow] in X1, X2, XE. rewrite R1 in X1, X2, XE.
    assert (XI : forall i, (i < n)%nat -> fst (ent X i i) = rsum (ncol V) (fun a => nsq (ent V i a) * exp (- beta * nth a E 0))).
    { intros i Hi. destruct (XE i i Hi Hi) as [S1 _]. refine (series_unique _ _ _ S1 _).
      assert (S2 : series_to (fun k => rsum (ncol V) (fun a => nsq (ent V i a) * (- beta * nth a E 0) ^ k)) (rsum (ncol V) (fun a => nsq (ent V i a) * exp (- beta * nth a E 0)))).
      { apply series_sum. intros a Ha. apply series_scale, series_exp. }
      intros eps He. destruct (S2 eps He) as (N & HN). exists N. intros m Hm. specialize (HN m Hm).
      erewrite sum_eq; [exact HN|]. intros k _. cbn beta. f_equal. rewrite power_eigen by assumption. rewrite fst_ksum. apply rsum_ext. intros a Ha.
      rewrite mul_conj, <- real_mul. cbn. ring. }
    rewrite (rsum_ext n _ _ XI).
    assert (SW : forall p q (g : nat -> nat -> R), rsum p (fun i => rsum q (g i)) = rsum q (fun j => rsum p (fun i => g i j))).
    { clear. induction p as [|p IH]; intros q g; cbn [rsum].
      - induction q as [|q IHq]; cbn [rsum]; [reflexivity|]. rewrite <- IHq. ring.
      - rewrite IH. clear IH. induction q as [|q IHq]; cbn [rsum]; [ring|]. rewrite <- IHq. ring. }
    rewrite SW. rewrite (rsum_ext (ncol V) _ (fun a => exp (- beta * nth a E 0))).
    - rewrite EC, rsum_total. clear. induction E as [|x l IH] using rev_ind; [reflexivity|].
      rewrite app_length, Nat.add_1_r, seq_S, !total_app. cbn [Nat.add]. rewrite !total_cons, !total_nil, app_nth2, Nat.sub_diag by lia. cbn [nth]. f_equal.
      rewrite <- IH. apply total_ext. intros k Hk. apply in_seq in Hk. rewrite app_nth1 by lia. reflexivity.
    - intros a Ha. assert (N1 : rsum n (fun i => nsq (ent V i a)) = 1).
      { apply real_inj. rewrite <- ksum_real. transitivity (inner n (col V a) (col V a)); [|rewrite ON by assumption; rewrite Nat.eqb_refl; reflexivity].
        apply ksum_ext. intros i _. unfold col. rewrite conj_mul_self. reflexivity. }
      transitivity (exp (- beta * nth a E 0) * rsum n (fun i => nsq (ent V i a))); [|rewrite N1; ring].
      clear. generalize n. intros q. induction q as [|m IH]; cbn [rsum]; [ring|]. rewrite IH. ring.
  Qed.
End Trace.

Section Partition.
  Variable expm : cmat -> cmat.
  Variables (H V : mat CR) (E : list R).
  Hypothesis basis : eigenbasis H V E.
  Lemma partition_trace beta : (beta <> 0 -> is_exponential (mscale (real (- beta)) H) (expm (mscale (real (- beta)) H))) ->
    partition_fn_hamiltonian expm true H beta = Ok (total (fun e => exp (- beta * e)) E).
  Proof.
    intros SP. pose proof (basis_length H V E basis) as LE. pose proof basis as ((EC & R1 & R2 & EG) & ON & CB). unfold partition_fn_hamiltonian, is_zero. destruct (Req_EM_T beta 0) as [->|NZ].
    - f_equal. rewrite R1, <- LE. clear. induction E as [|x l IH]; [reflexivity|]. rewrite total_cons. cbn [length]. rewrite S_INR, IH.
      replace (- 0 * x) with 0 by ring. rewrite exp_0. ring.
    - f_equal. specialize (SP NZ). rewrite <- (trace_exp H V E beta basis _ SP). destruct SP as (X1 & X2 & _). cbn [mscale nrow] in X1, X2.
      rewrite X1, X2, R1, Nat.min_id, rsum_total. clear. generalize (seq 0 (nrow V)). intros l. induction l as [|i l IH]; [reflexivity|].
      cbn [map]. rewrite total_cons, <- IH. reflexivity.
  Qed.
  Lemma partition_same T : (is_exponential (mscale (real (- (1 / T))) H) (expm (mscale (real (- (1 / T))) H))) -> T <> 0 ->
    exists w z, thermal_weights false E T = Ok (w, z) /\ partition_fn_hamiltonian expm true H (1 / T) = Ok z.
  Proof.
    intros SP T0. rewrite (partition_trace (1 / T) (fun _ => SP)). unfold thermal_weights. cbn [bind]. unfold is_zero. destruct (Req_EM_T T 0) as [|_]; [contradiction|].
    eexists. eexists. split; [reflexivity|]. f_equal. clear. induction E as [|x l IH]; [reflexivity|]. cbn [map]. rewrite total_cons, IH. reflexivity.
  Qed.
End Partition.
Lemma exponential_exists H V E beta : eigenbasis H V E -> exists X, is_exponential (mscale (real (- beta)) H) X.
Proof.
  intros B. pose proof B as ((EC & R1 & R2 & EG) & ON & CB).
  exists (Mat (nrow V) (nrow V) (fun i j => ksum (ncol V) (fun a => real (exp (- beta * nth a E 0)) *c (ent V i a *c conj (ent V j a))))).
  split; [cbn; congruence|]. split; [cbn; congruence|]. cbn [mscale nrow]. rewrite R1. intros i j Hi Hj. cbn [ent].
  assert (SND : forall m (g : nat -> CR), snd (ksum m g) = rsum m (fun i => snd (g i))).
  { clear. intros m g. induction m as [|m IH]; [reflexivity|]. cbn [ksum rsum]. cbn. rewrite IH. reflexivity. }
  split.
  - rewrite fst_ksum. intros eps He.
    destruct (series_sum (ncol V) (fun a k => fst (ent V i a *c conj (ent V j a)) * (- beta * nth a E 0) ^ k) (fun a => fst (ent V i a *c conj (ent V j a)) * exp (- beta * nth a E 0))
      (fun a _ => series_scale _ _ _ (series_exp _)) eps He) as (N & HN).
    exists N. intros m Hm. specialize (HN m Hm). replace (rsum (ncol V) (fun k => fst (real (exp (- beta * nth k E 0)) *c (ent V i k *c conj (ent V j k)))))
      with (rsum (ncol V) (fun a => fst (ent V i a *c conj (ent V j a)) * exp (- beta * nth a E 0))) by (apply rsum_ext; intros; cbn; ring).
    erewrite sum_eq; [exact HN|]. intros k _. cbn beta. f_equal. rewrite (power_eigen H V E beta B) by assumption. rewrite fst_ksum. apply rsum_ext. intros; cbn; ring.
  - rewrite SND. intros eps He.
    destruct (series_sum (ncol V) (fun a k => snd (ent V i a *c conj (ent V j a)) * (- beta * nth a E 0) ^ k) (fun a => snd (ent V i a *c conj (ent V j a)) * exp (- beta * nth a E 0))
      (fun a _ => series_scale _ _ _ (series_exp _)) eps He) as (N & HN).
    exists N. intros m Hm. specialize (HN m Hm). replace (rsum (ncol V) (fun k => snd (real (exp (- beta * nth k E 0)) *c (ent V i k *c conj (ent V j k)))))
      with (rsum (ncol V) (fun a => snd (ent V i a *c conj (ent V j a)) * exp (- beta * nth a E 0))) by (apply rsum_ext; intros; cbn; ring).
    erewrite sum_eq; [exact HN|]. intros k _. cbn beta. f_equal. rewrite (power_eigen H V E beta B) by assumption. rewrite SND. apply rsum_ext. intros; cbn; ring.
Qed.
Lemma partition_dense expm H beta : beta <> 0 -> partition_fn_hamiltonian expm false H beta = Raise AttributeError.
Proof. intros B. unfold partition_fn_hamiltonian, is_zero. destruct (Req_EM_T beta 0); [contradiction | reflexivity]. Qed.
