(** Motion and response of the pair operator of a Hubbard model. *)
From Coq Require Import List Arith Lia Reals Lra Bool QArith Setoid Morphisms.
From Verif Require Import Scalars Res Matrix Sums SqMat CarAlgebra ModelBase ModelFermions SpecFock SpecHubbard OpsProofs
  FockProofs FermiOps SwapProofs HamProofs HamSym
  ModelGeometry ModelPhase ModelSymmetry SymBase ModelThermal SpecThermal ThermalBase ThermalFacts ThermalBasis SymAverage FreeKms FreeFermi FreeThermal SpecFermiGas SpecHalf HalfModes HalfHam SpecEta EtaPair SpecPrecess Precess PrecessResp.
From Verif Require FreeWick Convex.
Import ListNotations.
Local Open Scope nat_scope.
Arguments Nat.pow : simpl never.

Section Motion.
  Variables (H V O : mat CR) (E : list R) (n : nat) (c : R).
  Hypothesis basis : eigenbasis H V E.
  Hypothesis rows : nrow V = n.
  Hypothesis O1 : nrow O = n. Hypothesis O2 : ncol O = n.
  Hypothesis sh : shifts n H O c.
  Notation iO := (mscale ((0, -1)%R : CR) O).
  Lemma imaginary psi : expect n iO psi = snd (amplitude n O psi).
  Proof using.
    clear. unfold expect, amplitude. rewrite (inner_ext n psi psi _ (fun a => apply n O psi a *c ((0, -1)%R : CR))); [|reflexivity | intros a Ha; unfold apply; rewrite <- ksum_mul_r; apply ksum_ext; intros b Hb; cbn [mscale ent]; ring].
    unfold inner. rewrite (ksum_ext n _ (fun a => (conj (psi a) *c apply n O psi a) *c ((0, -1)%R : CR))) by (intros; ring). rewrite ksum_mul_r. destruct (ksum n (fun a => conj (psi a) *c apply n O psi a)) as (p, q). cbn. ring.
  Qed.
  Theorem motion_api st times Ms x0 y0 k : quench st V E times = Ok Ms -> (k < ncol (as_columns st))%nat ->
    exp_vals st O = Ok x0 -> exp_vals st iO = Ok y0 ->
    exists x y, exp_vals (Columns (nth k Ms (mzero 0 0))) O = Ok x /\ exp_vals (Columns (nth k Ms (mzero 0 0))) iO = Ok y /\ length x = length times /\ length y = length times /\
      forall a, (a < length times)%nat -> let phi := (c * nth a times 0)%R in
        nth a x 0%R = (cos phi * nth k x0 0 - sin phi * nth k y0 0)%R /\ nth a y 0%R = (sin phi * nth k x0 0 + cos phi * nth k y0 0)%R.
  Proof using All.
    intros EQ Hk EX EY.
    pose proof (path_of V E st times Ms k O EQ Hk ltac:(congruence) ltac:(congruence)) as PX. pose proof (path_of V E st times Ms k iO EQ Hk ltac:(cbn; congruence) ltac:(cbn; congruence)) as PY.
    do 2 eexists. split; [exact PX|]. split; [exact PY|]. rewrite !map_length, !seq_length. do 2 (split; [reflexivity|]). intros a Ha phi. rewrite !map_seq_nth by exact Ha.
    assert (S1 : nrow V = nrow (as_columns st)) by (unfold quench in EQ; destruct (Nat.eqb_spec (nrow V) (nrow (as_columns st))) as [Q|Q]; [exact Q | discriminate EQ]).
    rewrite exp_vals_of in EX by congruence. rewrite exp_vals_of in EY by (cbn; congruence). injection EX as <-. injection EY as <-. rewrite !map_seq_nth by exact Hk. rewrite rows. change (nrow iO) with (nrow O). rewrite O1, !imaginary.
    change (expect n O (col (as_columns st) k)) with (fst (amplitude n O (col (as_columns st) k))). change (expect n O (evolve V E (col (as_columns st) k) (nth a times 0%R))) with (fst (amplitude n O (evolve V E (col (as_columns st) k) (nth a times 0%R)))).
    rewrite (amplitude_moves H V O E n c basis rows sh). fold phi. split; reflexivity.
  Qed.
End Motion.

Section Pair.
  Variable f : fermions CR.
  Notation ns := (fg_nsites (f_geom f)).
  Notation m := (f_nspecies f).
  Notation nl := (nlog (f_sys f)).
  Notation N := (2 ^ nlog (f_sys f)).
  Notation q i k := (lsite (f_sys f) i k).
  Variables (side : nat -> bool) (e : R) (H O : mat CR) (A : nat -> mat CR).
  Hypothesis sym : pair_symmetric f side e.
  Hypothesis ham : createH f None = Ok H.
  Hypothesis EA : forall i, i < ns -> two_site_op (f_sys f) i 0 i 1 cdag_op cdag_op Fermion = Ok (A i).
  Hypothesis OA : alternating ns N side A O.
  Notation sg i := (real (sign side i)).
  Lemma is_ETA : seqv (N:=N) (ent O) (ETA f side).
  Proof using sym EA OA.
    intros a b Ha Hb. destruct OA as (_ & _ & V). rewrite (V a b Ha Hb). unfold ETA. apply ksum_ext. intros i Hi. rewrite (proj2 (put_ok f side e sym i (A i) Hi (EA i Hi)) a b Ha Hb). unfold sign, real. reflexivity.
  Qed.
  Lemma smul_ap (X Y : mat CR) psi a : apply N X (apply N Y psi) a = ksum N (fun b => smul (N:=N) (ent X) (ent Y) a b *c psi b).
  Proof using.
    clear. unfold apply, smul. rewrite (ksum_ext N _ (fun b => ksum N (fun c => ent X a b *c (ent Y b c *c psi c)))) by (intros b Hb; rewrite <- ksum_mul_l; reflexivity).
    rewrite ksum_swap. apply ksum_ext. intros c Hc. rewrite <- ksum_mul_r. apply ksum_ext. intros b Hb. ring.
  Qed.
  Theorem pair_shifts : shifts N H O e.
  Proof using All.
    intros psi a Ha. rewrite !smul_ap. change ((e, 0%R) : CR) with (real e). unfold apply. rewrite <- ksum_mul_l, <- ksum_add. apply ksum_ext. intros b Hb.
    pose proof (ad_ham f side e sym H ham a b Ha Hb) as Y. unfold ssub, sscale in Y.
    assert (W1 : smul (N:=N) (ent H) (ent O) a b = smul (N:=N) (ent H) (ETA f side) a b) by (apply ksum_ext; intros c Hc; rewrite (is_ETA c b Hc Hb); reflexivity).
    assert (W2 : smul (N:=N) (ent O) (ent H) a b = smul (N:=N) (ETA f side) (ent H) a b) by (apply ksum_ext; intros c Hc; rewrite (is_ETA a c Ha Hc); reflexivity).
    rewrite W1, W2, (is_ETA a b Ha Hb).
    transitivity (smul (N:=N) (ETA f side) (ent H) a b *c psi b +c (smul (N:=N) (ent H) (ETA f side) a b -c smul (N:=N) (ETA f side) (ent H) a b) *c psi b); [ring|]. rewrite Y. ring.
  Qed.

  (** The commutator with the adjoint counts particles. *)
  Variables (V P MA MB : mat CR) (E : list R) (B U D : nat -> mat CR) (T w eta : R).
  Hypothesis EB : forall j, j < ns -> two_site_op (f_sys f) j 1 j 0 c_op c_op Fermion = Ok (B j).
  Hypothesis PB : alternating ns N side B P.
  Hypothesis basis : eigenbasis H V E.
  Hypothesis T0 : T <> 0%R.
  Hypothesis EU : forall j, j < ns -> single_site_op (f_sys f) j 0 n_op Boson = Ok (U j).
  Hypothesis ED : forall j, j < ns -> single_site_op (f_sys f) j 1 n_op Boson = Ok (D j).
  Notation om := (omega N V E T).
  Notation nn i := (ssub s1 (sadd (Nn nl (q i 0)) (Nn nl (q i 1)))).
  Lemma is_TAKE : seqv (N:=N) (ent P) (fun a b => ksum ns (fun j => sg j *c take f j a b)).
  Proof using sym EB PB.
    intros a b Ha Hb. destruct PB as (_ & _ & W). rewrite (W a b Ha Hb). apply ksum_ext. intros i Hi. rewrite (proj2 (take_ok f side e sym i (B i) Hi (EB i Hi)) a b Ha Hb). unfold sign, real. reflexivity.
  Qed.
  Lemma om_sum k (X : nat -> sq CR N) : om (fun a b => ksum k (fun j => X j a b)) = ksum k (fun j => om (X j)).
  Proof using.
    clear. induction k as [|k IH].
    - cbn [ksum]. transitivity (om (sscale c0 (s1 (K:=CR)))); [|rewrite omega_scale; change k0 with c0; ring]. apply omega_ext. intros a b _ _. unfold sscale. cbn [ksum]. change k0 with c0. ring.
    - cbn [ksum]. rewrite <- IH, <- omega_add. apply omega_ext. intros a b _ _. reflexivity.
  Qed.
  Lemma commutes_to : seqv (N:=N) (ssub (smul (ent P) (ent O)) (smul (ent O) (ent P))) (fun a b => ksum ns (fun j => nn j a b)).
  Proof using sym EA OA EB PB.
    intros a b Ha Hb. unfold ssub.
    assert (W1 : smul (N:=N) (ent P) (ent O) a b = ksum ns (fun j => sg j *c smul (N:=N) (take f j) (ETA f side) a b)).
    { unfold smul. rewrite (ksum_ext N _ (fun c => ksum ns (fun j => sg j *c (take f j a c *c ETA f side c b)))).
      - rewrite ksum_swap. apply ksum_ext. intros j Hj. rewrite ksum_mul_l. reflexivity.
      - intros c Hc. rewrite (is_TAKE a c Ha Hc), (is_ETA c b Hc Hb), <- ksum_mul_r. apply ksum_ext. intros j Hj. ring. }
    assert (W2 : smul (N:=N) (ent O) (ent P) a b = ksum ns (fun j => sg j *c smul (N:=N) (ETA f side) (take f j) a b)).
    { unfold smul. rewrite (ksum_ext N _ (fun c => ksum ns (fun j => sg j *c (ETA f side a c *c take f j c b)))).
      - rewrite ksum_swap. apply ksum_ext. intros j Hj. rewrite ksum_mul_l. reflexivity.
      - intros c Hc. rewrite (is_TAKE c b Hc Hb), (is_ETA a c Ha Hc), <- ksum_mul_l. apply ksum_ext. intros j Hj. ring. }
    rewrite W1, W2. transitivity (ksum ns (fun j => sg j *c (smul (N:=N) (take f j) (ETA f side) a b -c smul (N:=N) (ETA f side) (take f j) a b))).
    - rewrite <- Convex.ksum_minus. apply ksum_ext. intros j Hj. ring.
    - apply ksum_ext. intros j Hj. pose proof (ad_take f side e sym j Hj a b Ha Hb) as Y. unfold ad in Y. change ksub with (fun x y : CR => x -c y) in Y. cbv beta in Y. rewrite Y. unfold sscale.
      assert (SS : sg j *c sg j = c1) by (unfold sign; destruct (side j); apply injective_projections; cbn; ring).
      set (x := nn j a b). transitivity (sg j *c sg j *c x); [ring|]. rewrite SS. change (c1 *c x = x). clearbody x. ring.
  Qed.
  Lemma counted x y (u d : nat -> R) : exp_vals_thermal V (mmul P O) E T = Ok x -> exp_vals_thermal V (mmul O P) E T = Ok y ->
    (forall j, j < ns -> exp_vals_thermal V (U j) E T = Ok (u j)) -> (forall j, j < ns -> exp_vals_thermal V (D j) E T = Ok (d j)) ->
    (x - y = total (fun j => 1 - u j - d j) (seq 0 ns))%R.
  Proof using All.
    intros EX EY EUT EDT. pose proof (two f side e sym) as M2. destruct OA as (O1 & O2 & _). destruct PB as (P1 & P2 & _).
    assert (SO : square N O) by (split; assumption). assert (SP : square N P) by (split; assumption).
    assert (NE : E <> []) by (apply (FreeWick.basis_not_empty V E H basis); rewrite (V_eta f side e sym H V E ham basis); apply Nat.neq_0_lt_0, Nat.pow_nonzero; discriminate).
    assert (ZP : (0 < Zp E T)%R) by (apply Zp_pos; exact NE).
    rewrite (avg f side e sym H V E ham basis T T0) in EX, EY by (apply square_mul; assumption). injection EX as <-. injection EY as <-.
    assert (C : om (ent (mmul P O)) -c om (ent (mmul O P)) = ksum ns (fun j => om (nn j))).
    { rewrite <- om_sum. transitivity (om (ent (mmul P O)) +c kopp c1 *c om (ent (mmul O P))); [ring|]. rewrite <- omega_scale, <- omega_add. apply omega_ext.
      intros a b Ha Hb. rewrite <- (commutes_to a b Ha Hb). unfold sadd, sscale, ssub. rewrite (ent_mul N P O SP), (ent_mul N O P SO). ring. }
    assert (V0 : forall j, j < ns -> (fst (om (nn j)) = Zp E T * (1 - u j - d j))%R).
    { intros j Hj.
      destruct (single_ok (f_sys f) j 0 n_op Boson (f_two f) ltac:(discriminate) Hj ltac:(change (0 < m); lia) (sq2 _ _ _ _)) as (U' & EU' & SU & VU). rewrite (EU j Hj) in EU'. injection EU' as <-.
      destruct (single_ok (f_sys f) j 1 n_op Boson (f_two f) ltac:(discriminate) Hj ltac:(change (1 < m); lia) (sq2 _ _ _ _)) as (D' & ED' & SD & VD). rewrite (ED j Hj) in ED'. injection ED' as <-.
      change (seqv (N:=N) (ent (U j)) (Nn nl (q j 0))) in VU. change (seqv (N:=N) (ent (D j)) (Nn nl (q j 1))) in VD.
      specialize (EUT j Hj). specialize (EDT j Hj). rewrite (avg f side e sym H V E ham basis T T0) in EUT, EDT by assumption. injection EUT as EUT. injection EDT as EDT. rewrite (omega_ext N V E T _ _ VU) in EUT. rewrite (omega_ext N V E T _ _ VD) in EDT. rewrite <- EUT, <- EDT.
      assert (NV : om (nn j) = real (Zp E T) -c (om (Nn nl (q j 0)) +c om (Nn nl (q j 1)))).
      { rewrite <- (om_1 f side e sym H V E ham basis T), <- omega_add. transitivity (om s1 +c kopp c1 *c om (sadd (Nn nl (q j 0)) (Nn nl (q j 1)))); [|ring].
        rewrite <- omega_scale, <- omega_add. apply omega_ext. intros a b _ _. unfold ssub, sadd, sscale. ring. }
      rewrite NV. cbn. field. lra. }
    transitivity (fst (om (ent (mmul P O)) -c om (ent (mmul O P))) / Zp E T)%R; [cbn; field; lra|]. rewrite C, fst_ksum, rsum_total.
    rewrite (total_ext _ (fun j => (Zp E T * (1 - u j - d j))%R)) by (intros j Hj; apply in_seq in Hj; apply V0; lia). rewrite total_scale. field. lra.
  Qed.
  Hypothesis EMA : matrix_elems V O = Ok MA.
  Hypothesis EMB : matrix_elems V P = Ok MB.
  Theorem pair_line z (u d : nat -> R) : response_time_ordered MA MB E T w eta = Ok z ->
    (forall j, j < ns -> exp_vals_thermal V (U j) E T = Ok (u j)) -> (forall j, j < ns -> exp_vals_thermal V (D j) E T = Ok (d j)) ->
    (fst z = PI * lorentz eta (w - e) * total (fun j => 1 - u j - d j) (seq 0 ns))%R.
  Proof using All.
    intros EZ EUT EDT. destruct OA as (O1 & O2 & _). destruct PB as (P1 & P2 & _). assert (SO : square N O) by (split; assumption). assert (SP : square N P) by (split; assumption).
    pose proof (avg f side e sym H V E ham basis T T0 (mmul P O) ltac:(apply square_mul; assumption)) as EX. pose proof (avg f side e sym H V E ham basis T T0 (mmul O P) ltac:(apply square_mul; assumption)) as EY.
    rewrite <- (counted _ _ u d EX EY EUT EDT).
    exact (time_ordered_line H V O P MA MB E N e w eta basis (V_eta f side e sym H V E ham basis) ltac:(apply Nat.pow_nonzero; discriminate) O1 O2 P1 P2 EMA EMB pair_shifts T z _ _ T0 EX EY EZ).
  Qed.
End Pair.
