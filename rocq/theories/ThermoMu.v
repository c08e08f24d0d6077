(** Chemical potential: derivatives of thermal averages, proofs. *)
From Coq Require Import List Arith Lia Reals Lra ZArith QArith Bool.
From Verif Require Import Scalars Res Sums Matrix SqMat ModelBase ModelFermions SpecFock SpecHubbard FermiOps HamProofs HamSym CarAlgebra OpsProofs FockProofs ModelGeometry ModelPhase ModelSymmetry SymBase SpecMat
  ModelThermal SpecThermal ThermalBase ThermalFacts ThermalBasis Spectral SpecFermiGas HalfHam Thermo SpecThermo.
From Verif Require FermiGas FermiModes SymAverage FermiApi.
Import ListNotations.
Local Open Scope R_scope.

(** ** A Hermitian matrix and a diagonal matrix of integers that commutes with it *)
Lemma energy_in H V E x v n : nrow V = n -> eigenbasis H V E -> (forall i, (i < n)%nat -> apply n H v i = real x *c v i) -> (exists i, (i < n)%nat /\ v i <> c0) -> In x E.
Proof.
  intros <- B EV (i & Hi & Nz). pose proof (SymAverage.eigenbasis_hermitian H V E B) as HH. destruct B as ((L & S1 & S2 & EH) & ON & CM).
  destruct (in_dec Req_EM_T x E) as [I|I]; [exact I|]. exfalso. apply Nz. rewrite (CM v i Hi). apply ksum_zero. intros k Hk.
  assert (Z : inner (nrow V) (col V k) v = c0).
  { pose proof (inner_apply_herm (nrow V) H (col V k) v HH) as X.
    rewrite (inner_ext _ (col V k) (col V k) (apply (nrow V) H v) (fun i => real x *c v i)) in X by (try reflexivity; exact EV).
    rewrite (inner_ext _ (apply (nrow V) H (col V k)) (fun i => real (nth k E 0) *c col V k i) v v) in X by (try reflexivity; intros j Hj; apply EH; assumption).
    rewrite inner_scale, inner_scale_l in X. replace (conj (real (nth k E 0))) with (real (nth k E 0)) in X by (apply injective_projections; cbn; ring).
    set (z := inner (nrow V) (col V k) v) in *. assert (D : x - nth k E 0 <> 0). { intros Q. apply I. replace x with (nth k E 0) by lra. apply nth_In. congruence. }
    destruct z as (a, b). pose proof (f_equal fst X) as X1. pose proof (f_equal snd X) as X2. cbn in X1, X2.
    assert (a = 0) by (apply (Rmult_eq_reg_l (x - nth k E 0)); [lra | exact D]). assert (b = 0) by (apply (Rmult_eq_reg_l (x - nth k E 0)); [lra | exact D]). subst. reflexivity. }
  rewrite Z. ring.
Qed.
Lemma total_bound E x : In x E -> Rabs x <= total Rabs E.
Proof.
  induction E as [|a E IH]; intros HI; [destruct HI|]. rewrite total_cons. assert (0 <= total Rabs E) by (apply total_ge0; intros; apply Rabs_pos).
  destruct HI as [->|HI]; [lra|]. specialize (IH HI). pose proof (Rabs_pos a). lra.
Qed.
Lemma nth_tab (F : nat -> R) n k : (k < n)%nat -> nth k (map F (seq 0 n)) 0 = F k.
Proof. intros Hk. rewrite (nth_indep _ 0 (F 0%nat)) by (rewrite map_length, seq_length; exact Hk). rewrite (map_nth F), seq_nth by exact Hk. reflexivity. Qed.
Lemma cr_dec (z : CR) : {z = c0} + {z <> c0}.
Proof. destruct z as (a, b). destruct (Req_EM_T a 0) as [->|A]; [|right; intros X; apply A; exact (f_equal fst X)].
  destruct (Req_EM_T b 0) as [->|B]; [left; reflexivity | right; intros X; apply B; exact (f_equal snd X)]. Qed.

Section Joint.
  Variables (n : nat) (H : mat CR) (d : nat -> nat).
  Hypothesis herm : hermitian n H.
  Hypothesis R1 : nrow H = n. Hypothesis R2 : ncol H = n.
  Hypothesis keeps : forall a b, (a < n)%nat -> (b < n)%nat -> d a <> d b -> ent H a b = c0.
  Theorem joint_basis : exists V E D, nrow V = n /\ eigenbasis H V E /\ length D = length E /\ forall i k, (i < n)%nat -> (k < length E)%nat -> real (INR (d i)) *c ent V i k = real (nth k D 0) *c ent V i k.
  Proof using All.
    destruct (spectral n H herm R1 R2) as (V0 & E0 & B0). set (c := 1 + 2 * total Rabs E0).
    assert (N0 : nrow V0 = n) by (destruct B0 as ((_ & Q & _) & _); congruence).
    set (H' := Mat n n (fun i j => ent H i j +c kb (i =? j)%nat *c real (c * INR (d i)))).
    assert (HH : hermitian n H').
    { intros i j Hi Hj. cbn [H' ent]. rewrite (herm i j Hi Hj), kconj_add. f_equal. rewrite kconj_mul. rewrite Nat.eqb_sym. destruct (Nat.eqb_spec j i) as [->|Ne]; cbn [kb].
      - rewrite kconj_1. apply injective_projections; cbn; ring.
      - rewrite kconj_0. change k0 with c0. ring. }
    destruct (spectral n H' HH eq_refl eq_refl) as (V & E' & B'). pose proof B' as ((L & S1 & S2 & EV) & ON & CM). cbn [H' nrow] in S1.
    rewrite <- S1 in *. clear S2.
    assert (AP : forall v i, (i < n)%nat -> apply n H' v i = apply n H v i +c real (c * INR (d i)) *c v i).
    { intros v i Hi. unfold apply. cbn [H' ent]. rewrite (ksum_ext n _ (fun j => ent H i j *c v j +c kb (i =? j)%nat *c (real (c * INR (d i)) *c v j))) by (intros; ring).
      rewrite ksum_add. f_equal. rewrite (ksum_single n i) by (try exact Hi; intros j Hj Nj; rewrite (proj2 (Nat.eqb_neq i j)) by congruence; cbn [kb]; change k0 with c0; ring).
      rewrite Nat.eqb_refl. cbn [kb]. change k1 with c1. ring. }
    (* columns live in one class *)
    assert (ONE : forall i j k, (i < n)%nat -> (j < n)%nat -> (k < length E')%nat -> ent V i k <> c0 -> ent V j k <> c0 -> d i = d j).
    { intros i j k Hi Hj Hk Ni Nj. destruct (Nat.eq_dec (d i) (d j)) as [Q|Q]; [exact Q|]. exfalso.
      assert (PART : forall s, (s < n)%nat -> ent V s k <> c0 -> In (nth k E' 0 - c * INR (d s)) E0).
      { intros s Hs Ns. apply (energy_in H V0 E0 _ (fun a => kb (d a =? d s)%nat *c ent V a k) n N0 B0).
        - intros a Ha. pose proof (EV a k Ha ltac:(congruence)) as X. rewrite AP in X by exact Ha. change (col V k a) with (ent V a k) in X.
          assert (PA : apply n H (fun a => kb (d a =? d s)%nat *c ent V a k) a = kb (d a =? d s)%nat *c apply n H (col V k) a).
          { unfold apply. rewrite <- ksum_mul_l. apply ksum_ext. intros b Hb. unfold col. destruct (Nat.eq_dec (d a) (d b)) as [Z|Z]; [rewrite Z; ring|]. rewrite (keeps a b Ha Hb Z). ring. }
          rewrite PA. destruct (Nat.eqb_spec (d a) (d s)) as [Z|Z]; cbn [kb]; [|change k0 with c0; ring].
          rewrite <- Z. set (h := apply n H (col V k) a) in *. set (w := ent V a k) in *. change (nth k E' 0, 0) with (real (nth k E' 0)) in X.
          transitivity (h +c real (c * INR (d a)) *c w -c real (c * INR (d a)) *c w); [change k1 with c1; ring|]. rewrite X.
          replace (real (nth k E' 0 - c * INR (d a))) with (real (nth k E' 0) -c real (c * INR (d a))) by (apply injective_projections; cbn; ring). change k1 with c1. ring.
        - exists s. split; [exact Hs|]. rewrite Nat.eqb_refl. cbn [kb]. intros Z. apply Ns. rewrite <- Z. change k1 with c1. ring. }
      pose proof (total_bound _ _ (PART i Hi Ni)) as P1. pose proof (total_bound _ _ (PART j Hj Nj)) as P2.
      assert (G : 1 <= Rabs (INR (d i) - INR (d j))).
      { rewrite !INR_IZR_INZ, <- minus_IZR, Rabs_Zabs. apply (IZR_le 1). lia. }
      assert (M : 0 <= total Rabs E0) by (apply total_ge0; intros; apply Rabs_pos).
      assert (TR : c * Rabs (INR (d i) - INR (d j)) <= 2 * total Rabs E0).
      { rewrite <- (Rabs_right c) by (unfold c; lra). rewrite <- Rabs_mult.
        replace (c * (INR (d i) - INR (d j))) with ((nth k E' 0 - c * INR (d j)) - (nth k E' 0 - c * INR (d i))) by ring.
        pose proof (Rabs_triang (nth k E' 0 - c * INR (d j)) (- (nth k E' 0 - c * INR (d i)))) as TT. rewrite Rabs_Ropp in TT. unfold Rminus at 1. lra. }
      assert (c * 1 <= c * Rabs (INR (d i) - INR (d j))) by (apply Rmult_le_compat_l; [unfold c; lra | exact G]). unfold c in *. lra. }
    set (D := map (fun k => total (fun i => INR (d i) * abs2 (ent V i k)) (seq 0 n)) (seq 0 (length E'))).
    assert (DL : length D = length E') by (unfold D; rewrite map_length, seq_length; reflexivity).
    assert (DV : forall k, (k < length E')%nat -> nth k D 0 = total (fun i => INR (d i) * abs2 (ent V i k)) (seq 0 n)).
    { intros k Hk. unfold D. apply (nth_tab (fun k => total (fun i => INR (d i) * abs2 (ent V i k)) (seq 0 n))). exact Hk. }
    assert (UNIT : forall k, (k < length E')%nat -> total (fun i => abs2 (ent V i k)) (seq 0 n) = 1).
    { intros k Hk. pose proof (ON k k ltac:(congruence) ltac:(congruence)) as X. rewrite Nat.eqb_refl in X. apply (f_equal fst) in X. unfold inner in X. rewrite fst_ksum, rsum_total, <- S1 in X. cbn [kb] in X.
      transitivity (fst (k1 : CR)); [|reflexivity]. rewrite <- X. apply total_ext. intros i _. unfold abs2, col. cbn. ring. }
    assert (SAME : forall i k, (i < n)%nat -> (k < length E')%nat -> ent V i k <> c0 -> nth k D 0 = INR (d i)).
    { intros i k Hi Hk Ni. rewrite DV by exact Hk. rewrite (total_ext _ (fun j => INR (d i) * abs2 (ent V j k))).
      - rewrite ThermalBase.total_scale, UNIT by exact Hk. ring.
      - intros j Hj. apply in_seq in Hj. destruct (cr_dec (ent V j k)) as [Z|Z]; [rewrite Z; unfold abs2; cbn; ring|]. rewrite (ONE i j k Hi ltac:(lia) Hk Ni Z). reflexivity. }
    assert (DD : forall i k, (i < n)%nat -> (k < length E')%nat -> real (INR (d i)) *c ent V i k = real (nth k D 0) *c ent V i k).
    { intros i k Hi Hk. destruct (cr_dec (ent V i k)) as [Z|Z]; [rewrite Z; ring|]. rewrite (SAME i k Hi Hk Z). reflexivity. }
    set (E := map (fun k => nth k E' 0 - c * nth k D 0) (seq 0 (length E'))).
    assert (EL : length E = length E') by (unfold E; rewrite map_length, seq_length; reflexivity).
    exists V, E, D. split; [symmetry; exact S1|]. split; [|split; [congruence|intros i k Hi Hk; apply DD; [exact Hi | congruence]]].
    split; [|split; assumption]. split; [congruence|]. rewrite <- S1. split; [exact R1|]. split; [exact R2|].
    intros i k Hi Hk. assert (Hk' : (k < length E')%nat) by congruence.
    assert (EN : nth k E 0 = nth k E' 0 - c * nth k D 0).
    { unfold E. apply (nth_tab (fun k => nth k E' 0 - c * nth k D 0)). exact Hk'. }
    pose proof (EV i k Hi Hk) as X. rewrite AP in X by exact Hi. change (col V k i) with (ent V i k) in X. change (nth k E' 0, 0) with (real (nth k E' 0)) in X. rewrite EN.
    change (nth k E' 0 - c * nth k D 0, 0) with (real (nth k E' 0 - c * nth k D 0)).
    pose proof (DD i k Hi Hk') as Y. set (h := apply n H (col V k) i) in *. set (w := ent V i k) in *.
    transitivity (h +c real (c * INR (d i)) *c w -c real c *c (real (INR (d i)) *c w)).
    - replace (real (c * INR (d i))) with (real c *c real (INR (d i))) by (apply injective_projections; cbn; ring). ring.
    - rewrite X, Y. replace (real (nth k E' 0 - c * nth k D 0)) with (real (nth k E' 0) -c real c *c real (nth k D 0)) by (apply injective_projections; cbn; ring). ring.
  Qed.
End Joint.

Lemma kofnat_real n : kofnat (K:=CR) n = real (INR n).
Proof. induction n as [|n IH]; [rewrite kofnat_0; apply injective_projections; cbn; ring|]. rewrite kofnat_S, IH, S_INR. apply injective_projections; cbn; ring. Qed.
(** ** A chemical potential *)
Section Mu.
  Variables (f : fermions CR) (k : nat).
  Notation s := (f_sys f).
  Notation ns := (fg_nsites (f_geom f)).
  Notation m := (f_nspecies f).
  Notation nl := (nlog (f_sys f)).
  Notation N := (2 ^ nlog (f_sys f))%nat.
  Hypothesis Hk : (k < m)%nat.
  Hypothesis some : ns <> 0%nat.
  Hypothesis Hm : (2 <= m)%nat \/ (forall i, (i < ns)%nat -> f_us f i = c0).
  Hypothesis rl : real_couplings f.
  Notation fx x := (with_mu f k x).
  Notation d a := (occ_species nl ns a k).

  Lemma real_fx x : real_couplings (fx x).
  Proof using rl.
    clear some Hm. destruct rl as (R1 & R2 & R3 & R4 & R5). repeat (split; [assumption|]). split; [|exact R5].
    intros k' Hk'. cbn [with_mu f_mus]. destruct (k' =? k)%nat; [apply injective_projections; cbn; ring | apply R4; exact Hk'].
  Qed.
  Lemma ham_fx x : exists H, createH (fx x) None = Ok H /\ nrow H = N /\ ncol H = N /\ hermitian N H /\ (forall a b, (a < N)%nat -> (b < N)%nat -> d a <> d b -> ent H a b = c0).
  Proof using Hk Hm rl.
    destruct (createH_hermitian (fx x) None) as (H & EH & (S1 & S2) & AD); [cbn [the_proj ncol meye]; apply (nstates2 s (f_two f)) | exact Hm | apply real_fx|].
    cbn [the_proj nrow meye] in S1, S2. rewrite (nstates2 (f_sys (fx x)) (f_two (fx x))) in S1, S2. change (nlog (f_sys (fx x))) with nl in S1, S2.
    exists H. split; [exact EH|]. split; [exact S1|]. split; [exact S2|]. split.
    - intros i j Hi Hj. destruct AD as (_ & _ & AD). cbn [madj nrow ncol ent] in AD. rewrite S1, S2 in AD. symmetry. apply AD; assumption.
    - destruct (conserve (fx x) Hm) as (H' & EH' & _ & _ & CV). rewrite EH in EH'. injection EH' as <-. intros a b Ha Hb Ne.
      apply (CV k a b Hk); [rewrite (nstates2 (f_sys (fx x)) (f_two (fx x))); exact Ha | rewrite (nstates2 (f_sys (fx x)) (f_two (fx x))); exact Hb | exact Ne].
  Qed.
  Lemma ham_shift x H0 H : createH (fx 0) None = Ok H0 -> createH (fx x) None = Ok H ->
    forall a b, (a < N)%nat -> (b < N)%nat -> ent H a b = ent H0 a b -c real x *c ent (number_spec nl ns k) a b.
  Proof using Hk Hm.
    clear some rl. intros E0 EH a b Ha Hb. destruct (H_is (fx 0) Hm H0 E0) as (_ & _ & V0). destruct (H_is (fx x) Hm H EH) as (_ & _ & VX).
    rewrite (V0 a b Ha Hb), (VX a b Ha Hb). rewrite <- (NS_number f k Hk a b Ha Hb). unfold HS2.
    set (A := ksum _ _). change (f_geom (fx x)) with (f_geom f) in *. change (f_geom (fx 0)) with (f_geom f).
    assert (M : forall y, ksum ns (fun i => ksum m (fun k' => f_mus (fx y) k' *c Nn nl (lsite s i k') a b)) = ksum ns (fun i => ksum m (fun k' => f_mus (fx 0) k' *c Nn nl (lsite s i k') a b)) +c real y *c NS f k a b).
    { intros y. unfold NS. rewrite <- ksum_mul_l, <- ksum_add. apply ksum_ext. intros i Hi.
      assert (P : ksum m (fun k' => kb (k' =? k)%nat *c (real y *c Nn nl (lsite s i k') a b)) = real y *c Nn nl (lsite s i k) a b).
      { rewrite (ksum_single m k) by (try exact Hk; intros j Hj Nj; rewrite (proj2 (Nat.eqb_neq j k)) by congruence; cbn [kb]; change k0 with c0; ring). rewrite Nat.eqb_refl. cbn [kb]. change k1 with c1. ring. }
      rewrite <- P, <- ksum_add. apply ksum_ext. intros k' Hk'. cbn [with_mu f_mus]. destruct (k' =? k)%nat; cbn [kb]; [|change k0 with c0; ring].
      change (re y) with (real y). change (re 0) with c0. change k1 with c1. ring. }
    specialize (M x). change (lsite (f_sys (fx x))) with (lsite s). change (lsite (f_sys (fx 0))) with (lsite s). change (nlog (f_sys (fx x))) with nl. change (nlog (f_sys (fx 0))) with nl.
    change (f_nspecies (fx x)) with m. change (f_nspecies (fx 0)) with m. rewrite M. cbn [with_mu f_us f_same f_pot f_ts]. unfold A. cbn [with_mu f_ts]. ring.
  Qed.

  Variable T : R.
  Hypothesis T0 : T <> 0.

  (** One basis of states with definite numbers of species [k] serves all
      chemical potentials. *)
  Lemma family : exists V E D, nrow V = N /\ length D = length E /\ ncol V = length E /\ E <> [] /\
    (forall i c, (i < N)%nat -> (c < length E)%nat -> real (INR (d i)) *c ent V i c = real (nth c D 0) *c ent V i c) /\
    forall x H, createH (fx x) None = Ok H -> eigenbasis H V (map (fun c => nth c E 0 - x * nth c D 0) (seq 0 (length E))).
  Proof using Hk Hm rl.
    clear T T0 some. destruct (ham_fx 0) as (H0 & E0 & S1 & S2 & HH & KP).
    destruct (joint_basis N H0 (fun a => d a) HH S1 S2 KP) as (V & E & D & VR & B & DL & DE). exists V, E, D.
    pose proof B as ((L & _ & _ & EV) & ON & CM).
    split; [exact VR|]. split; [exact DL|]. split; [exact L|]. split; [apply (E_some H0 V E B); rewrite VR; pose proof (Nat.pow_nonzero 2 nl); lia|]. split; [exact DE|].
    intros x H EH. destruct (ham_fx x) as (H' & EH' & T1 & T2 & _). rewrite EH in EH'. injection EH' as <-.
    split; [|split; assumption]. split; [rewrite map_length, seq_length; exact L|]. split; [congruence|]. split; [congruence|].
    intros i c Hi Hc. rewrite (nth_tab (fun c => nth c E 0 - x * nth c D 0)) by congruence. rewrite VR in *.
    transitivity (apply N H0 (col V c) i -c real x *c (real (INR (d i)) *c ent V i c)).
    - unfold apply. rewrite (ksum_ext N _ (fun j => ent H0 i j *c col V c j +c kb (i =? j)%nat *c (c0 -c (real x *c (real (INR (d i)) *c ent V j c))))).
      + rewrite ksum_add, (ksum_single N i (fun j => kb (i =? j)%nat *c _)) by (try exact Hi; intros j Hj Nj; rewrite (proj2 (Nat.eqb_neq i j)) by congruence; cbn [kb]; change k0 with c0; ring).
        rewrite Nat.eqb_refl. cbn [kb]. change k1 with c1. ring.
      + intros j Hj. rewrite (ham_shift x H0 H E0 EH i j Hi Hj). unfold number_spec, col. cbn [ent]. destruct (Nat.eqb_spec i j) as [<-|Ne]; cbn [kb].
        * rewrite kofnat_real. change k1 with c1. ring.
        * change k0 with c0. ring.
    - rewrite (EV i c Hi Hc). rewrite DE by congruence. change (nth c E 0, 0) with (real (nth c E 0)). change (nth c E 0 - x * nth c D 0, 0) with (real (nth c E 0 - x * nth c D 0)).
      replace (real (nth c E 0 - x * nth c D 0)) with (real (nth c E 0) -c real x *c real (nth c D 0)) by (apply injective_projections; cbn; ring). ring.
  Qed.
  Notation sized O := (nrow O = N /\ ncol O = N).
  (** The thermal average as a function of the chemical potential. *)
  Lemma mu_family : exists l (a b : nat -> R) (V : mat CR), l <> [] /\
    (forall O x H V' E', sized O -> createH (fx x) None = Ok H -> eigenbasis H V' E' ->
      exp_vals_thermal V' O E' T = Ok (ave l a b (fun c => expect N O (col V c)) x)) /\
    forall Nk O, sum_op s n_op k Boson = Ok Nk -> sized O -> sized Nk /\
      (forall c, In c l -> b c * expect N O (col V c) = / T * expect N (mmul Nk O) (col V c)) /\ (forall c, In c l -> b c = / T * expect N Nk (col V c)).
  Proof using Hk Hm rl some T0.
    destruct family as (V & E & D & VR & DL & L & NE & DE & FB). assert (PN : (0 < N)%nat) by (pose proof (Nat.pow_nonzero 2 nl); lia).
    exists (seq 0 (length E)), (fun c => - nth c E 0 / T), (fun c => nth c D 0 / T), V.
    split; [destruct E; [congruence | discriminate]|]. split.
    - intros O x H V' E' (O1 & O2) EH B'. pose proof (FB x H EH) as B. destruct (ham_fx x) as (H' & EH' & T1 & T2 & HH & _). rewrite EH in EH'. injection EH' as <-.
      assert (R' : nrow V' = N) by (destruct B' as ((_ & Q & _) & _); congruence).
      rewrite (thermal_basis H V' V O E' _ T ltac:(rewrite R'; exact HH) B' B); [| congruence | | | left; exact T0].
      2:{ split; [congruence|]. split; [congruence|]. split; [apply B' | apply (E_some H V' E' B'); lia]. }
      2:{ destruct E; [congruence | discriminate]. }
      rewrite (avg_val H V _ B) by (try exact T0; try (rewrite VR; split; assumption); lia). f_equal. rewrite VR, map_length, seq_length. unfold ave.
      assert (W : forall c, In c (seq 0 (length E)) -> wt (fun _ => 0) (fun c => - nth c (map (fun c => nth c E 0 - x * nth c D 0) (seq 0 (length E))) 0) (/ T) c = wt (fun c => - nth c E 0 / T) (fun c => nth c D 0 / T) x c).
      { intros c Hc. apply in_seq in Hc. unfold wt. rewrite (nth_tab (fun c => nth c E 0 - x * nth c D 0)) by lia. f_equal. field. exact T0. }
      f_equal; apply total_ext; intros c Hc; rewrite W by exact Hc; reflexivity.
    - intros Nk O EN (O1 & O2). destruct (sum_op_number (K:=CR) s k (f_two f) some Hk) as (Nk' & EN' & MQ). rewrite EN in EN'. injection EN' as <-.
      destruct MQ as (N1 & N2 & NV). change (nrow (number_spec (K:=CR) nl (s_nsites s) k)) with N in N1. change (ncol (number_spec (K:=CR) nl (s_nsites s) k)) with N in N2.
      change (s_nsites s) with ns in NV. rewrite N1, N2 in NV.
      assert (SN : sized Nk) by (split; assumption). split; [exact SN|].
      assert (EV : forall c, (c < length E)%nat -> forall i, (i < N)%nat -> apply N Nk (col V c) i = real (nth c D 0) *c col V c i).
      { intros c Hc i Hi. unfold col at 2. rewrite <- DE by assumption. unfold apply.
        rewrite (ksum_single N i) by (try exact Hi; intros j Hj Nj; rewrite NV by assumption; unfold number_spec; cbn [ent]; rewrite (proj2 (Nat.eqb_neq i j)) by congruence; change k0 with c0; ring).
        rewrite NV by assumption. unfold number_spec, col. cbn [ent]. rewrite Nat.eqb_refl, kofnat_real. reflexivity. }
      assert (HN : hermitian N Nk).
      { intros i j Hi Hj. rewrite !NV by assumption. unfold number_spec. cbn [ent]. rewrite Nat.eqb_sym. destruct (Nat.eqb_spec j i) as [->|Ne]; [|symmetry; apply kconj_0].
        rewrite kofnat_real. apply injective_projections; cbn; ring. }
      assert (B0 : exists H0, eigenbasis H0 V (map (fun c => nth c E 0 - 0 * nth c D 0) (seq 0 (length E)))).
      { destruct (ham_fx 0) as (H0 & E0 & _). exists H0. apply FB. exact E0. }
      destruct B0 as (H0 & ((LL & _) & ON & _)).
      split; intros c Hc; apply in_seq in Hc.
      + pose proof (ev_mul V E Nk O (fun c => nth c D 0) c) as X. rewrite VR in X. rewrite X; [unfold Rdiv; ring | exact HN | exact SN | lia | intros i Hi; apply EV; [lia | exact Hi]].
      + assert (X : expect N Nk (col V c) = nth c D 0); [|rewrite X; unfold Rdiv; ring].
        unfold expect. rewrite (inner_ext N _ (col V c) _ (fun i => real (nth c D 0) *c col V c i)); [|reflexivity|apply EV; lia].
        pose proof (ON c c ltac:(lia) ltac:(lia)) as Y. rewrite VR in Y. rewrite inner_scale, Y. rewrite Nat.eqb_refl. cbn. ring.
  Qed.

  Theorem mu_slope O Nk : sum_op s n_op k Boson = Ok Nk -> sized O -> exists F,
    (forall x H V E, createH (fx x) None = Ok H -> eigenbasis H V E -> exp_vals_thermal V O E T = Ok (F x)) /\
    forall x H V E y z w, createH (fx x) None = Ok H -> eigenbasis H V E ->
      exp_vals_thermal V Nk E T = Ok y -> exp_vals_thermal V O E T = Ok z -> exp_vals_thermal V (mmul Nk O) E T = Ok w ->
      derivable_pt_lim F x ((w - y * z) / T).
  Proof using Hk Hm rl some T0.
    intros EN SO. destruct mu_family as (l & a & b & V0 & NE & AV & BV). destruct (BV Nk O EN SO) as (SN & B1 & B2).
    exists (ave l a b (fun c => expect N O (col V0 c))). split; [intros; eapply AV; eassumption|].
    intros x H V E y z w EH B EY EZ EW. rewrite (AV _ x H V E SN EH B) in EY. rewrite (AV _ x H V E SO EH B) in EZ.
    rewrite (AV (mmul Nk O) x H V E) in EW; [|split; [apply SN | apply SO] | exact EH | exact B]. injection EY as <-. injection EZ as <-. injection EW as <-.
    pose proof (ave_deriv l a b NE (fun c => expect N O (col V0 c)) x) as DV.
    cbv beta in DV. rewrite (ave_ext l a b (fun c => b c * expect N O (col V0 c)) (fun c => / T * expect N (mmul Nk O) (col V0 c)) x) in DV by exact B1.
    rewrite (ave_ext l a b b (fun c => / T * expect N Nk (col V0 c)) x) in DV by exact B2. rewrite !ave_scale in DV.
    match type of DV with derivable_pt_lim _ _ ?v => replace ((_ - _) / T) with v end; [exact DV|]. field. exact T0.
  Qed.
  Theorem density_rises Nk x1 x2 H1 H2 V1 V2 E1 E2 y1 y2 : sum_op s n_op k Boson = Ok Nk -> 0 < T -> x1 <= x2 ->
    createH (fx x1) None = Ok H1 -> createH (fx x2) None = Ok H2 -> eigenbasis H1 V1 E1 -> eigenbasis H2 V2 E2 ->
    exp_vals_thermal V1 Nk E1 T = Ok y1 -> exp_vals_thermal V2 Nk E2 T = Ok y2 -> y1 <= y2.
  Proof using Hk Hm rl some T0.
    intros EN TP LE EH1 EH2 B1 B2 EY1 EY2. destruct mu_family as (l & a & b & V0 & NE & AV & BV). destruct (BV Nk (meye N) EN ltac:(split; reflexivity)) as (SN & _ & BB).
    rewrite (AV _ x1 H1 V1 E1 SN EH1 B1) in EY1. rewrite (AV _ x2 H2 V2 E2 SN EH2 B2) in EY2. injection EY1 as <-. injection EY2 as <-.
    destruct (Req_EM_T x1 x2) as [->|Ne]; [apply Rle_refl|].
    set (v := fun c => expect N Nk (col V0 c)) in *. set (F' := fun x => ave l a b (fun c => b c * v c) x - ave l a b b x * ave l a b v x).
    destruct (MVT_cor2 (ave l a b v) F' x1 x2 ltac:(lra)) as (c & EQ & _); [intros c _; apply ave_deriv; exact NE|].
    assert (POS : 0 <= F' c).
    { unfold F'. rewrite (ave_ext l a b (fun c => b c * v c) (fun c => / T * (v c * v c)) c) by (intros j Hj; rewrite (BB j Hj); unfold v; ring).
      rewrite (ave_ext l a b b (fun c => / T * v c) c) by exact BB. rewrite !ave_scale. pose proof (ave_var l a b NE v c) as VR. pose proof (Rinv_0_lt_compat T TP). nra. }
    assert (0 <= x2 - x1) by lra. nra.
  Qed.
End Mu.
