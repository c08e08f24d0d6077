(** The number of particles on a site changes by the flows to the other sites. *)
From Coq Require Import List Arith Lia Reals Lra ZArith QArith Qabs Qreals Bool.
From Verif Require Import Scalars Res Matrix Sums SqMat SpecMat SpecFock OpsProofs FockProofs FermiOps ModelBase ModelFermions ModelSpins SpecSpins Digits SpinOps SpinAlg SpinSwap SpinJordan HamProofs FermiApi SpecPerm
  ModelGeometry GeoArith ClusterRep ModelPhase HalfHam SpecSigns Sectors HopSigns SpecShells Shells ModelCurrent SpecCurrent SumRule Current CurrentApi SpecPrecess Precess SpecLongtime Longtime SpecEcho Echo SpecRates Rates Uncertain Equil
  ModelSymmetry SymBase ModelThermal SpecThermal ThermalBase ThermalBasis SpecFlow.
From Verif Require SymAverage.
Import ListNotations.
Local Open Scope R_scope.

Lemma ksum_below n m (g : nat -> CR) : (m <= n)%nat -> ksum n (fun j => if (j <? m)%nat then g j else c0) = ksum m g.
Proof.
  induction n as [|n IH]; intros Hm; [assert (m = 0)%nat as -> by lia; reflexivity|]. destruct (Nat.eq_dec m (S n)) as [->|NE].
  - apply ksum_ext. intros j Hj. rewrite (proj2 (Nat.ltb_lt j (S n))) by exact Hj. reflexivity.
  - cbn [ksum]. rewrite IH by lia. rewrite (proj2 (Nat.ltb_ge n m)) by lia. ring.
Qed.
Definition delta (p q : nat) : R := if (p =? q)%nat then 1 else 0.
Lemma triangle n i0 (T : nat -> nat -> CR) : (i0 < n)%nat ->
  ksum n (fun i => ksum i (fun j => real (delta i i0 - delta j i0) *c T i j)) = ksum n (fun j => (if (j <? i0)%nat then T i0 j else c0) +c (if (i0 <? j)%nat then kopp (T j i0) else c0)).
Proof.
  intros H0. rewrite ksum_add, ksum_below by lia.
  rewrite (ksum_ext n _ (fun i => (if (i =? i0)%nat then ksum i0 (T i0) else c0) +c (if (i0 <? i)%nat then kopp (T i i0) else c0))).
  - rewrite ksum_add. rewrite (ksum_single n i0 _ H0) by (intros k _ NE; rewrite (proj2 (Nat.eqb_neq _ _) NE); reflexivity). rewrite Nat.eqb_refl. reflexivity.
  - intros i Hi. destruct (Nat.eqb_spec i i0) as [->|NE].
    + rewrite Nat.ltb_irrefl. rewrite (ksum_ext i0 _ (T i0)); [ring|]. intros j Hj. unfold delta. rewrite Nat.eqb_refl, (proj2 (Nat.eqb_neq j i0)) by lia. generalize (T i0 j). intros (u, v). apply injective_projections; cbn; ring.
    + destruct (Nat.ltb_spec i0 i) as [L|L].
      * rewrite (ksum_single i i0 _ L). { unfold delta. rewrite (proj2 (Nat.eqb_neq i i0) NE), Nat.eqb_refl. generalize (T i i0). intros (u, v). apply injective_projections; cbn; ring. }
        intros j _ NJ. unfold delta. rewrite (proj2 (Nat.eqb_neq i i0) NE), (proj2 (Nat.eqb_neq j i0) NJ). generalize (T i j). intros (u, v). apply injective_projections; cbn; ring.
      * rewrite ksum_zero; [ring|]. intros j Hj. unfold delta. rewrite (proj2 (Nat.eqb_neq i i0) NE), (proj2 (Nat.eqb_neq j i0)) by lia. generalize (T i j). intros (u, v). apply injective_projections; cbn; ring.
Qed.
(** The rate of change of a diagonal operator. *)
Lemma diagonal_rate N H (X : mat CR) (x : nat -> R) a b : nrow H = N -> (forall a b, (a < N)%nat -> (b < N)%nat -> ent X a b = if (a =? b)%nat then real (x a) else c0) -> (a < N)%nat -> (b < N)%nat ->
  ent (rate_op H X) a b = (0, x b - x a) *c ent H a b.
Proof.
  intros HN XE Ha Hb. cbn [rate_op ent]. rewrite HN.
  rewrite (ksum_ext N _ (fun k => (if (k =? b)%nat then ent H a b *c real (x b) else c0) +c (if (k =? a)%nat then real (- x a) *c ent H a b else c0))).
  - rewrite ksum_add. rewrite (ksum_single N b _ Hb) by (intros k _ NE; rewrite (proj2 (Nat.eqb_neq _ _)) by exact NE; reflexivity). rewrite (ksum_single N a _ Ha) by (intros k _ NE; rewrite (proj2 (Nat.eqb_neq _ _)) by exact NE; reflexivity). rewrite !Nat.eqb_refl. generalize (ent H a b). intros (u, v). apply injective_projections; cbn; ring.
  - intros k Hk. rewrite (XE k b Hk Hb), (XE a k Ha Hk). rewrite (Nat.eqb_sym a k).
    destruct (Nat.eqb_spec k b) as [->|NB]; [|destruct (Nat.eqb_spec k a) as [->|NA]]; [destruct (Nat.eqb_spec b a) as [->|NA]| |].
    + generalize (ent H a a), (x a). intros (u, v) q. apply injective_projections; cbn; ring.
    + generalize (ent H a b), (ent H b b), (x b). intros (u, v) (u', v') q. apply injective_projections; cbn; ring.
    + generalize (ent H a a), (ent H a b), (x a). intros (u, v) (u', v') q. apply injective_projections; cbn; ring.
    + generalize (ent H a k), (ent H k b). intros (u, v) (u', v'). apply injective_projections; cbn; ring.
Qed.
Lemma real_ksum n (F : nat -> R) (G : nat -> CR) : (forall j, (j < n)%nat -> fst (G j) = F j) -> fst (ksum n G) = total F (seq 0 n).
Proof. induction n as [|n IH]; intros X; [reflexivity|]. rewrite seq_S, total_app. cbn [ksum]. change (fst (ksum n G +c G n)) with (fst (ksum n G) + fst (G n)). rewrite IH, X by (auto with arith). unfold total. cbn. ring. Qed.
(** Expectation values of sums. *)
Lemma expect_comb N n (A : mat CR) (c : nat -> R) (G : nat -> nat -> nat -> CR) psi : (forall a b, (a < N)%nat -> (b < N)%nat -> ent A a b = ksum n (fun j => real (c j) *c G j a b)) ->
  expect N A psi = total (fun j => c j * expect N (Mat N N (G j)) psi) (seq 0 n).
Proof.
  intros X. unfold expect at 1. transitivity (fst (ksum n (fun j => real (c j) *c inner N psi (apply N (Mat N N (G j)) psi)))).
  - f_equal. unfold inner, apply. cbn [ent].
    rewrite (ksum_ext n _ (fun j => ksum N (fun a => ksum N (fun b => real (c j) *c (conj (psi a) *c (G j a b *c psi b)))))).
    2:{ intros j _. rewrite <- ksum_mul_l. apply ksum_ext. intros a _. rewrite <- !ksum_mul_l. reflexivity. }
    rewrite ksum_swap. apply ksum_ext. intros a Ha. rewrite ksum_swap. rewrite <- ksum_mul_l. apply ksum_ext. intros b Hb. rewrite (X a b Ha Hb). rewrite <- ksum_mul_r, <- ksum_mul_l. apply ksum_ext. intros j _. ring.
  - apply real_ksum. intros j _. unfold expect. generalize (inner N psi (apply N (Mat N N (G j)) psi)). intros (u, v). cbn. ring.
Qed.

Section Flow.
  Variables (f : fermions CR).
  Notation ns := (fg_nsites (f_geom f)).
  Notation m := (f_nspecies f).
  Notation nl := (ns * m)%nat.
  Notation D := (2 ^ (ns * m))%nat.
  Notation dg p a := (digit 2 nl p a).
  Notation orb s i := (ns * s + i)%nat.
  Notation one p r := (smul (N:=D) (Cd (K:=CR) nl p) (Ca nl r)).
  Lemma orbital_moves p u v a b : (p < nl)%nat -> (u < nl)%nat -> (v < nl)%nat -> u <> v -> (a < D)%nat -> (b < D)%nat ->
    real (INR (dg p b) - INR (dg p a)) *c one u v a b = real (delta v p - delta u p) *c one u v a b.
  Proof using.
    intros Hp Hu Hv NE Ha Hb. rewrite (one_way f u v a b NE Hu Hv Ha Hb). unfold delta.
    destruct (agree_off 2 nl [u; v] a b) eqn:AG; cbn [andb]; [|apply injective_projections; cbn; ring]. rewrite agree_off_spec in AG.
    destruct (Nat.eqb_spec (dg u a) 1) as [E1|E1]; cbn [andb]; [|apply injective_projections; cbn; ring]. destruct (Nat.eqb_spec (dg v a) 0) as [E2|E2]; cbn [andb]; [|apply injective_projections; cbn; ring].
    destruct (Nat.eqb_spec (dg u b) 0) as [E3|E3]; cbn [andb]; [|apply injective_projections; cbn; ring]. destruct (Nat.eqb_spec (dg v b) 1) as [E4|E4]; cbn [andb]; [|apply injective_projections; cbn; ring].
    f_equal. f_equal. destruct (Nat.eqb_spec v p) as [<-|NV].
    - rewrite (proj2 (Nat.eqb_neq u v) NE), E2, E4. cbn. ring.
    - destruct (Nat.eqb_spec u p) as [<-|NU]; [rewrite E1, E3; cbn; ring|]. rewrite (AG p Hp); [ring|]. cbn. intros [X|[X|[]]]; congruence.
  Qed.
  Hypothesis us : us_ok f.
  Notation F := (HamProofs.HS2 f (SpecShells.amplitude f)).
  Variables (i0 s0 : nat).
  Hypothesis Hi0 : (i0 < ns)%nat.
  Hypothesis Hs0 : (s0 < m)%nat.
  Notation p0 := (orb s0 i0).
  Notation G i j s a b := ((0, 1) *c (one (orb s i) (orb s j) a b -c one (orb s j) (orb s i) a b)).
  Lemma orb_in s i : (i < ns)%nat -> (s < m)%nat -> (orb s i < nl)%nat. Proof using. clear. nia. Qed.
  Lemma delta_orb s i : (i < ns)%nat -> delta (orb s i) p0 = delta s s0 * delta i i0.
  Proof using Hi0.
    intros Hi. unfold delta. destruct (Nat.eqb_spec (orb s i) p0) as [E|NE].
    - apply (orb_inj f) in E; [|assumption..]. destruct E as (-> & ->). rewrite !Nat.eqb_refl. ring.
    - destruct (Nat.eqb_spec s s0) as [->|]; [|ring]. destruct (Nat.eqb_spec i i0) as [->|]; [congruence|ring].
  Qed.
  Lemma number_rate a b : (a < D)%nat -> (b < D)%nat ->
    (0, INR (dg p0 b) - INR (dg p0 a)) *c F a b = ksum ns (fun i => ksum i (fun j => real (delta i i0 - delta j i0) *c (SpecShells.amplitude f i j s0 *c G i j s0 a b))).
  Proof using us Hi0 Hs0.
    intros Ha Hb.
    transitivity (ksum ns (fun i => ksum i (fun j => ksum m (fun s => (0, INR (dg p0 b) - INR (dg p0 a)) *c kopp (SpecShells.amplitude f i j s *c HamProofs.hop f (orb s i) (orb s j) a b))))).
    { destruct (Nat.eq_dec a b) as [<-|NE].
      - rewrite ksum_zero; [generalize (F a a); intros (u, v); apply injective_projections; cbn; ring|]. intros i _. apply ksum_zero. intros j _. apply ksum_zero. intros s _. generalize (SpecShells.amplitude f i j s *c HamProofs.hop f (orb s i) (orb s j) a a). intros (u, v). apply injective_projections; cbn; ring.
      - rewrite (off_diagonal f us a b Ha Hb NE). rewrite <- ksum_mul_l. apply ksum_ext. intros i _. rewrite <- ksum_mul_l. apply ksum_ext. intros j _. rewrite <- ksum_mul_l. reflexivity. }
    apply ksum_ext. intros i Hi. apply ksum_ext. intros j Hj.
    assert (T : forall s, (s < m)%nat -> (0, INR (dg p0 b) - INR (dg p0 a)) *c kopp (SpecShells.amplitude f i j s *c HamProofs.hop f (orb s i) (orb s j) a b) = real (delta s s0) *c (real (delta i i0 - delta j i0) *c (SpecShells.amplitude f i j s *c G i j s a b))).
    { intros s Hs. pose proof (orbital_moves p0 (orb s i) (orb s j) a b (orb_in s0 i0 Hi0 Hs0) (orb_in s i Hi Hs) (orb_in s j ltac:(lia) Hs) ltac:(lia) Ha Hb) as M1.
      pose proof (orbital_moves p0 (orb s j) (orb s i) a b (orb_in s0 i0 Hi0 Hs0) (orb_in s j ltac:(lia) Hs) (orb_in s i Hi Hs) ltac:(lia) Ha Hb) as M2.
      rewrite !delta_orb in M1, M2 by lia.
      change (HamProofs.hop f (orb s i) (orb s j) a b) with (one (orb s i) (orb s j) a b +c one (orb s j) (orb s i) a b).
      revert M1 M2. generalize (one (orb s i) (orb s j) a b), (one (orb s j) (orb s i) a b), (INR (dg p0 b) - INR (dg p0 a)), (delta s s0), (delta i i0), (delta j i0), (SpecShells.amplitude f i j s). clear.
      intros (u, u') (v, v') x d1 d2 d3 (t, t') M1 M2. injection M1 as A1 A2. injection M2 as A3 A4.
      assert (B1 : x * u = d1 * (d3 - d2) * u) by lra. assert (B2 : x * u' = d1 * (d3 - d2) * u') by lra. assert (B3 : x * v = d1 * (d2 - d3) * v) by lra. assert (B4 : x * v' = d1 * (d2 - d3) * v') by lra.
      apply injective_projections; cbn.
      - transitivity (t * (x * u' + x * v') + t' * (x * u + x * v)); [ring|]. rewrite B1, B2, B3, B4. ring.
      - transitivity (t' * (x * u' + x * v') - t * (x * u + x * v)); [ring|]. rewrite B1, B2, B3, B4. ring. }
    rewrite (ksum_ext m _ _ T). rewrite (ksum_single m s0 _ Hs0).
    - unfold delta at 1. rewrite Nat.eqb_refl. generalize (real (delta i i0 - delta j i0) *c (SpecShells.amplitude f i j s0 *c G i j s0 a b)). intros (u, v). apply injective_projections; cbn; ring.
    - intros s _ NE. unfold delta at 1. rewrite (proj2 (Nat.eqb_neq s s0) NE). generalize (real (delta i i0 - delta j i0) *c (SpecShells.amplitude f i j s *c G i j s a b)). intros (u, v). apply injective_projections; cbn; ring.
  Qed.
  Hypothesis re : real_hops f.
  Lemma number_flows a b : (a < D)%nat -> (b < D)%nat ->
    (0, INR (dg p0 b) - INR (dg p0 a)) *c F a b = ksum ns (fun j => real (if (j =? i0)%nat then 0 else strength f i0 j s0) *c G i0 j s0 a b).
  Proof using us Hi0 Hs0 re.
    intros Ha Hb. rewrite (number_rate a b Ha Hb). rewrite (triangle ns i0 (fun i j => SpecShells.amplitude f i j s0 *c G i j s0 a b) Hi0). apply ksum_ext. intros j Hj. unfold strength.
    destruct (Nat.eqb_spec j i0) as [->|NE]; [rewrite Nat.ltb_irrefl; generalize (G i0 i0 s0 a b); intros (u, v); apply injective_projections; cbn; ring|].
    destruct (Nat.ltb_spec j i0) as [L|L].
    - rewrite (proj2 (Nat.ltb_ge i0 j)) by lia. rewrite Nat.max_l, Nat.min_r by lia. pose proof (re i0 j s0 ltac:(lia) Hs0) as Z. destruct (SpecShells.amplitude f i0 j s0) as (t, t'). cbn [snd fst] in *. subst t'. change (real t) with ((t, 0) : CR). ring.
    - rewrite (proj2 (Nat.ltb_lt i0 j)) by lia. rewrite Nat.max_r, Nat.min_l by lia. pose proof (re j i0 s0 ltac:(lia) Hs0) as Z. destruct (SpecShells.amplitude f j i0 s0) as (t, t'). cbn [snd fst] in *. subst t'. change (real t) with ((t, 0) : CR). ring.
  Qed.

  (** ** In a sector *)
  Variables (P : mat CR) (idx : list nat) (H V : mat CR) (E : list R).
  Notation N := (length idx).
  Notation at_ p := (nth p idx 0%nat).
  Hypothesis sec : rows_are (nstates (f_sys f)) P idx.
  Hypothesis once : NoDup idx.
  Hypothesis inside : forall a, In a idx -> (a < nstates (f_sys f))%nat.
  Hypothesis EH : createH f (Some P) = Ok H.
  Hypothesis basis : eigenbasis H V E.
  Lemma at_in a : (a < N)%nat -> (at_ a < D)%nat. Proof using inside. intros Ha. rewrite <- (states_D f). apply inside, nth_In, Ha. Qed.
  Lemma move_sec u s v A B : (u < ns)%nat -> (v < ns)%nat -> (s < m)%nat -> two_site_op (f_sys f) u s v s cdag_op c_op Fermion = Ok A -> sandwich P A = Ok B ->
    nrow B = N /\ ncol B = N /\ forall a b, (a < N)%nat -> (b < N)%nat -> ent B a b = one (orb s u) (orb s v) (at_ a) (at_ b).
  Proof using sec inside.
    intros Hu Hv Hs EA EB. destruct (two_ok (K:=CR) (f_sys f) u s v s cdag_op c_op Fermion eq_refl) as (A' & EA' & SA & FA); auto using sq_cdag, sq_c; try discriminate. rewrite EA in EA'. injection EA' as <-.
    change (nlog (f_sys f)) with nl in *. pose proof sec as (R1 & R2 & R3). rewrite states_D in R2. destruct (sandwich_ok D P A R2 SA) as (B' & EB' & (S1 & S2) & W). rewrite EB in EB'. injection EB' as <-.
    split; [congruence|]. split; [congruence|]. intros a b Ha Hb. rewrite W. rewrite (sand_rows D P idx (ent A) a b); [| rewrite <- (states_D f); exact sec | intros k Hk; rewrite <- (states_D f); apply inside, Hk | exact Ha | exact Hb].
    rewrite (FA _ _ (at_in a Ha) (at_in b Hb)). reflexivity.
  Qed.
  Lemma number_sec O Y : single_site_op (f_sys f) i0 s0 n_op Boson = Ok O -> sandwich P O = Ok Y ->
    nrow Y = N /\ ncol Y = N /\ forall a b, (a < N)%nat -> (b < N)%nat -> ent Y a b = if (a =? b)%nat then real (INR (dg p0 (at_ a))) else c0.
  Proof using sec inside once Hi0 Hs0.
    intros EO EY. destruct (single_ok (K:=CR) (f_sys f) i0 s0 n_op Boson) as (A & EA & SA & FA); auto using sq_n; try discriminate; try reflexivity.
    rewrite EO in EA. injection EA as <-. change (nlog (f_sys f)) with nl in *. pose proof sec as (R1 & R2 & R3). rewrite states_D in R2. destruct (sandwich_ok D P O R2 SA) as (B' & EB' & (S1 & S2) & W). rewrite EY in EB'. injection EB' as <-.
    split; [congruence|]. split; [congruence|]. intros a b Ha Hb. rewrite W. rewrite (sand_rows D P idx (ent O) a b); [| rewrite <- (states_D f); exact sec | intros k Hk; rewrite <- (states_D f); apply inside, Hk | exact Ha | exact Hb].
    rewrite (FA _ _ (at_in a Ha) (at_in b Hb)). change (Nn (K:=CR) nl p0 (at_ a) (at_ b) = (if (a =? b)%nat then real (INR (dg p0 (at_ a))) else c0)).
    pose proof (orb_in s0 i0 Hi0 Hs0) as Hp. rewrite (n_entry (K:=CR) nl p0 Hp _ _ (at_in a Ha) (at_in b Hb)). cbn [n_spec ent]. destruct (Nat.eqb_spec a b) as [<-|NE].
    - rewrite Nat.eqb_refl. cbn [andb]. rewrite <- (occ_digit nl (at_ a) p0 Hp). destruct (occ nl (at_ a) p0); reflexivity.
    - rewrite (proj2 (Nat.eqb_neq _ _)); [reflexivity|]. intros Q. apply NE. apply (proj1 (NoDup_nth idx 0%nat) once); assumption.
  Qed.
  Theorem continuity O Y (A B A' B' : nat -> mat CR) st k :
    single_site_op (f_sys f) i0 s0 n_op Boson = Ok O -> sandwich P O = Ok Y ->
    (forall j, (j < ns)%nat -> j <> i0 -> two_site_op (f_sys f) i0 s0 j s0 cdag_op c_op Fermion = Ok (A j) /\ sandwich P (A j) = Ok (B j) /\
      two_site_op (f_sys f) j s0 i0 s0 cdag_op c_op Fermion = Ok (A' j) /\ sandwich P (A' j) = Ok (B' j)) ->
    (k < ncol (as_columns st))%nat ->
    exists z z', (forall t, derivable_pt_lim z t (z' t)) /\
      forall times Ms v w, quench st V E times = Ok Ms -> exp_vals (Columns (nth k Ms (mzero 0 0))) Y = Ok v ->
        (forall j, (j < ns)%nat -> j <> i0 -> exp_vals (Columns (nth k Ms (mzero 0 0))) (flow_op (B j) (B' j)) = Ok (w j)) ->
        forall a, (a < length times)%nat -> nth a v 0 = z (nth a times 0) /\
          total (fun j => if (j =? i0)%nat then 0 else strength f i0 j s0 * nth a (w j) 0) (seq 0 ns) = z' (nth a times 0).
  Proof using All.
    intros EO EY EB Hk. destruct (number_sec O Y EO EY) as (Y1 & Y2 & YE). destruct (H_sec f us P idx H sec inside EH) as (H1 & H2 & HE). assert (VN : nrow V = N) by (assert (HN : nrow H = nrow V) by apply basis; congruence).
    set (g := fun j a b => G i0 j s0 (at_ a) (at_ b)).
    assert (RE : forall a b, (a < N)%nat -> (b < N)%nat -> ent (rate_op H Y) a b = ksum ns (fun j => real (if (j =? i0)%nat then 0 else strength f i0 j s0) *c g j a b)).
    { intros a b Ha Hb. rewrite (diagonal_rate N H Y (fun a => INR (dg p0 (at_ a))) a b H1 YE Ha Hb), HE by assumption. apply number_flows; apply at_in; assumption. }
    exists (fun t => expect N Y (evolve V E (col (as_columns st) k) t)), (fun t => expect N (rate_op H Y) (evolve V E (col (as_columns st) k) t)). split.
    - intros t. rewrite <- VN. apply (motion H V Y E _ basis).
    - intros times Ms v w Q XV XW a Ha. rewrite <- VN at 1. split; [apply (path_entries V E st times Ms k Y v Q Hk); try assumption; congruence|].
      rewrite (expect_comb N ns (rate_op H Y) _ g _ RE). apply total_ext. intros j Hj. apply in_seq in Hj. destruct (Nat.eqb_spec j i0) as [->|NE]; [ring|]. f_equal.
      destruct (EB j ltac:(lia) NE) as (E1 & E2 & E3 & E4). destruct (move_sec i0 s0 j (A j) (B j) Hi0 ltac:(lia) Hs0 E1 E2) as (B1 & B2 & BE). destruct (move_sec j s0 i0 (A' j) (B' j) ltac:(lia) Hi0 Hs0 E3 E4) as (B1' & B2' & BE').
      rewrite (path_entries V E st times Ms k (flow_op (B j) (B' j)) (w j) Q Hk) by (assumption || (cbn; congruence) || (apply XW; [lia | exact NE])). rewrite VN. apply (expect_same idx). intros p q Hp Hq. cbn [flow_op ent]. rewrite BE, BE' by assumption. reflexivity.
  Qed.
End Flow.
Theorem flow_runs (f : fermions CR) i j s P : (i < fg_nsites (f_geom f))%nat -> (j < fg_nsites (f_geom f))%nat -> (s < f_nspecies f)%nat -> ncol P = nstates (f_sys f) ->
  exists O Y A B, single_site_op (f_sys f) i s n_op Boson = Ok O /\ sandwich P O = Ok Y /\ two_site_op (f_sys f) i s j s cdag_op c_op Fermion = Ok A /\ sandwich P A = Ok B.
Proof.
  intros Hi Hj Hs HP. rewrite (states_D f) in HP.
  destruct (single_ok (K:=CR) (f_sys f) i s n_op Boson) as (O & EO & SO & _); auto using sq_n; try discriminate; try reflexivity.
  destruct (two_ok (K:=CR) (f_sys f) i s j s cdag_op c_op Fermion eq_refl) as (A & EA & SA & _); auto using sq_cdag, sq_c; try discriminate.
  destruct (sandwich_ok _ P O HP SO) as (Y & EY & _). destruct (sandwich_ok _ P A HP SA) as (B & EB & _). exists O, Y, A, B. auto.
Qed.
