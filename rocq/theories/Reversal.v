(** Real Hamiltonians do not distinguish the two directions of time. *)
From Coq Require Import List Arith Lia Reals Lra ZArith QArith Qabs Qreals Bool.
From Verif Require Import Scalars Res Matrix Sums SqMat SpecMat SpecFock OpsProofs FockProofs FermiOps ModelBase ModelFermions ModelSpins SpecSpins Digits SpinOps SpinAlg SpinSwap SpinJordan HamProofs FermiApi SpecPerm
  ModelGeometry GeoArith ClusterRep ModelPhase HalfHam SpecSigns Sectors HopSigns SpecShells Shells ModelCurrent SpecCurrent SumRule Current CurrentApi SpecPrecess Precess SpecLongtime Longtime SpecEcho Echo SpecRates Rates Uncertain Equil
  SpecGauge GaugeRun SpecFlow Flow ModelSymmetry SymBase ModelThermal SpecThermal ThermalBase ThermalBasis Gauge SpecReversal.
From Verif Require SymAverage.
Import ListNotations.
Local Open Scope R_scope.

Lemma real_conj_ent n A : real_op n A -> forall p q, (p < n)%nat -> (q < n)%nat -> conj (ent A p q) = ent A p q.
Proof. intros X p q Hp Hq. specialize (X p q Hp Hq). destruct (ent A p q) as (u, v). cbn in X. subst v. apply injective_projections; cbn; ring. Qed.
Lemma expect_imaginary n O phi : imaginary_op n O -> expect n O (fun p => conj (phi p)) = - expect n O phi.
Proof.
  intros X. unfold expect. transitivity (fst (conj (kopp (inner n phi (apply n O phi))))); [|cbn; ring]. f_equal.
  transitivity (conj (inner n phi (apply n (Mat n n (fun a b => kopp (ent O a b))) phi))).
  - unfold inner, apply. rewrite ksum_conj. apply ksum_ext. intros p Hp. rewrite kconj_mul. f_equal. rewrite ksum_conj. apply ksum_ext. intros q Hq. rewrite kconj_mul. f_equal. cbn [ent]. specialize (X p q Hp Hq). destruct (ent O p q) as (u, v). cbn in X. subst u. apply injective_projections; cbn; ring.
  - f_equal. unfold inner, apply. transitivity (ksum n (fun p => kopp (conj (phi p) *c ksum n (fun q => ent O p q *c phi q)))).
    + apply ksum_ext. intros p Hp. transitivity (conj (phi p) *c kopp (ksum n (fun q => ent O p q *c phi q))); [|ring]. f_equal. cbn [ent].
      assert (SO : forall m (g : nat -> CR), ksum m (fun k => kopp (g k)) = kopp (ksum m g)) by (induction m as [|m IH]; intros g; cbn [ksum]; [apply injective_projections; cbn; ring|]; rewrite IH; ring).
      rewrite <- SO. apply ksum_ext. intros q Hq. ring.
    + assert (SO : forall m (g : nat -> CR), ksum m (fun k => kopp (g k)) = kopp (ksum m g)) by (induction m as [|m IH]; intros g; cbn [ksum]; [apply injective_projections; cbn; ring|]; rewrite IH; ring). apply SO.
Qed.
Lemma lsum_opp l : ModelThermal.lsum (map Ropp l) = - ModelThermal.lsum l.
Proof. unfold ModelThermal.lsum. induction l as [|x l IH]; cbn; [ring|]. rewrite IH. ring. Qed.
Lemma lmul_opp l w : lmul (map Ropp l) w = map Ropp (lmul l w).
Proof. unfold lmul. revert w. induction l as [|x l IH]; intros [|y w]; cbn; try reflexivity. f_equal; [ring | apply IH]. Qed.
Lemma exp_vals_opposite (A B O : mat CR) : nrow A = nrow O -> ncol O = nrow O -> nrow B = nrow A -> ncol B = ncol A -> (forall k, (k < ncol A)%nat -> expect (nrow O) O (col B k) = - expect (nrow O) O (col A k)) ->
  exists l, exp_vals (Columns A) O = Ok l /\ exp_vals (Columns B) O = Ok (map Ropp l).
Proof.
  intros H1 H2 H3 H4 X. eexists. split; [apply exp_vals_of; cbn; congruence|]. rewrite exp_vals_of by (cbn; congruence). f_equal. cbn [as_columns]. rewrite H4, map_map. apply map_ext_in. intros k Hk. apply in_seq in Hk. apply X. lia.
Qed.
Theorem thermal_imaginary H V E O T x : eigenbasis H V E -> real_op (nrow V) H -> nrow O = nrow V -> ncol O = nrow V -> imaginary_op (nrow V) O -> E <> [] -> T <> 0 \/ (sorted_list E /\ apart gap13 E) -> exp_vals_thermal V O E T = Ok x -> x = 0.
Proof.
  intros B RH O1 O2 IO NE AL EX. pose proof (SymAverage.eigenbasis_hermitian _ _ _ B) as HM. assert (CV : ncol V = length E) by apply B.
  assert (BC : eigenbasis H (Vc (nrow V) V E) E) by (apply conj_basis; [reflexivity | apply real_conj_ent; exact RH | exact B]).
  assert (TB : exp_vals_thermal V O E T = exp_vals_thermal (Vc (nrow V) V E) O E T).
  { apply (thermal_basis H V (Vc (nrow V) V E) O E E T HM B BC); [reflexivity | repeat split; assumption | exact NE |]. destruct AL as [A|(A & A')]; [left; exact A | right; auto]. }
  assert (OP : forall k, (k < length E)%nat -> expect (nrow O) O (col (Vc (nrow V) V E) k) = - expect (nrow O) O (col V k)).
  { intros k Hk. rewrite O1. rewrite <- (expect_imaginary (nrow V) O (col V k) IO). reflexivity. }
  assert (NX : exp_vals_thermal (Vc (nrow V) V E) O E T = Ok (- x)).
  { revert EX. unfold exp_vals_thermal. destruct (thermal_weights true E T) as [(w, zz)|]; [|discriminate]. cbn [bind]. destruct (is_zero T).
    - set (c := length (filter (fun x => negb (is_zero x)) w)). assert (FC : forall W : mat CR, ncol (first_cols c W) = Nat.min c (ncol W)) by reflexivity.
      destruct (exp_vals_opposite (first_cols c V) (first_cols c (Vc (nrow V) V E)) O) as (l & -> & ->); [cbn; congruence | congruence | reflexivity | cbn; congruence | intros k Hk; rewrite FC in Hk; apply OP; lia|].
      cbn [bind]. intros Q. injection Q as <-. rewrite lsum_opp. f_equal. unfold Rdiv. ring.
    - destruct (exp_vals_opposite V (Vc (nrow V) V E) O) as (l & -> & ->); [congruence | congruence | reflexivity | cbn; congruence | intros k Hk; apply OP; lia|].
      cbn [bind]. rewrite map_length. destruct (length l =? length w)%nat; [|discriminate]. intros Q. injection Q as <-. rewrite lmul_opp, lsum_opp. f_equal. unfold Rdiv. ring. }
  rewrite <- TB, EX in NX. injection NX as NX. lra.
Qed.
Lemma reversed H V E O st k t : eigenbasis H V E -> real_op (nrow V) H -> (forall i, (i < nrow V)%nat -> snd (ent (as_columns st) i k) = 0) ->
  (real_op (nrow V) O -> expect (nrow V) O (evolve V E (col (as_columns st) k) (- t)) = expect (nrow V) O (evolve V E (col (as_columns st) k) t)) /\
  (imaginary_op (nrow V) O -> expect (nrow V) O (evolve V E (col (as_columns st) k) (- t)) = - expect (nrow V) O (evolve V E (col (as_columns st) k) t)).
Proof.
  intros B RH RS. set (psi := col (as_columns st) k).
  assert (Q : expect (nrow V) O (evolve V E psi (- t)) = expect (nrow V) O (fun p => conj (evolve V E psi t p))).
  { apply expect_ext. intros p Hp. rewrite (evolve_conj (nrow V) H V E eq_refl (real_conj_ent _ _ RH) B psi t p Hp). f_equal. apply evolve_ext. intros q Hq. unfold psi, col. specialize (RS q Hq). destruct (ent (as_columns st) q k) as (u, v). cbn in RS. subst v. apply injective_projections; cbn; ring. }
  rewrite Q. split; intros RO; [apply (expect_conj (nrow V) O (real_conj_ent _ _ RO)) | apply (expect_imaginary _ _ _ RO)].
Qed.
Theorem reversal_api H V E O st k times Ms Ms' v v' : eigenbasis H V E -> real_op (nrow V) H -> (k < ncol (as_columns st))%nat -> (forall i, (i < nrow V)%nat -> snd (ent (as_columns st) i k) = 0) -> nrow O = nrow V -> ncol O = nrow V ->
  quench st V E times = Ok Ms -> quench st V E (map Ropp times) = Ok Ms' -> exp_vals (Columns (nth k Ms (mzero 0 0))) O = Ok v -> exp_vals (Columns (nth k Ms' (mzero 0 0))) O = Ok v' ->
  forall a, (a < length times)%nat -> (real_op (nrow V) O -> nth a v' 0 = nth a v 0) /\ (imaginary_op (nrow V) O -> nth a v' 0 = - nth a v 0).
Proof.
  intros B RH Hk RS O1 O2 Q Q' X X' a Ha. rewrite (path_entries V E st times Ms k O v Q Hk O1 O2 X a Ha). rewrite (path_entries V E st (map Ropp times) Ms' k O v' Q' Hk O1 O2 X' a) by (rewrite map_length; exact Ha).
  replace (nth a (map Ropp times) 0) with (- nth a times 0) by (rewrite <- (map_nth Ropp times 0 a); rewrite Ropp_0; reflexivity). apply (reversed H V E O st k _ B RH RS).
Qed.

Lemma basis_empty H V E : eigenbasis H V E -> E = [] -> nrow V = 0%nat.
Proof.
  intros ((L & _) & _ & C) Z. subst E. cbn in L. destruct (nrow V) as [|n] eqn:NV; [reflexivity|]. specialize (C (fun _ => c1) 0%nat ltac:(lia)). rewrite L in C. cbn in C. injection C as C. lra.
Qed.

(** Nothing flows between two sites in equilibrium. *)
Section Fermions.
  Variables (f : fermions CR) (P : mat CR) (idx : list nat) (H V : mat CR) (E : list R).
  Notation ns := (fg_nsites (f_geom f)).
  Notation m := (f_nspecies f).
  Notation nl := (ns * m)%nat.
  Notation D := (2 ^ (ns * m))%nat.
  Notation orb s i := (ns * s + i)%nat.
  Notation N := (length idx).
  Hypothesis us : us_ok f.
  Hypothesis sec : rows_are (nstates (f_sys f)) P idx.
  Hypothesis inside : forall a, In a idx -> (a < nstates (f_sys f))%nat.
  Hypothesis EH : createH f (Some P) = Ok H.
  Hypothesis basis : eigenbasis H V E.
  Lemma ham_real : nrow V = N /\ real_op N H.
  Proof using us sec inside EH basis.
    destruct (H_sec f us P idx H sec inside EH) as (H1 & H2 & HE). assert (VN : nrow V = N) by (assert (HN : nrow H = nrow V) by apply basis; congruence). split; [exact VN|]. intros a b Ha Hb.
    pose proof (SymAverage.eigenbasis_hermitian _ _ _ basis a b) as HM. rewrite VN in HM. specialize (HM Ha Hb). assert (SY : ent H a b = ent H b a) by (rewrite !HE by assumption; apply ham_sym; [exact us | apply (at_in f idx inside a Ha) | apply (at_in f idx inside b Hb)]).
    rewrite <- SY in HM. destruct (ent H a b) as (u, v). injection HM as HM. cbn. lra.
  Qed.
  Lemma flow_imaginary i j s A B A' B' : (i < ns)%nat -> (j < ns)%nat -> (s < m)%nat -> i <> j -> two_site_op (f_sys f) i s j s cdag_op c_op Fermion = Ok A -> sandwich P A = Ok B ->
    two_site_op (f_sys f) j s i s cdag_op c_op Fermion = Ok A' -> sandwich P A' = Ok B' -> nrow (flow_op B B') = N /\ ncol (flow_op B B') = N /\ imaginary_op N (flow_op B B').
  Proof using sec inside.
    intros Hi Hj Hs NE E1 E2 E3 E4. destruct (move_sec f P idx sec inside i s j A B Hi Hj Hs E1 E2) as (B1 & _ & BE). destruct (move_sec f P idx sec inside j s i A' B' Hj Hi Hs E3 E4) as (B1' & _ & BE').
    split; [exact B1|]. split; [exact B1|]. intros a b Ha Hb. cbn [flow_op ent]. rewrite BE, BE' by assumption.
    pose proof (at_in f idx inside a Ha) as La. pose proof (at_in f idx inside b Hb) as Lb.
    assert (KS : forall c, snd (ksign (K:=CR) c) = 0) by (intros c; pose proof (ksign_real c) as Q; destruct (ksign (K:=CR) c) as (u, v); injection Q as Q; cbn; lra).
    assert (RO : forall u v, (u < ns)%nat -> (v < ns)%nat -> u <> v -> snd (smul (N:=D) (Cd (K:=CR) nl (orb s u)) (Ca nl (orb s v)) (nth a idx 0%nat) (nth b idx 0%nat)) = 0).
    { intros u v Hu Hv N2. rewrite (one_way f (orb s u) (orb s v)) by (assumption || lia || nia). destruct (_ && _); [apply KS | reflexivity]. }
    pose proof (RO i j Hi Hj NE) as R1. pose proof (RO j i Hj Hi (fun q => NE (eq_sym q))) as R2. revert R1 R2. generalize (smul (N:=D) (Cd (K:=CR) nl (orb s i)) (Ca nl (orb s j)) (nth a idx 0%nat) (nth b idx 0%nat)), (smul (N:=D) (Cd (K:=CR) nl (orb s j)) (Ca nl (orb s i)) (nth a idx 0%nat) (nth b idx 0%nat)).
    clear. intros (u, u') (v, v') Z1 Z2. cbn in *. lra.
  Qed.
  Theorem no_flow i j s A B A' B' T x : (i < ns)%nat -> (j < ns)%nat -> (s < m)%nat -> i <> j -> two_site_op (f_sys f) i s j s cdag_op c_op Fermion = Ok A -> sandwich P A = Ok B ->
    two_site_op (f_sys f) j s i s cdag_op c_op Fermion = Ok A' -> sandwich P A' = Ok B' -> idx <> [] -> T <> 0 \/ (sorted_list E /\ apart gap13 E) -> exp_vals_thermal V (flow_op B B') E T = Ok x -> x = 0.
  Proof using us sec inside EH basis.
    intros Hi Hj Hs NE E1 E2 E3 E4 NZ AL EX. destruct ham_real as (VN & RH). destruct (flow_imaginary i j s A B A' B' Hi Hj Hs NE E1 E2 E3 E4) as (F1 & F2 & F3).
    apply (thermal_imaginary H V E (flow_op B B') T x basis); rewrite ?VN; try assumption.
    intros Z. apply NZ. apply length_zero_iff_nil. rewrite <- VN. apply (basis_empty H V E basis Z).
  Qed.
End Fermions.
