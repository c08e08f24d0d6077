(** Statements of C156 and C157 for the public functions. *)
From Coq Require Import List Arith Lia Reals Lra ZArith QArith Qabs Qreals Bool.
From Verif Require Import Scalars Res Matrix Sums SqMat SpecMat SpecFock OpsProofs FockProofs FermiOps ModelBase ModelFermions ModelSpins SpecSpins Digits SpinOps SpinAlg SpinSwap SpinJordan HamProofs FermiApi SpecPerm
  ModelGeometry GeoArith ClusterRep ModelPhase ModelSymmetry SymBase ModelThermal SpecThermal ThermalBase ThermalBasis ThermalCond Thermo HalfHam SpecSigns Sectors HopSigns SpecShells Shells ModelCurrent SpecCurrent SumRule Current.
From Verif Require SymAverage.
Import ListNotations.
Local Open Scope R_scope.

Lemma ksum_totals n (F : nat -> R) : ksum n (fun i => real (F i)) = real (total F (seq 0 n)).
Proof. induction n as [|n IH]; [reflexivity|]. rewrite seq_S, total_app. cbn [ksum]. rewrite IH. unfold total. cbn. apply injective_projections; cbn; ring. Qed.

Section Api.
  Variables (f : fermions CR).
  Notation ns := (fg_nsites (f_geom f)).
  Notation m := (f_nspecies f).
  Notation nl := (ns * m)%nat.
  Notation D := (2 ^ (ns * m))%nat.
  Notation dg p a := (digit 2 nl p a).
  Notation orb s i := (ns * s + i)%nat.
  Lemma states_D : nstates (f_sys f) = D. Proof using. apply nstates2. reflexivity. Qed.
  Lemma position_entry w X a b : position_op f w X -> (a < D)%nat -> (b < D)%nat -> ent X a b = if (a =? b)%nat then real (place f w a) else c0.
  Proof using.
    intros (_ & O & EO & W) Ha Hb. rewrite (W a b) by (rewrite states_D; assumption).
    assert (N : forall i s, (i < ns)%nat -> (s < m)%nat -> ent (O i s) a b = if (a =? b)%nat then real (INR (dg (orb s i) a)) else c0).
    { intros i s Hi Hs. destruct (single_ok (K:=CR) (f_sys f) i s n_op Boson) as (A & EA & _ & FA); auto using sq_n; try discriminate; try reflexivity.
      rewrite (EO i s Hi Hs) in EA. injection EA as <-. rewrite (FA a b Ha Hb). change (Nn (K:=CR) nl (orb s i) a b = (if (a =? b)%nat then real (INR (dg (orb s i) a)) else c0)).
      assert (Hp : (orb s i < nl)%nat) by nia. rewrite (n_entry (K:=CR) nl (orb s i) Hp a b Ha Hb). cbn [n_spec ent]. destruct (Nat.eqb_spec a b) as [<-|]; [|reflexivity]. cbn [andb].
      rewrite <- (occ_digit nl a (orb s i) Hp). destruct (occ nl a (orb s i)); reflexivity. }
    destruct (Nat.eqb_spec a b) as [E|NE].
    - unfold place. rewrite <- ksum_totals. rewrite ksum_swap. apply ksum_ext. intros s Hs. rewrite <- ksum_totals. apply ksum_ext. intros i Hi. rewrite (N i s Hi Hs). apply injective_projections; cbn; ring.
    - apply ksum_zero. intros i Hi. apply ksum_zero. intros s Hs. rewrite (N i s Hi Hs). apply injective_projections; cbn; ring.
  Qed.
  Variables (x y : nat -> Q) (tx ty : CR).
  Hypothesis op : open_bonds (f_geom f) x y.
  Hypothesis hp : hops_along f tx ty.
  Hypothesis us : us_ok f.
  Lemma full_ent H a b : createH f None = Ok H -> (a < D)%nat -> (b < D)%nat -> nrow H = D /\ ncol H = D /\ ent H a b = HS2 f (amplitude f) a b.
  Proof using us.
    intros EH Ha Hb. destruct (createH_ok f None eq_refl us) as (H' & E' & (S1 & S2) & W). rewrite EH in E'. injection E' as <-. cbn [the_proj nrow meye] in *.
    split; [exact S1|]. split; [exact S2|]. rewrite W. transitivity (HS f a b); [|exact (HS_HS2 f a b)].
    assert (RA : rows_are D (meye (K:=CR) D) (seq 0 D)).
    { split; [symmetry; apply seq_length|]. split; [reflexivity|]. intros i j Hi Hj. rewrite seq_length in Hi. rewrite seq_nth by exact Hi. cbn. destruct (i =? j)%nat; reflexivity. }
    pose proof (sand_rows D (meye D) (seq 0 D) (HS f) a b RA) as S. rewrite seq_length, !seq_nth in S by assumption. apply S; [intros k Hk; apply in_seq in Hk; lia | exact Ha | exact Hb].
  Qed.
  Theorem commutator d1 d2 : exists r, current_op (Some tx) (Some ty) f (real d1) (real d2) = Ok r /\
    forall H X, createH f None = Ok H -> position_op f (fun i => d1 * Q2R (x i) + d2 * Q2R (y i)) X -> meq (as_matrix (nstates (f_sys f)) r) (mscale ki (msub (mmul H X) (mmul X H))).
  Proof using op hp us.
    destruct (current_val f tx ty d1 d2) as (r & ER & SR & _). exists r. split; [exact ER|]. intros H X EH PX. rewrite states_D. destruct SR as (S1 & S2).
    assert (D0 : (0 < D)%nat) by (apply Nat.neq_0_lt_0, Nat.pow_nonzero; discriminate). destruct (full_ent H 0 0 EH D0 D0) as (N1 & N2 & _). destruct PX as ((X1 & X2) & PX') eqn:EX. clear EX. rewrite states_D in X1, X2.
    split; [cbn; congruence|]. split; [cbn; congruence|]. intros a b Ha Hb. rewrite S1 in Ha. rewrite S2 in Hb.
    assert (PP : position_op f (fun i => d1 * Q2R (x i) + d2 * Q2R (y i)) X) by (split; [rewrite states_D; split; assumption | exact PX']).
    change (entry f r a b = ent (mscale ki (msub (mmul H X) (mmul X H))) a b). rewrite (current_ham f x y tx ty op hp d1 d2 us r a b ER Ha Hb). cbn [ent mscale msub mmul]. rewrite N2, X2.
    rewrite (ksum_single D b (fun c => kmul (ent H a c) (ent X c b)) Hb), (ksum_single D a (fun c => kmul (ent X a c) (ent H c b)) Ha).
    - destruct (full_ent H a b EH Ha Hb) as (_ & _ & ->). rewrite (position_entry _ X b b PP Hb Hb), (position_entry _ X a a PP Ha Ha), !Nat.eqb_refl. change (fun i => d1 * Q2R (x i) + d2 * Q2R (y i)) with (wt x y d1 d2). apply injective_projections; cbn; ring.
    - intros c Hc NE. rewrite (position_entry _ X a c PP Ha Hc), (proj2 (Nat.eqb_neq a c)) by auto. apply injective_projections; cbn; ring.
    - intros c Hc NE. rewrite (position_entry _ X c b PP Hc Hb), (proj2 (Nat.eqb_neq c b)) by auto. apply injective_projections; cbn; ring.
  Qed.

  (** ** In a sector *)
  Variables (d : axis) (P : mat CR) (idx : list nat) (r : op_or_zero CR) (J H V M K : mat CR) (E : list R).
  Notation N := (length idx).
  Notation at_ p := (nth p idx 0%nat).
  Hypothesis sec : rows_are (nstates (f_sys f)) P idx.
  Hypothesis inside : forall k, In k idx -> (k < nstates (f_sys f))%nat.
  Hypothesis some : idx <> [].
  Hypothesis ER : current_op (Some tx) (Some ty) f (first_part d) (second_part d) = Ok r.
  Hypothesis EJ : sandwich P (as_matrix (nstates (f_sys f)) r) = Ok J.
  Hypothesis EH : createH f (Some P) = Ok H.
  Hypothesis EK : kinetic_op f P d = Ok K.
  Hypothesis basis : eigenbasis H V E.
  Hypothesis EM : matrix_elems V J = Ok M.
  Notation px a := (place f (along d x y) (at_ a)).
  Lemma sec_D : rows_are D P idx /\ forall k, In k idx -> (k < D)%nat. Proof using sec inside. rewrite <- states_D. split; assumption. Qed.
  Lemma H_sec : nrow H = N /\ ncol H = N /\ forall a b, (a < N)%nat -> (b < N)%nat -> ent H a b = HS2 f (amplitude f) (at_ a) (at_ b).
  Proof using sec inside us EH.
    destruct sec_D as ((R1 & R2 & R3) & I). destruct (createH_ok f (Some P) R2 us) as (H' & E' & (S1 & S2) & W). rewrite EH in E'. injection E' as <-. cbn [the_proj] in *.
    split; [congruence|]. split; [congruence|]. intros a b Ha Hb. rewrite W. transitivity (HS f (at_ a) (at_ b)); [|exact (HS_HS2 f (at_ a) (at_ b))].
    apply (sand_rows D P idx (HS f) a b); [split; [exact R1|]; split; [exact R2 | exact R3] | exact I | exact Ha | exact Hb].
  Qed.
  Lemma rows_V : nrow V = N.
  Proof using sec inside us EH basis. destruct H_sec as (H1 & _). destruct basis as ((_ & E1 & _) & _). congruence. Qed.
  Definition part1 : R := match d with AxisX => 1 | AxisY => 0 end.
  Definition part2 : R := match d with AxisX => 0 | AxisY => 1 end.
  Lemma wt_axis a : place f (wt x y part1 part2) a = place f (along d x y) a.
  Proof using. clear ER EK. unfold place. apply total_ext. intros s _. apply total_ext. intros i _. unfold wt, part1, part2, along. destruct d; ring. Qed.
  Lemma J_sec : nrow J = N /\ ncol J = N /\ forall a b, (a < N)%nat -> (b < N)%nat -> ent J a b = (0, px b - px a) *c ent H a b.
  Proof using sec inside op hp us EH ER EJ.
    destruct sec_D as (RA & I). destruct RA as (R1 & R2 & R3) eqn:ERA. clear ERA.
    assert (ER' : current_op (Some tx) (Some ty) f (real part1) (real part2) = Ok r) by (rewrite <- ER; clear; unfold part1, part2, first_part, second_part; destruct d; reflexivity).
    destruct (current_val f tx ty part1 part2) as (r' & E' & SR & _). rewrite ER' in E'. injection E' as <-. rewrite states_D in EJ.
    destruct (sandwich_ok D P (as_matrix D r) R2 SR) as (t & Et & (S1 & S2) & Vt). rewrite EJ in Et. injection Et as <-. split; [congruence|]. split; [congruence|]. intros a b Ha Hb. rewrite Vt.
    rewrite (sand_rows D P idx (ent (as_matrix D r)) a b) by ((split; [exact R1 | split; [exact R2 | exact R3]]) || assumption).
    change (entry f r (at_ a) (at_ b) = (0, px b - px a) *c ent H a b). rewrite (current_ham f x y tx ty op hp part1 part2 us r (at_ a) (at_ b) ER') by (apply I, nth_In; assumption).
    destruct H_sec as (_ & _ & ->); [|exact Ha | exact Hb]. rewrite !wt_axis. reflexivity.
  Qed.
  Lemma K_sec : nrow K = N /\ ncol K = N /\ forall a b, (a < N)%nat -> (b < N)%nat -> ent K a b = real ((px a - px b) ^ 2) *c ent H a b.
  Proof using sec inside op hp us EH EK some.
    destruct sec_D as (RA & I). assert (L : (0 < N)%nat) by (destruct idx; [congruence | cbn; lia]).
    destruct (kin_ham f x y tx ty op hp us P idx d K 0%nat 0%nat RA I EK L L) as (K1 & K2 & _). split; [exact K1|]. split; [exact K2|]. intros a b Ha Hb.
    destruct (kin_ham f x y tx ty op hp us P idx d K a b RA I EK Ha Hb) as (_ & _ & ->). destruct H_sec as (_ & _ & ->); [reflexivity | exact Ha | exact Hb].
  Qed.
  Lemma some_N : N <> 0%nat. Proof using some. clear sec inside. destruct idx; [congruence | discriminate]. Qed.
  Theorem rule_hot T w k : (0 < ns)%nat -> T <> 0 -> integrate_conductivity ns M E T = Ok w -> exp_vals_thermal V K E T = Ok k -> w = - (PI * k / INR ns).
  Proof using sec inside op hp us some ER EJ EH EK basis EM.
    intros Hs HT EW Ek. destruct J_sec as (J1 & J2 & J3). destruct K_sec as (K1 & K2 & K3).
    exact (weight_hot H V E N (fun a => px a) basis rows_V J K J3 K3 some_N ltac:(split; assumption) ltac:(split; assumption) M ns T w k Hs HT EM EW Ek).
  Qed.
  Theorem rule_cold w k : (0 < ns)%nat -> unique_ground E -> sorted_list E -> apart gap13 E -> integrate_conductivity ns M E 0 = Ok w -> exp_vals_thermal V K E 0 = Ok k -> w = - (PI * k / INR ns).
  Proof using sec inside op hp us some ER EJ EH EK basis EM.
    intros Hs UG SO AP EW Ek. destruct J_sec as (J1 & J2 & J3). destruct K_sec as (K1 & K2 & K3).
    exact (weight_cold H V E N (fun a => px a) basis rows_V J K J3 K3 some_N ltac:(split; assumption) ltac:(split; assumption) M ns w k Hs UG SO AP EM EW Ek).
  Qed.
  Lemma M_size : square_size M (length E).
  Proof using sec inside op hp us some ER EJ EH basis EM. destruct J_sec as (J1 & J2 & J3). apply (J_matrix H V E N basis rows_V J ltac:(split; assumption) M EM). Qed.
End Api.

Lemma rule_api (f : fermions CR) x y tx ty d P idx r J H V M K E T w k : (0 < fg_nsites (f_geom f))%nat -> open_bonds (f_geom f) x y -> hops_along f tx ty -> us_ok f ->
  rows_are (nstates (f_sys f)) P idx -> (forall a, In a idx -> (a < nstates (f_sys f))%nat) -> idx <> [] ->
  current_op (Some tx) (Some ty) f (first_part d) (second_part d) = Ok r -> sandwich P (as_matrix (nstates (f_sys f)) r) = Ok J -> createH f (Some P) = Ok H -> kinetic_op f P d = Ok K ->
  eigenbasis H V E -> matrix_elems V J = Ok M -> T <> 0 \/ (T = 0 /\ unique_ground E /\ sorted_list E /\ apart gap13 E) ->
  integrate_conductivity (fg_nsites (f_geom f)) M E T = Ok w -> exp_vals_thermal V K E T = Ok k -> w = - (PI * k / INR (fg_nsites (f_geom f))).
Proof.
  intros Hs OP HP US SE IN SO ER EJ EH EK B EM [HT|(-> & UG & ST & AP)] EW Ek.
  - exact (rule_hot f x y tx ty OP HP US d P idx r J H V M K E SE IN SO ER EJ EH EK B EM T w k Hs HT EW Ek).
  - exact (rule_cold f x y tx ty OP HP US d P idx r J H V M K E SE IN SO ER EJ EH EK B EM w k Hs UG ST AP EW Ek).
Qed.
(** Every function returns. *)
Lemma rule_runs (f : fermions CR) x y tx ty d P idx H V E T : (0 < fg_nsites (f_geom f))%nat -> open_bonds (f_geom f) x y -> hops_along f tx ty -> us_ok f ->
  rows_are (nstates (f_sys f)) P idx -> (forall a, In a idx -> (a < nstates (f_sys f))%nat) -> idx <> [] -> createH f (Some P) = Ok H -> eigenbasis H V E ->
  T <> 0 \/ (T = 0 /\ sorted_list E /\ apart gap13 E) ->
  exists r J K M w k, current_op (Some tx) (Some ty) f (first_part d) (second_part d) = Ok r /\ sandwich P (as_matrix (nstates (f_sys f)) r) = Ok J /\ kinetic_op f P d = Ok K /\
    matrix_elems V J = Ok M /\ integrate_conductivity (fg_nsites (f_geom f)) M E T = Ok w /\ exp_vals_thermal V K E T = Ok k.
Proof.
  intros Hs OP HP US SE IN SO EH B TT.
  destruct (current_val f tx ty (part1 d) (part2 d)) as (r & E' & SR & _). assert (ER : current_op (Some tx) (Some ty) f (first_part d) (second_part d) = Ok r) by (rewrite <- E'; unfold part1, part2, first_part, second_part; destruct d; reflexivity).
  pose proof SE as (R1 & R2 & R3). rewrite (states_D f) in R2. destruct (sandwich_ok _ P (as_matrix _ r) R2 SR) as (J & EJ & _). rewrite <- (states_D f) in EJ.
  destruct (kin_ok f P d R2) as (K & EK & _). destruct (J_sec f x y tx ty OP HP US d P idx r J H SE IN ER EJ EH) as (J1 & J2 & J3). destruct (K_sec f x y tx ty OP HP US d P idx H K SE IN SO EH EK) as (K1 & K2 & K3).
  pose proof (rows_V f US P idx H V E SE IN EH B) as RV.
  assert (EM : exists M, matrix_elems V J = Ok M) by (unfold matrix_elems, cmulv; rewrite J2, RV, Nat.eqb_refl; cbn [bind madj mmul nrow ncol]; rewrite J1, RV, Nat.eqb_refl; eexists; reflexivity).
  destruct EM as (M & EM). pose proof (M_size f x y tx ty OP HP US d P idx r J H V M E SE IN SO ER EJ EH B EM) as SM.
  assert (NE : E <> []) by (apply (E_some H V E B); rewrite RV; apply some_N; exact SO).
  assert (F : fits V K E) by (split; [congruence|]; split; [congruence|]; split; [apply B | exact NE]).
  assert (W : exists w, integrate_conductivity (fg_nsites (f_geom f)) M E T = Ok w).
  { destruct TT as [HT|(-> & _)]; [eexists; apply integrate_finite; assumption|]. unfold integrate_conductivity. rewrite ThermalResponse.square_of_ok by assumption. cbn [negb]. destruct E as [|e0 t]; [congruence|]. rewrite is_zero_0. eexists. reflexivity. }
  destruct W as (w & EW). assert (Kk : exists k, exp_vals_thermal V K E T = Ok k) by (destruct TT as [HT|(-> & S1 & S2)]; [eexists; apply (thermal_finite V K E T F HT) | eexists; apply (thermal_zero V K E F S1 S2)]).
  destruct Kk as (k & Ek). exists r, J, K, M, w, k. auto 10.
Qed.
Lemma kinetic_negative (f : fermions CR) x y tx ty d P idx H V K E T k : (0 < fg_nsites (f_geom f))%nat -> open_bonds (f_geom f) x y -> hops_along f tx ty -> us_ok f ->
  rows_are (nstates (f_sys f)) P idx -> (forall a, In a idx -> (a < nstates (f_sys f))%nat) -> idx <> [] -> createH f (Some P) = Ok H -> kinetic_op f P d = Ok K ->
  eigenbasis H V E -> sorted_list E -> 0 < T \/ (T = 0 /\ unique_ground E /\ apart gap13 E) -> exp_vals_thermal V K E T = Ok k -> k <= 0.
Proof.
  intros Hs OP HP US SE IN SO EH EK B ST TT Ek.
  destruct (rule_runs f x y tx ty d P idx H V E T Hs OP HP US SE IN SO EH B) as (r & J & K' & M & w & k' & ER & EJ & EK' & EM & EW & Ek'); [destruct TT as [HT|(-> & _ & AP)]; [left; lra | right; auto]|].
  rewrite EK in EK'. injection EK' as <-. rewrite Ek in Ek'. injection Ek' as <-.
  assert (R : w = - (PI * k / INR (fg_nsites (f_geom f)))) by (apply (rule_api f x y tx ty d P idx r J H V M K E T w k); try assumption; destruct TT as [HT|(-> & U & AP)]; [left; lra | right; auto]).
  pose proof (M_size f x y tx ty OP HP US d P idx r J H V M E SE IN SO ER EJ EH B EM) as SM.
  assert (NE : E <> []) by (apply (E_some H V E B); rewrite (rows_V f US P idx H V E SE IN EH B); apply some_N; exact SO).
  destruct (integrate_ge (fg_nsites (f_geom f)) M E SM NE Hs T) as (w' & EW' & W0); [destruct TT as [HT|(-> & _)]; lra | intros a Ha; apply ST; lia |]. rewrite EW in EW'. injection EW' as <-.
  pose proof PI_RGT_0 as PP. assert (N0 : 0 < INR (fg_nsites (f_geom f))) by (apply lt_0_INR; exact Hs).
  destruct (Rle_or_lt k 0) as [|KP]; [assumption|]. assert (0 < PI * k / INR (fg_nsites (f_geom f))) by (apply Rdiv_lt_0_compat; [apply Rmult_lt_0_compat; assumption | exact N0]). lra.
Qed.
Lemma no_attribute (f : fermions CR) d1 d2 : current_op tx_of_init ty_of_init f d1 d2 = Raise AttributeError.
Proof. reflexivity. Qed.
Lemma current_hermitian (f : fermions CR) x y tx ty d1 d2 : open_bonds (f_geom f) x y -> hops_along f tx ty -> us_ok f -> real_couplings f ->
  exists r, current_op (Some tx) (Some ty) f (real d1) (real d2) = Ok r /\ meq (madj (as_matrix (nstates (f_sys f)) r)) (as_matrix (nstates (f_sys f)) r).
Proof.
  intros OP HP US RC. destruct (current_val f tx ty d1 d2) as (r & ER & (S1 & S2) & _). exists r. split; [exact ER|]. rewrite (states_D f). split; [cbn; congruence|]. split; [cbn; congruence|].
  intros a b Ha Hb. cbn [madj nrow ncol] in Ha, Hb. rewrite S2 in Ha. rewrite S1 in Hb. destruct (hermitian_api f None) as (H & EH & (N1 & N2) & HM); [apply states_D | exact US | exact RC|].
  destruct HM as (_ & _ & HM). cbn [nrow meye] in N1, N2. rewrite (states_D f) in N1, N2.
  cbn [madj ent]. change (kconj (entry f r b a) = entry f r a b). rewrite (current_ham f x y tx ty OP HP d1 d2 US r a b ER Ha Hb), (current_ham f x y tx ty OP HP d1 d2 US r b a ER Hb Ha).
  destruct (full_ent f US H a b EH Ha Hb) as (_ & _ & <-). destruct (full_ent f US H b a EH Hb Ha) as (_ & _ & <-). rewrite <- (HM a b) by (cbn [madj nrow ncol]; congruence). cbn [madj ent]. apply injective_projections; cbn; ring.
Qed.
