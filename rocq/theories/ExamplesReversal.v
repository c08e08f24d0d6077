(** Concrete cases that meet the hypotheses of C184. *)
From Coq Require Import List Arith Lia Reals Lra QArith Qabs Qreals ZArith Bool.
From Verif Require Import Scalars Res Matrix SpecMat SpecFock ModelBase ModelFermions HamProofs FermiOps FermiApi SpecShells ExamplesShells ModelGeometry ModelPhase ModelSymmetry ModelThermal SpecThermal ThermalFacts SymBase
  Precess SpecLongtime Longtime RefuteLongtime SpecRates SpecFlow PropertiesFlow SpecReversal Reversal PropertiesReversal.
From Verif Require CurrentApi PropertiesThermo ModelSpins ExamplesConvex ExamplesSigns ExamplesSectors ExamplesMagnet SpinOps ReversalSpins.
Import ListNotations.
Local Open Scope R_scope.

(** Two levels, started in the first state: the occupation is even and its rate of change odd
    in time, and the rate is not zero at all times. *)
Example ex_reversal : real_op 2 h2 /\ real_op 2 o2 /\ imaginary_op 2 (rate_op h2 o2) /\ (forall i, (i < 2)%nat -> snd (ent (as_columns s2) i 0) = 0) /\
  forall times, exists Ms Ms' v v', quench s2 v2 e2 times = Ok Ms /\ quench s2 v2 e2 (map Ropp times) = Ok Ms' /\
    exp_vals (Columns (nth 0 Ms (mzero 0 0))) (rate_op h2 o2) = Ok v /\ exp_vals (Columns (nth 0 Ms' (mzero 0 0))) (rate_op h2 o2) = Ok v' /\
    forall a, (a < length times)%nat -> nth a v' 0 = - nth a v 0.
Proof.
  assert (R1 : real_op 2 h2) by (intros i j Hi Hj; assert (i = 0 \/ i = 1)%nat as [-> | ->] by lia; assert (j = 0 \/ j = 1)%nat as [-> | ->] by lia; cbn; ring).
  assert (R2 : real_op 2 o2) by (intros i j Hi Hj; assert (i = 0 \/ i = 1)%nat as [-> | ->] by lia; assert (j = 0 \/ j = 1)%nat as [-> | ->] by lia; cbn; ring).
  assert (I2 : imaginary_op 2 (rate_op h2 o2)) by (intros i j Hi Hj; assert (i = 0 \/ i = 1)%nat as [-> | ->] by lia; assert (j = 0 \/ j = 1)%nat as [-> | ->] by lia; cbn; ring).
  assert (RS : forall i, (i < 2)%nat -> snd (ent (as_columns s2) i 0) = 0) by (intros i Hi; assert (i = 0 \/ i = 1)%nat as [-> | ->] by lia; reflexivity).
  split; [exact R1|]. split; [exact R2|]. split; [exact I2|]. split; [exact RS|]. intros times.
  destruct (quench_entries s2 v2 e2 times eq_refl eq_refl) as (Ms & Q & _). destruct (quench_entries s2 v2 e2 (map Ropp times) eq_refl eq_refl) as (Ms' & Q' & _).
  exists Ms, Ms'. eexists. eexists. split; [exact Q|]. split; [exact Q'|].
  assert (X := path_of v2 e2 s2 times Ms 0 (rate_op h2 o2) Q (le_n 1) eq_refl eq_refl). assert (X' := path_of v2 e2 s2 (map Ropp times) Ms' 0 (rate_op h2 o2) Q' (le_n 1) eq_refl eq_refl).
  split; [exact X|]. split; [exact X'|]. intros a Ha. apply (C184_reversal h2 v2 e2 (rate_op h2 o2) s2 0 times Ms Ms' _ _ basis2 R1 (le_n 1) RS eq_refl eq_refl Q Q' X X' a Ha). exact I2.
Qed.
Lemma rate2_is_odd : ent (rate_op h2 o2) 0 1 = (0, 1).
Proof. apply injective_projections; cbn; ring. Qed.
(** Three sites in a row, interaction [u], three fermions: no flow between the first two sites. *)
Example ex_row3_noflow : forall u, exists P idx H V E A B A' B' x, createH (row3 u) (Some P) = Ok H /\ eigenbasis H V E /\ rows_are 64 P idx /\ idx <> [] /\
  two_site_op (f_sys (row3 u)) 1 0 0 0 cdag_op c_op Fermion = Ok A /\ sandwich P A = Ok B /\ two_site_op (f_sys (row3 u)) 0 0 1 0 cdag_op c_op Fermion = Ok A' /\ sandwich P A' = Ok B' /\
  exp_vals_thermal V (flow_op B B') E 1 = Ok x /\ x = 0.
Proof.
  intros u. destruct (made_basis (row3 u) [2; 1]%nat ltac:(discriminate) eq_refl (row3_us u) (row3_real u)) as (P & idx & H & V & E & EP & SH & EH & B).
  destruct SH as (RA & ND & I). assert (RA' : rows_are (nstates (f_sys (row3 u))) P idx) by exact RA. assert (I' : forall a, In a idx -> (a < nstates (f_sys (row3 u)))%nat) by (intros a Ha; exact (proj1 (proj1 (I a) Ha))).
  assert (SO : idx <> []).
  { intros Z. subst idx. apply (proj2 (I 49%nat)). split; [apply Nat.ltb_lt; reflexivity|]. intros [|[|s]] Hs; try reflexivity. cbn in Hs. lia. }
  assert (CP : ncol P = nstates (f_sys (row3 u))) by apply RA'.
  destruct (C183_runs (row3 u) 1 0 0 P ltac:(cbn; lia) ltac:(cbn; lia) ltac:(cbn; lia) CP) as (_ & _ & A & B1 & _ & _ & EA & EB).
  destruct (C183_runs (row3 u) 0 1 0 P ltac:(cbn; lia) ltac:(cbn; lia) ltac:(cbn; lia) CP) as (_ & _ & A' & B' & _ & _ & EA' & EB').
  destruct (C184_fermions (row3 u) P idx H V E (row3_us u) RA' I' EH B) as (VN & _).
  destruct (flow_imaginary (row3 u) P idx RA' I' 1 0 0 A B1 A' B' ltac:(cbn; lia) ltac:(cbn; lia) ltac:(cbn; lia) ltac:(lia) EA EB EA' EB') as (F1 & F2 & _).
  assert (NZ : nrow V <> 0%nat) by (rewrite VN; destruct idx; [congruence | discriminate]). assert (T1 : 1 <> 0) by lra.
  destruct (PropertiesThermo.C140_temperature H V E B NZ (flow_op B1 B') ltac:(split; congruence)) as (F & WF & _).
  exists P, idx, H, V, E, A, B1, A', B', (F 1). do 8 (split; [assumption|]). split; [apply WF, T1|].
  apply (C184_flow (row3 u) P idx H V E (row3_us u) RA' I' EH B 1 0 0 A B1 A' B' 1 (F 1) ltac:(cbn; lia) ltac:(cbn; lia) ltac:(cbn; lia) ltac:(lia) EA EB EA' EB' SO (or_introl T1) (WF 1 T1)).
Qed.
(** Three spins in a row in a field 3 along z, with a moment along z but none along y. *)
Example ex_moment : exists H V E Y x, ModelSpins.sp_createH ExamplesConvex.root (ExamplesMagnet.lifted 3) None = Ok H /\ eigenbasis H V E /\ no_y_field (ExamplesMagnet.lifted 3) /\
  single_site_op (ModelSpins.sp_sys (ExamplesMagnet.lifted 3)) 0 0 (ModelSpins.sy_op ExamplesConvex.root 1) Boson = Ok Y /\ exp_vals_thermal V Y E 1 = Ok x /\ x = 0.
Proof.
  destruct (ExamplesMagnet.lifted_solved 3 None I) as (H & V & E & EH & B). destruct (SpinOps.single_elem (K:=CR) 2 ltac:(lia) 3 0 (ModelSpins.sy_op ExamplesConvex.root 1) ltac:(split; reflexivity) ltac:(lia) (or_introl eq_refl)) as (Y & EY & _).
  assert (NY : no_y_field (ExamplesMagnet.lifted 3)).
  { split; [intros i j _; cbn [ExamplesMagnet.lifted ExamplesSectors.row ModelSpins.sp_jx ModelSpins.sp_jy ModelSpins.sp_jz]; destruct (ExamplesSectors.next i j); repeat split; cbn; ring | intros i _; repeat split; reflexivity]. }
  destruct (ReversalSpins.spins_real ExamplesConvex.root (ExamplesMagnet.lifted 3) H ExamplesSigns.root_one eq_refl NY EH) as (H1 & H2 & _). destruct (ReversalSpins.y_site ExamplesConvex.root (ExamplesMagnet.lifted 3) ExamplesSigns.root_one eq_refl 0 Y ltac:(cbn; lia) EY) as (Y1 & Y2 & _).
  assert (VN : nrow V = 8%nat) by (assert (HN : nrow H = nrow V) by apply B; rewrite <- HN; exact H1). assert (T1 : 1 <> 0) by lra.
  destruct (PropertiesThermo.C140_temperature H V E B ltac:(rewrite VN; discriminate) Y ltac:(split; rewrite VN; assumption)) as (F & WF & _).
  exists H, V, E, Y, (F 1). do 4 (split; [assumption|]). split; [apply WF, T1|]. apply (C184_moment ExamplesConvex.root (ExamplesMagnet.lifted 3) H V E ExamplesSigns.root_one eq_refl NY EH B 0%nat Y 1 (F 1) ltac:(cbn; lia) EY (or_introl T1) (WF 1 T1)).
Qed.
