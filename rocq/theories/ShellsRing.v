(** A ring of four sites: an even number of particles has several ground states. *)
From Coq Require Import List Arith Lia Reals Lra ZArith QArith Qabs Bool.
From Verif Require Import Scalars Res Matrix Sums SqMat SpecMat SpecFock OpsProofs FockProofs FermiOps ModelBase ModelFermions ModelSpins SpecSpins Digits HamProofs FermiApi
  ModelGeometry ModelPhase ModelSymmetry SymBase ModelThermal SpecThermal ThermalBase ThermalBasis Spectral SpecSigns Signs Convex Perron Sectors HopSigns SpecShells Shells ShellsRun.
From Verif Require SubspaceProofs.
Import ListNotations.
Local Open Scope R_scope.

(** Sites (0,0), (1,0), (1,1) and (0,1). *)
Definition square_ring : fgeom CR :=
  let x i := nth i [0; 1; 1; 0]%Z 0%Z in let y i := nth i [0; 0; 1; 1]%Z 0%Z in
  FGeom 4 (fun i j => Z.eqb (Z.abs (x i - x j) + Z.abs (y i - y j)) 1) (fun _ _ => k1) (fun i j => inject_Z (x i - x j)) (fun i j => inject_Z (y i - y j)).
Definition ring_t (i j : nat) : Z := if fg_adj square_ring i j then 1%Z else 0%Z.
(** Spinless fermions with hopping 1. *)
Definition ring_f : fermions CR := Ferm square_ring 1 (fun i j _ => (IZR (ring_t i j), 0)) (fun _ => k0) (fun _ _ _ => k0) (fun _ => k0) (fun _ _ => k0) (meye 16).
Lemma ring_amplitude i j s : (j < i < 4)%nat -> amplitude ring_f i j s = (IZR (ring_t i j), 0).
Proof.
  intros Hij. unfold amplitude. assert (i = 1 /\ j = 0 \/ i = 2 /\ j = 0 \/ i = 2 /\ j = 1 \/ i = 3 /\ j = 0 \/ i = 3 /\ j = 1 \/ i = 3 /\ j = 2)%nat as W by lia.
  destruct W as [(-> & ->)|[(-> & ->)|[(-> & ->)|[(-> & ->)|[(-> & ->)|(-> & ->)]]]]]; apply injective_projections; cbn; unfold Q2R; cbn; lra.
Qed.
Lemma ring_order count : Nat.Odd count -> orderly (fun _ => false) ring_f [count].
Proof.
  intros OD i j s Hij Hs. exists (IZR (ring_t i j)). change (fg_nsites (f_geom ring_f)) with 4%nat in *. change (f_nspecies ring_f) with 1%nat in Hs. split; [apply ring_amplitude; exact Hij|]. assert (s = 0%nat) by lia. subst s.
  assert (i = 1 /\ j = 0 \/ i = 2 /\ j = 0 \/ i = 2 /\ j = 1 \/ i = 3 /\ j = 0 \/ i = 3 /\ j = 1 \/ i = 3 /\ j = 2)%nat as W by lia.
  destruct W as [(-> & ->)|[(-> & ->)|[(-> & ->)|[(-> & ->)|[(-> & ->)|(-> & ->)]]]]]; cbn; unfold side; split; try lra; intros NZ; try lra; try (left; reflexivity). right. left. auto.
Qed.
Lemma ring_linked : connected_hops ring_f.
Proof.
  intros s i j Hs Hi Hj. change (f_nspecies ring_f) with 1%nat in Hs. change (fg_nsites (f_geom ring_f)) with 4%nat in *.
  assert (B : forall i j, (i < 4)%nat -> (j < 4)%nat -> fg_adj square_ring i j = true -> hopping ring_f s i j).
  { clear. intros i j Hi Hj A. assert (NE : i <> j) by (intros ->; destruct j as [|[|[|[|j]]]]; try lia; discriminate). split; [exact NE|]. rewrite ring_amplitude by lia. unfold ring_t.
    replace (fg_adj square_ring (Nat.max i j) (Nat.min i j)) with true; [intros X; injection X; lra|]. destruct i as [|[|[|[|i]]]]; try lia; destruct j as [|[|[|[|j]]]]; try lia; try discriminate; reflexivity. }
  assert (S : forall i j, (i < 4)%nat -> (j < 4)%nat -> fg_adj square_ring i j = true -> hop_linked ring_f s i j) by (intros p q Hp Hq A; apply (hop_next _ _ _ p); [constructor | exact Hp | exact Hq | apply B; assumption]).
  assert (S2 : forall i k j, (i < 4)%nat -> (k < 4)%nat -> (j < 4)%nat -> fg_adj square_ring i k = true -> fg_adj square_ring k j = true -> hop_linked ring_f s i j) by (intros p r q Hp Hr Hq A1 A2; apply (hop_next _ _ _ r); [apply S; assumption | exact Hr | exact Hq | apply B; assumption]).
  destruct i as [|[|[|[|i]]]]; try lia; destruct j as [|[|[|[|j]]]]; try lia; try constructor; try (apply S; [lia | lia | reflexivity]); first [apply (S2 _ 1%nat); [lia | lia | lia | reflexivity | reflexivity] | apply (S2 _ 0%nat); [lia | lia | lia | reflexivity | reflexivity]].
Qed.
Definition ring_idx : list nat := [3; 5; 6; 9; 10; 12]%nat.
Definition ring_P : mat CR := sel 16 ring_idx.
Lemma ring_shell : shell 4 1 [2%nat] ring_P ring_idx.
Proof.
  change (2 ^ (4 * 1))%nat with 16%nat. split; [exact (SubspaceProofs.sel_rows 16 ring_idx)|]. split; [repeat constructor; cbn; lia|].
  intros k. change (2 ^ (4 * 1))%nat with 16%nat. split.
  - intros IN. assert (k < 16)%nat by (cbn in IN; lia). split; [assumption|]. intros s Hs. assert (s = 0%nat) by lia. subst s. cbn in IN. repeat (destruct IN as [<-|IN]; [reflexivity|]). destruct IN.
  - intros (Hk & S). specialize (S 0%nat ltac:(lia)). cbn [nth] in S. do 16 (destruct k as [|k]; [vm_compute in S; try discriminate; cbn; auto 10|]). lia.
Qed.
(** The matrix elements as integers. *)
Fixpoint zs (n : nat) (g : nat -> Z) : Z := match n with O => 0%Z | S k => (zs k g + g k)%Z end.
Lemma zs_real n (F : nat -> CR) g : (forall k, (k < n)%nat -> F k = (IZR (g k), 0)) -> ksum n F = (IZR (zs n g), 0).
Proof. induction n as [|n IH]; intros W; [reflexivity|]. cbn [ksum zs]. rewrite IH by (intros; apply W; lia). rewrite W, plus_IZR by lia. apply injective_projections; cbn; ring. Qed.
Definition hz (p r a b : nat) : Z :=
  if agree_off 2 4 [p; r] a b && (negb (digit 2 4 p a =? digit 2 4 r a) && (digit 2 4 p b =? digit 2 4 r a) && (digit 2 4 r b =? digit 2 4 p a))%nat then (if Nat.even (between 4 p r a) then 1 else -1)%Z else 0%Z.
Definition gz (a b : nat) : Z := zs 4 (fun i => zs i (fun j => (- (ring_t i j * hz i j a b))%Z)).
Lemma ring_elem a b : (a < 16)%nat -> (b < 16)%nat -> HS2 ring_f (amplitude ring_f) a b = (IZR (gz a b), 0).
Proof.
  intros Ha Hb. unfold HS2. change (fg_nsites (f_geom ring_f)) with 4%nat. change (f_nspecies ring_f) with 1%nat.
  rewrite (zs_real 4 _ (fun i => zs i (fun j => (- (ring_t i j * hz i j a b))%Z))).
  - rewrite !ksum_zero; [unfold gz; apply injective_projections; cbn; ring | ..]; intros i Hi; try (apply ksum_zero; intros k Hk); try (apply ksum_zero; intros l Hl); cbn [ring_f f_pot f_mus f_same f_us]; apply injective_projections; cbn; ring.
  - intros i Hi. apply zs_real. intros j Hj. cbn [ksum]. rewrite ring_amplitude by lia. unfold lsite. change (s_nsites (f_sys ring_f)) with 4%nat. replace (4 * 0 + i)%nat with i by lia. replace (4 * 0 + j)%nat with j by lia.
    rewrite (hop_values ring_f i j a b) by (try exact Ha; try exact Hb; cbn; lia). unfold hz. change (fg_nsites (f_geom ring_f) * f_nspecies ring_f)%nat with 4%nat.
    destruct (agree_off 2 4 [i; j] a b && _); [|rewrite Z.mul_0_r; apply injective_projections; cbn; ring].
    destruct (Nat.even (between 4 i j a)) eqn:EV.
    + rewrite (ksign_same (K:=CR) _ 0 EV). rewrite Z.mul_1_r, opp_IZR. apply injective_projections; cbn; ring.
    + rewrite (ksign_same (K:=CR) _ 1 EV). rewrite opp_IZR, mult_IZR. apply injective_projections; cbn; ring.
Qed.
Lemma ring_created : exists H V E, createH ring_f (Some ring_P) = Ok H /\ eigenbasis H V E.
Proof.
  destruct (hermitian_api ring_f (Some ring_P)) as (H & EH & (S1 & S2) & HM).
  - reflexivity.
  - right. reflexivity.
  - repeat split; intros; apply injective_projections; cbn; ring.
  - assert (HH : hermitian (nrow H) H) by (intros i j Hi Hj; destruct HM as (_ & _ & M); rewrite <- (M i j) by (cbn [madj nrow ncol]; congruence || lia); reflexivity).
    destruct (spectral (nrow H) H HH eq_refl ltac:(congruence)) as (V & E & B). exists H, V, E. auto.
Qed.
Definition table (a b : nat) : Z := nth b (nth a [[0; -1; 0; 0; 1; 0]; [-1; 0; -1; -1; 0; 1]; [0; -1; 0; 0; -1; 0]; [0; -1; 0; 0; -1; 0]; [1; 0; -1; -1; 0; -1]; [0; 1; 0; 0; -1; 0]]%Z []) 0%Z.
Lemma ring_table a b : (a < 6)%nat -> (b < 6)%nat -> gz (nth a ring_idx 0%nat) (nth b ring_idx 0%nat) = table a b.
Proof. intros Ha Hb. do 6 (destruct a as [|a]; [do 6 (destruct b as [|b]; [vm_compute; reflexivity|]); lia|]). lia. Qed.
Lemma six P : P 0%nat -> P 1%nat -> P 2%nat -> P 3%nat -> P 4%nat -> P 5%nat -> forall a, (a < 6)%nat -> P a.
Proof. intros. destruct a as [|[|[|[|[|[|a]]]]]]; try assumption. lia. Qed.
(** Real parts and imaginary parts of a state solve the same equations. *)
Lemma ring_values e (x0 x1 x2 x3 x4 x5 : R) : - x1 + x4 = e * x0 -> - x0 - x2 - x3 + x5 = e * x1 -> - x1 - x4 = e * x2 -> - x1 - x4 = e * x3 -> x0 - x2 - x3 - x5 = e * x4 -> x1 - x4 = e * x5 ->
  forall x, In x [x0; x1; x2; x3; x4; x5] -> (e * e * e - 4 * e) * x = 0.
Proof.
  intros Q0 Q1 Q2 Q3 Q4 Q5.
  assert (C : forall x y : R, e * (x + y) = e * x + e * y) by (intros; ring). assert (C' : forall x y : R, e * (x - y) = e * x - e * y) by (intros; ring). assert (C'' : forall x : R, e * (- x) = - (e * x)) by (intros; ring).
  intros x [<-|[<-|[<-|[<-|[<-|[<-|[]]]]]]]; match goal with |- _ * ?x = 0 => replace ((e * e * e - 4 * e) * x) with (e * (e * (e * x)) - 4 * (e * x)) by ring end;
    rewrite <- ?Q0, <- ?Q1, <- ?Q2, <- ?Q3, <- ?Q4, <- ?Q5; repeat (rewrite ?C', ?C, ?C''; rewrite <- ?Q0, <- ?Q1, <- ?Q2, <- ?Q3, <- ?Q4, <- ?Q5); ring.
Qed.
Definition psi1 (a : nat) : CR := nth a [(0, 0); (1, 0); (1, 0); (1, 0); (1, 0); (0, 0)] (0, 0).
Definition psi2 (a : nat) : CR := nth a [(1, 0); (1, 0); (0, 0); (0, 0); (-1, 0); (-1, 0)] (0, 0).
Theorem open_shell : exists (f : fermions CR) (P : mat CR) (idx : list nat) (H V : mat CR) (E : list R) (psi phi : nat -> CR) (e : R),
  us_ok f /\ connected_hops f /\ (forall count, Nat.Odd count -> orderly (fun _ => false) f [count]) /\ shell (fg_nsites (f_geom f)) (f_nspecies f) [2%nat] P idx /\ createH f (Some P) = Ok H /\ eigenbasis H V E /\ smallest e E /\
  state_of (length idx) H e psi /\ state_of (length idx) H e phi /\ psi 0%nat = k0 /\ psi 1%nat <> k0 /\ phi 0%nat <> k0.
Proof.
  destruct ring_created as (H & V & E & EH & B). exists ring_f, ring_P, ring_idx, H, V, E, psi1, psi2, (-2).
  assert (U : us_ok ring_f) by (right; reflexivity).
  destruct (shell_ent ring_f [2%nat] ring_P ring_idx H ring_shell U EH) as (R1 & R2 & W). change (length ring_idx) with 6%nat in *.
  assert (TB : forall a b, (a < 6)%nat -> (b < 6)%nat -> ent H a b = (IZR (table a b), 0)).
  { intros a b Ha Hb. rewrite (W a b Ha Hb), ring_elem, ring_table by (assumption || (assert (IN : In (nth a ring_idx 0%nat) ring_idx) by (apply nth_In; exact Ha); assert (IN' : In (nth b ring_idx 0%nat) ring_idx) by (apply nth_In; exact Hb); cbn [ring_idx In] in IN, IN'; lia)). reflexivity. }
  assert (AP : forall psi a, (a < 6)%nat -> apply 6 H psi a = ksum 6 (fun b => (IZR (table a b), 0) *c psi b)) by (intros psi a Ha; unfold apply; apply ksum_ext; intros b Hb; rewrite (TB a b Ha Hb); reflexivity).
  assert (S1 : state_of 6 H (-2) psi1) by (intros a Ha; rewrite (AP _ a Ha); revert a Ha; apply six; apply injective_projections; cbn; ring).
  assert (S2 : state_of 6 H (-2) psi2) by (intros a Ha; rewrite (AP _ a Ha); revert a Ha; apply six; apply injective_projections; cbn; ring).
  assert (VR : nrow V = 6%nat) by (destruct B as ((_ & S & _) & _); congruence).
  assert (LOW : forall k, (k < length E)%nat -> let e := nth k E 0 in e * e * e - 4 * e = 0).
  { intros k Hk e. pose proof (col_state H V E 6 B VR k Hk) as ST. fold e in ST. set (v := col V k) in *.
    assert (EQ : forall a, (a < 6)%nat -> ksum 6 (fun b => (IZR (table a b), 0) *c v b) = (e, 0) *c v a) by (intros a Ha; rewrite <- (AP v a Ha); apply ST, Ha).
    assert (NV : exists a, (a < 6)%nat /\ v a <> c0).
    { assert (NN : norm2 6 v = 1) by (exact (unit1 H V E 6 B VR k Hk)).
      assert (DEC : forall z : CR, {z = c0} + {z <> c0}) by (intros z; apply (keq_dec (K:=CR))).
      destruct (DEC (v 0%nat)) as [Z0|]; [|exists 0%nat; split; [lia | assumption]]. destruct (DEC (v 1%nat)) as [Z1|]; [|exists 1%nat; split; [lia | assumption]]. destruct (DEC (v 2%nat)) as [Z2|]; [|exists 2%nat; split; [lia | assumption]].
      destruct (DEC (v 3%nat)) as [Z3|]; [|exists 3%nat; split; [lia | assumption]]. destruct (DEC (v 4%nat)) as [Z4|]; [|exists 4%nat; split; [lia | assumption]]. destruct (DEC (v 5%nat)) as [Z5|]; [|exists 5%nat; split; [lia | assumption]].
      exfalso. unfold norm2, inner in NN. cbn [ksum] in NN. rewrite Z0, Z1, Z2, Z3, Z4, Z5 in NN. cbn in NN. lra. }
    pose proof (EQ 0%nat ltac:(lia)) as Q0. pose proof (EQ 1%nat ltac:(lia)) as Q1. pose proof (EQ 2%nat ltac:(lia)) as Q2. pose proof (EQ 3%nat ltac:(lia)) as Q3. pose proof (EQ 4%nat ltac:(lia)) as Q4. pose proof (EQ 5%nat ltac:(lia)) as Q5.
    destruct (v 0%nat) as (x0, y0) eqn:V0, (v 1%nat) as (x1, y1) eqn:V1, (v 2%nat) as (x2, y2) eqn:V2, (v 3%nat) as (x3, y3) eqn:V3, (v 4%nat) as (x4, y4) eqn:V4, (v 5%nat) as (x5, y5) eqn:V5.
    cbn [ksum table nth] in Q0, Q1, Q2, Q3, Q4, Q5. rewrite ?V0, ?V1, ?V2, ?V3, ?V4, ?V5 in Q0, Q1, Q2, Q3, Q4, Q5. cbn in Q0, Q1, Q2, Q3, Q4, Q5.
    injection Q0 as Q0 P0. injection Q1 as Q1 P1. injection Q2 as Q2 P2. injection Q3 as Q3 P3. injection Q4 as Q4 P4. injection Q5 as Q5 P5.
    assert (RX : forall x, In x [x0; x1; x2; x3; x4; x5] -> (e * e * e - 4 * e) * x = 0) by (apply ring_values; lra).
    assert (RY : forall y, In y [y0; y1; y2; y3; y4; y5] -> (e * e * e - 4 * e) * y = 0) by (apply ring_values; lra).
    assert (FIN : forall x y, In x [x0; x1; x2; x3; x4; x5] -> In y [y0; y1; y2; y3; y4; y5] -> (x, y) <> c0 -> e * e * e - 4 * e = 0).
    { intros x y IX IY NZ. pose proof (RX x IX) as X1. pose proof (RY y IY) as Y1. apply Rmult_integral in X1 as [X1|X1]; [exact X1|]. apply Rmult_integral in Y1 as [Y1|Y1]; [exact Y1|]. exfalso. apply NZ. rewrite X1, Y1. reflexivity. }
    destruct NV as (a & Ha & NZ). destruct a as [|[|[|[|[|[|a]]]]]]; [rewrite V0 in NZ | rewrite V1 in NZ | rewrite V2 in NZ | rewrite V3 in NZ | rewrite V4 in NZ | rewrite V5 in NZ | lia]; refine (FIN _ _ _ _ NZ); cbn; auto 10. }
  split; [exact U|]. split; [exact ring_linked|]. split; [exact ring_order|]. split; [exact ring_shell|]. split; [exact EH|]. split; [exact B|].
  split; [|split; [exact S1|]; split; [exact S2|]; split; [reflexivity|]; split; intros Z; apply (f_equal fst) in Z; cbn in Z; lra].
  assert (GE : forall x, In x E -> -2 <= x). { intros x Hx. apply (In_nth _ _ 0) in Hx as (k & Hk & <-). pose proof (LOW k Hk) as Q. cbv zeta in Q. set (e := nth k E 0) in *. destruct (Rle_dec (-2) e) as [|NL]; [assumption|]. assert (e < -2) by lra. assert (P1 : 0 < e * e - 4) by nra. assert (P2 : 0 < (- e) * (e * e - 4)) by (apply Rmult_lt_0_compat; lra). nra. }
  split; [|exact GE].
  destruct (smallest_exists H V E 6 B VR ltac:(lia)) as (k & Hk & SM).
  assert (EE : nth k E 0 <= -2).
  { pose proof (variational H V E 6 B VR psi1 (nth k E 0) SM) as VA. rewrite (state_energy H 6 psi1 (-2) S1) in VA. assert (NP : norm2 6 psi1 = 4) by (unfold norm2, inner; cbn; ring). rewrite NP in VA. lra. }
  assert (nth k E 0 = -2) as <-; [|apply nth_In, Hk]. specialize (GE (nth k E 0) (nth_In _ _ Hk)). lra.
Qed.
