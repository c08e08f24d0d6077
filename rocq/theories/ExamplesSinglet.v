(** Concrete cases that meet the hypotheses of C149. *)
From Coq Require Import List Arith Lia Reals Lra ZArith QArith Bool.
From Verif Require Import Scalars Res Sums Matrix SpecMat ModelBase ModelSpins SpecSpins ModelGeometry ModelPhase ModelSymmetry ModelThermal SpecThermal ThermalBase Spectral
  SymAverage SpecHeat SpecConvex SpecSigns SpecSectors SymBase SpinAlg SpinOps SpinApi Convex ConvexSpins Signs SignsSpins Sectors SectorsRun ExamplesConvex ExamplesSigns ExamplesSectors SpecSinglet SingletApi PropertiesSinglet.
From Verif Require SubspaceProofs.
Import ListNotations.
Local Open Scope R_scope.

(** Three spins in a row, the middle one of the other kind. *)
Definition chain (i j : nat) : R := if next i j then 1 else 0.
Lemma row_isotropic : isotropic (row 1) chain.
Proof. split; [|intros i _; repeat split; reflexivity]. intros i j _. cbn [row sp_jx sp_jy sp_jz]. unfold chain. destruct (next i j); repeat split; reflexivity. Qed.
Lemma row_kinds : two_kinds second 3 chain.
Proof.
  intros i j Hij. assert (i = 1%nat /\ j = 0%nat \/ i = 2%nat /\ j = 1%nat \/ i = 2%nat /\ j = 0%nat) as [(-> & ->)|[(-> & ->)|(-> & ->)]] by lia; cbn; lra.
Qed.
Lemma row_spin (s : spins CR) : sp_two s = 1%nat -> sg_nsites (sp_geom s) <> 0%nat -> exists X Y Z, total_spin root s X Y Z.
Proof.
  intros half NZ. destruct (sum_op_half (K:=CR) _ (sx_op root 1) ltac:(split; reflexivity) NZ) as (X & EX & _). destruct (sum_op_half (K:=CR) _ (sy_op root 1) ltac:(split; reflexivity) NZ) as (Y & EY & _). destruct (sum_op_half (K:=CR) _ (sz_op 1) ltac:(split; reflexivity) NZ) as (Z & EZ & _).
  exists X, Y, Z. unfold total_spin, sp_sys. rewrite half. auto.
Qed.
Lemma all_solved (s : spins CR) J pr : sp_two s = 1%nat -> isotropic s J -> match pr with Some P => ncol P = (2 ^ sg_nsites (sp_geom s))%nat | None => True end -> (forall i j, (i < sg_nsites (sp_geom s))%nat -> (j < sg_nsites (sp_geom s))%nat -> kconj (sp_jx s i j) = sp_jx s i j /\ kconj (sp_jy s i j) = sp_jy s i j /\ kconj (sp_jz s i j) = sp_jz s i j) ->
  exists H V E, sp_createH root s pr = Ok H /\ eigenbasis H V E.
Proof.
  intros half (_ & AH) CP RJ. assert (R1 : roots_ok (K:=CR) root 1).
  { intros i Hi. replace i with 0%nat by lia. change ((0 + 1) * (1 - 0))%nat with 1%nat. cbv beta. change (INR 1) with 1. rewrite sqrt_1. rewrite kofnat_S, kofnat_0. split; apply injective_projections; cbn; ring. }
  destruct (spin_hermitian root s pr) as (H & EH & (S1 & S2) & HM).
  - destruct pr as [P|]; [rewrite half; exact CP | reflexivity].
  - rewrite half. exact R1.
  - intros i j Hi Hj. apply RJ; lia.
  - intros i Hi. destruct (AH i Hi) as (-> & -> & ->). repeat split; apply injective_projections; cbn; ring.
  - left. exact half.
  - assert (HH : hermitian (nrow H) H) by (intros i j Hi Hj; destruct HM as (_ & _ & M); rewrite <- (M i j) by (cbn [madj nrow ncol]; congruence || lia); reflexivity).
    destruct (spectral (nrow H) H HH eq_refl ltac:(congruence)) as (V & E & B). exists H, V, E. auto.
Qed.
Lemma row_all pr : match pr with Some P => ncol P = 8%nat | None => True end -> exists H V E, sp_createH root (row 1) pr = Ok H /\ eigenbasis H V E.
Proof. intros C. apply (all_solved (row 1) chain pr eq_refl row_isotropic); [exact C|]. intros i j _ _. cbn [row sp_jx sp_jy sp_jz]. destruct (next i j); repeat split; apply injective_projections; cbn; ring. Qed.
(** The row has total spin 1/2 in its two lowest states. *)
Example ex_row_ground : exists F V E e X Y Z, sp_createH root (row 1) None = Ok F /\ eigenbasis F V E /\ total_spin root (row 1) X Y Z /\ smallest e E /\ count_occ Req_EM_T E e = 2%nat /\ forall psi, state_of 8 F e psi -> has_spin 8 X Y Z (1 / 2) psi.
Proof.
  destruct (row_all None I) as (F & V & E & EF & B). destruct (row_spin (row 1) eq_refl ltac:(discriminate)) as (X & Y & Z & T). pose proof (SingletRun.full_rows root (row 1) eq_refl F V E EF B) as RW.
  destruct (Perron.smallest_exists F V E _ B RW ltac:(discriminate)) as (k & _ & SM). exists F, V, E, (nth k E 0), X, Y, Z. split; [exact EF|]. split; [exact B|]. split; [exact T|]. split; [exact SM|]. split.
  - exact (C149_degeneracy root (row 1) chain second root_one eq_refl row_isotropic row_kinds (row_linked 1 R1_neq_R0) F V E _ EF B SM).
  - intros psi ST. pose proof (C149_ground_spin root (row 1) chain second root_one eq_refl row_isotropic row_kinds (row_linked 1 R1_neq_R0) F V E _ EF B SM psi X Y Z ST T) as Q. change (of_kind second (sg_nsites (sp_geom (row 1))) true) with 1%nat in Q. change (of_kind second (sg_nsites (sp_geom (row 1))) false) with 2%nat in Q.
    cbn zeta in Q. change (2 ^ sg_nsites (sp_geom (row 1)))%nat with 8%nat in Q. replace (Rabs (INR 1 - INR 2) / 2) with (1 / 2) in Q; [exact Q|]. cbn. rewrite Rabs_left; lra.
Qed.
(** One flipped spin is lower than none. *)
Definition no_flip : mat CR := sel 8 [0]%nat.
Lemma none_flipped : flipped 3 0 no_flip [0]%nat.
Proof.
  split; [exact (SubspaceProofs.sel_rows 8 [0]%nat)|]. split; [repeat constructor; cbn; lia|]. intros k. split.
  - intros [<-|[]]. split; [change (2 ^ 3)%nat with 8%nat; lia | reflexivity].
  - intros (Hk & S). change (2 ^ 3)%nat with 8%nat in Hk. do 8 (destruct k as [|k]; [vm_compute in S; try discriminate; cbn; auto|]). lia.
Qed.
Example ex_row_strict : exists H V E H' V' E', sp_createH root (row 1) (Some no_flip) = Ok H /\ eigenbasis H V E /\ sp_createH root (row 1) (Some one_flip) = Ok H' /\ eigenbasis H' V' E' /\ forall e e', smallest e E -> smallest e' E' -> e' < e.
Proof.
  destruct (row_all (Some no_flip) eq_refl) as (H & V & E & EH & B). destruct (row_all (Some one_flip) eq_refl) as (H' & V' & E' & EH' & B'). exists H, V, E, H', V', E'. split; [exact EH|]. split; [exact B|]. split; [exact EH'|]. split; [exact B'|]. intros e e' SM SM'.
  exact (C149_strict root (row 1) chain second root_one eq_refl row_isotropic row_kinds (row_linked 1 R1_neq_R0) 0 1 no_flip one_flip [0]%nat [1; 2; 4]%nat H H' V V' E E' e e' none_flipped one_flipped EH EH' B B' SM SM' ltac:(lia) ltac:(cbn; lia) ltac:(cbn; lia)).
Qed.
(** Two spins: the ground state is a singlet. *)
Definition couple : spins CR := let f := fun _ _ => c1 in Spins (SGeom 2 (fun i j => next i j) (fun _ _ => c1)) 1 f f f (fun _ => c0) (fun _ => c0) (fun _ => c0).
Lemma couple_facts : isotropic couple (fun _ _ => 1) /\ two_kinds second 2 (fun _ _ => 1) /\ connected_spins couple.
Proof.
  split; [|split].
  - split; [intros i j _; repeat split; reflexivity | intros i _; repeat split; reflexivity].
  - intros i j Hij. replace i with 1%nat by lia. replace j with 0%nat by lia. cbn. lra.
  - assert (X : forall i j, i <> j -> exchanging couple i j) by (intros i j N; split; [exact N|]; cbn; intros W; apply (f_equal fst) in W; cbn in W; lra).
    intros i j Hi Hj. destruct (Nat.eq_dec i j) as [->|N]; [constructor|]. apply (linked_next _ _ i); [constructor | exact Hi | exact Hj | apply X, N].
Qed.
Example ex_couple : exists F V E e X Y Z, sp_createH root couple None = Ok F /\ eigenbasis F V E /\ total_spin root couple X Y Z /\ smallest e E /\ count_occ Req_EM_T E e = 1%nat /\ forall psi c, state_of 4 F e psi -> (c < 4)%nat -> apply 4 X psi c = k0 /\ apply 4 Y psi c = k0 /\ apply 4 Z psi c = k0.
Proof.
  destruct couple_facts as (IS & TK & CN). destruct (all_solved couple _ None eq_refl IS I) as (F & V & E & EF & B); [intros i j _ _; repeat split; apply injective_projections; cbn; ring|]. destruct (row_spin couple eq_refl ltac:(discriminate)) as (X & Y & Z & T). pose proof (SingletRun.full_rows root couple eq_refl F V E EF B) as RW.
  destruct (Perron.smallest_exists F V E _ B RW ltac:(discriminate)) as (k & _ & SM). exists F, V, E, (nth k E 0), X, Y, Z. split; [exact EF|]. split; [exact B|]. split; [exact T|]. split; [exact SM|]. split.
  - exact (C149_degeneracy root couple _ second root_one eq_refl IS TK CN F V E _ EF B SM).
  - intros psi c ST Hc. exact (C149_singlet root couple _ second root_one eq_refl IS TK CN F V E _ EF B SM psi X Y Z c ST T eq_refl Hc).
Qed.
