(** Concrete cases that meet the hypotheses of C147. *)
From Coq Require Import List Arith Lia Reals Lra ZArith QArith Bool.
From Verif Require Import Scalars Res Sums Matrix SpecMat ModelBase ModelSpins SpecSpins ModelGeometry ModelPhase ModelSymmetry ModelThermal SpecThermal ThermalBase Spectral
  SymAverage SpecHeat SpecConvex SpecSigns SpecSectors SymBase SpinAlg SpinOps SpinApi Convex ConvexSpins Signs SignsSpins Sectors SectorsRun ExamplesConvex ExamplesSigns PropertiesSectors.
From Verif Require SubspaceProofs.
Import ListNotations.
Local Open Scope R_scope.

(** Three spins in a row; one flipped spin. *)
Definition next (i j : nat) : bool := ((i =? j + 1) || (j =? i + 1))%nat.
Definition row (J : R) : spins CR :=
  let f := fun i j => if next i j then real J else c0 in
  Spins (SGeom 3 (fun i j => next i j) (fun _ _ => c1)) 1 f f f (fun _ => c0) (fun _ => c0) (fun _ => c0).
Definition one_flip : mat CR := sel 8 [1; 2; 4]%nat.
Lemma one_flipped : flipped 3 1 one_flip [1; 2; 4]%nat.
Proof.
  split; [exact (SubspaceProofs.sel_rows 8 [1; 2; 4]%nat)|]. split; [repeat constructor; cbn; lia|].
  intros k. split.
  - intros [<-|[<-|[<-|[]]]]; (split; [change (2 ^ 3)%nat with 8%nat; lia | reflexivity]).
  - intros (Hk & S). change (2 ^ 3)%nat with 8%nat in Hk. do 8 (destruct k as [|k]; [vm_compute in S; try discriminate; cbn; auto|]). lia.
Qed.
Lemma row_linked J : J <> 0 -> connected_spins (row J).
Proof.
  intros NJ. assert (B : forall i j, next i j = true -> exchanging (row J) i j).
  { intros i j Q. unfold next in Q. assert (i = (j + 1)%nat \/ j = (i + 1)%nat) as [->| ->] by (apply orb_true_iff in Q as [Q|Q]; apply Nat.eqb_eq in Q; auto).
    - split; [lia|]. rewrite Nat.max_l, Nat.min_r by lia. cbn [row sp_jx]. unfold next. rewrite Nat.eqb_refl. cbn. intros W. apply (f_equal fst) in W. cbn in W. lra.
    - split; [lia|]. rewrite Nat.max_r, Nat.min_l by lia. cbn [row sp_jx]. unfold next. rewrite Nat.eqb_refl. cbn. intros W. apply (f_equal fst) in W. cbn in W. lra. }
  assert (S : forall i j, (i < 3)%nat -> (j < 3)%nat -> next i j = true -> linked_sites (row J) i j) by (intros i j Hi Hj Q; apply (linked_next _ _ i); [constructor | exact Hi | exact Hj | apply B, Q]).
  intros i j Hi Hj. cbn in Hi, Hj. destruct i as [|[|[|i]]]; try lia; destruct j as [|[|[|j]]]; try lia; try constructor; try (apply S; [lia | lia | reflexivity]).
  - apply (linked_next _ _ 1%nat); [apply S; [lia | lia | reflexivity] | cbn; lia | cbn; lia | apply B; reflexivity].
  - apply (linked_next _ _ 1%nat); [apply S; [lia | lia | reflexivity] | cbn; lia | cbn; lia | apply B; reflexivity].
Qed.
Lemma row_unfrustrated : unfrustrated second (row 1) /\ round_axis (row 1).
Proof.
  split; split.
  - intros i j Hij. cbn in Hij. assert (i = 1%nat /\ j = 0%nat \/ i = 2%nat /\ j = 1%nat \/ i = 2%nat /\ j = 0%nat) as [(-> & ->)|[(-> & ->)|(-> & ->)]] by lia.
    + exists 1, 1, 1. repeat split; try reflexivity. cbn. rewrite Rabs_R1. lra.
    + exists 1, 1, 1. repeat split; try reflexivity. cbn. rewrite Rabs_R1. lra.
    + exists 0, 0, 0. repeat split; try reflexivity. cbn. rewrite Rabs_R0. lra.
  - intros i _. exists 0, 0. repeat split; try reflexivity. lra.
  - reflexivity.
  - intros i _. split; reflexivity.
Qed.
Lemma row_aligning : aligning (row (-1)) (fun i j => if next i j then -1 else 0).
Proof.
  split; [|intros i _; repeat split; reflexivity]. intros i j _. cbn [row sp_jx sp_jy sp_jz]. destruct (next i j); repeat split; reflexivity || lra.
Qed.
Lemma row_solved J : exists H V E, sp_createH root (row J) (Some one_flip) = Ok H /\ eigenbasis H V E.
Proof.
  assert (R1 : roots_ok (K:=CR) root 1).
  { intros i Hi. replace i with 0%nat by lia. change ((0 + 1) * (1 - 0))%nat with 1%nat. cbv beta. change (INR 1) with 1. rewrite sqrt_1. rewrite kofnat_S, kofnat_0. split; apply injective_projections; cbn; ring. }
  destruct (spin_hermitian root (row J) (Some one_flip) eq_refl R1) as (H & EH & (S1 & S2) & HM).
  - intros i j _ _. cbn [row sp_jx sp_jy sp_jz]. destruct (next i j); repeat split; apply injective_projections; cbn; ring.
  - intros i _. repeat split; apply injective_projections; cbn; ring.
  - left. reflexivity.
  - assert (HH : hermitian (nrow H) H) by (intros i j Hi Hj; destruct HM as (_ & _ & M); rewrite <- (M i j) by (cbn [madj nrow ncol]; congruence || lia); reflexivity).
    destruct (spectral (nrow H) H HH eq_refl ltac:(congruence)) as (V & E & B). exists H, V, E. auto.
Qed.
(** The antiferromagnetic row has one lowest state with one flipped spin; the flipped
    spin is found at every site. *)
Example ex_row : exists H V E, sp_createH root (row 1) (Some one_flip) = Ok H /\ eigenbasis H V E /\
  (forall e k j, smallest e E -> (k < length E)%nat -> (j < length E)%nat -> nth k E 0 = e -> nth j E 0 = e -> k = j) /\
  (forall e psi, smallest e E -> state_of 3 H e psi -> (exists a, (a < 3)%nat /\ psi a <> k0) -> psi 0%nat <> k0 /\ psi 1%nat <> k0 /\ psi 2%nat <> k0).
Proof.
  destruct (row_solved 1) as (H & V & E & A & B). destruct row_unfrustrated as (U & R). pose proof (row_linked 1 R1_neq_R0) as C. exists H, V, E. split; [exact A|]. split; [exact B|]. split.
  - exact (C147_unique root (row 1) second 1 one_flip [1; 2; 4]%nat H V E root_one eq_refl U R C one_flipped A B).
  - intros e psi SM ST NZ. destruct (C147_state root (row 1) second 1 one_flip [1; 2; 4]%nat H V E root_one eq_refl U R C one_flipped A B e psi SM ST NZ) as (z & _ & Q).
    split; [exact (proj1 (Q 0%nat ltac:(cbn; lia)))|]. split; [exact (proj1 (Q 1%nat ltac:(cbn; lia))) | exact (proj1 (Q 2%nat ltac:(cbn; lia)))].
Qed.
(** The ferromagnetic row has energy -1, in the sum of the three configurations only. *)
Example ex_aligned : exists H V E, sp_createH root (row (-1)) (Some one_flip) = Ok H /\ eigenbasis H V E /\ smallest (-1) E /\ (forall psi, state_of 3 H (-1) psi -> psi 0%nat = psi 1%nat /\ psi 1%nat = psi 2%nat).
Proof.
  destruct (row_solved (-1)) as (H & V & E & A & B). exists H, V, E. split; [exact A|]. split; [exact B|].
  assert (AE : aligned_energy 3 (fun i j => if next i j then -1 else 0) = -1) by (unfold aligned_energy, total; cbn; field).
  pose proof (C147_aligned root (row (-1)) _ 1 one_flip [1; 2; 4]%nat H V E root_one eq_refl row_aligning one_flipped A B ltac:(cbn; lia)) as L.
  pose proof (C147_aligned_state root (row (-1)) _ 1 one_flip [1; 2; 4]%nat H V E root_one eq_refl row_aligning one_flipped A B (row_linked (-1) ltac:(lra))) as O.
  change (sg_nsites (sp_geom (row (-1)))) with 3%nat in L, O. cbn zeta in L, O. rewrite AE in L, O. split; [exact L|]. intros psi ST. split; apply (O psi ST); cbn; lia.
Qed.
(** The projector of the total moment 1/2 selects one flipped spin. *)
Example ex_projector : exists Sz ps vs idx, sum_op (sp_sys (row 1)) (sz_op 1) 0 Boson = Ok Sz /\ subspace_projs true Sz (Some [(1 / 2, 0)]) = Ok (ps, vs) /\ flipped 3 1 (nth 0 ps (mzero 0 0)) idx.
Proof.
  destruct (sum_op_half (K:=CR) 3 (sz_op 1) ltac:(split; reflexivity) ltac:(discriminate)) as (Sz & ES & _).
  destruct (moment_diagonal (row 1) Sz eq_refl ltac:(discriminate) ES) as (DG & _). destruct (SubspaceProofs.projs_spec _ Sz (Some [(1 / 2, 0)]) DG) as (ps & vs & EP & LP & LV & _). pose proof (LV _ eq_refl) as EV. rewrite EV in *.
  destruct (C147_projectors (row 1) Sz _ ps _ 0%nat 1%nat eq_refl ltac:(discriminate) ES EP ltac:(cbn; lia)) as (idx & F).
  - apply injective_projections; cbn; field.
  - exists Sz, ps, [(1 / 2, 0)], idx. auto.
Qed.
