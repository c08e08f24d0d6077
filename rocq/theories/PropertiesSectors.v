(** Property theorems C147: ground states with a fixed number of flipped spins.
    Theorems only. *)
From Coq Require Import List Arith Reals.
From Verif Require Import Scalars Res Matrix ModelBase ModelSpins ModelThermal SpecThermal SpecSigns SpecSectors Signs Perron Sectors SectorsRun.
Import ListNotations.
Local Open Scope R_scope.

Theorem C147_projectors : forall (s : spins CR) Sz ev ps vs t m, let n := sg_nsites (sp_geom s) in sp_two s = 1%nat -> n <> 0%nat -> sum_op (sp_sys s) (sz_op 1) 0 Boson = Ok Sz ->
  subspace_projs true Sz ev = Ok (ps, vs) -> (t < length vs)%nat -> nth t vs k0 = (INR n / 2 - INR m, 0) -> exists idx, flipped n m (nth t ps (mzero 0 0)) idx.
Proof. exact moment_sectors. Qed.
Print Assumptions C147_projectors.

Theorem C147_moments : forall (s : spins CR) Sz ps vs t, let n := sg_nsites (sp_geom s) in sp_two s = 1%nat -> n <> 0%nat -> sum_op (sp_sys s) (sz_op 1) 0 Boson = Ok Sz ->
  subspace_projs true Sz None = Ok (ps, vs) -> (t < length vs)%nat -> exists m, (m <= n)%nat /\ nth t vs k0 = (INR n / 2 - INR m, 0).
Proof. exact moment_values. Qed.
Print Assumptions C147_moments.

Theorem C147_unique : forall (rt : nat -> CR) (s : spins CR) (part : nat -> bool) (m : nat) (P : mat CR) (idx : list nat) (H V : mat CR) (E : list R), let n := sg_nsites (sp_geom s) in
  rt 1%nat = k1 -> sp_two s = 1%nat -> unfrustrated part s -> round_axis s -> connected_spins s -> flipped n m P idx -> sp_createH rt s (Some P) = Ok H -> eigenbasis H V E ->
  forall e k j, smallest e E -> (k < length E)%nat -> (j < length E)%nat -> nth k E 0 = e -> nth j E 0 = e -> k = j.
Proof. exact sector_unique. Qed.
Print Assumptions C147_unique.

Theorem C147_state : forall (rt : nat -> CR) (s : spins CR) (part : nat -> bool) (m : nat) (P : mat CR) (idx : list nat) (H V : mat CR) (E : list R), let n := sg_nsites (sp_geom s) in
  rt 1%nat = k1 -> sp_two s = 1%nat -> unfrustrated part s -> round_axis s -> connected_spins s -> flipped n m P idx -> sp_createH rt s (Some P) = Ok H -> eigenbasis H V E ->
  forall e psi, smallest e E -> state_of (length idx) H e psi -> (exists a, (a < length idx)%nat /\ psi a <> k0) ->
  exists z, abs2 z = 1 /\ forall a, (a < length idx)%nat -> psi a <> k0 /\ psi a = kmul z (state_sign part n (nth a idx 0%nat) * sqrt (abs2 (psi a)), 0).
Proof. exact sector_state. Qed.
Print Assumptions C147_state.

Theorem C147_overlap : forall rt s1 s2 part m P idx H1 V1 E1 H2 V2 E2 psi phi e1 e2, rt 1%nat = k1 -> sp_two s1 = 1%nat -> sp_two s2 = 1%nat -> sg_nsites (sp_geom s2) = sg_nsites (sp_geom s1) ->
  unfrustrated part s1 -> unfrustrated part s2 -> round_axis s1 -> round_axis s2 -> connected_spins s1 -> connected_spins s2 -> flipped (sg_nsites (sp_geom s1)) m P idx ->
  sp_createH rt s1 (Some P) = Ok H1 -> sp_createH rt s2 (Some P) = Ok H2 -> eigenbasis H1 V1 E1 -> eigenbasis H2 V2 E2 -> smallest e1 E1 -> smallest e2 E2 ->
  state_of (length idx) H1 e1 psi -> state_of (length idx) H2 e2 phi -> (exists a, (a < length idx)%nat /\ psi a <> k0) -> (exists a, (a < length idx)%nat /\ phi a <> k0) -> inner (length idx) psi phi <> k0.
Proof. exact sector_overlap. Qed.
Print Assumptions C147_overlap.

Theorem C147_right_signs : forall (H V : mat CR) (E : list R) (n : nat) (eps : nat -> R), eigenbasis H V E -> nrow V = n -> n <> 0%nat -> signs n eps -> lowers n eps H ->
  forall psi e, state_of n H e psi -> (forall a, (a < n)%nat -> snd (psi a) = 0 /\ 0 < eps a * fst (psi a)) -> smallest e E.
Proof. exact signs_lowest. Qed.
Print Assumptions C147_right_signs.

Theorem C147_aligned : forall (rt : nat -> CR) (s : spins CR) (J : nat -> nat -> R) (m : nat) (P : mat CR) (idx : list nat) (H V : mat CR) (E : list R), let n := sg_nsites (sp_geom s) in
  rt 1%nat = k1 -> sp_two s = 1%nat -> aligning s J -> flipped n m P idx -> sp_createH rt s (Some P) = Ok H -> eigenbasis H V E -> (m <= n)%nat -> smallest (aligned_energy n J) E.
Proof. exact aligned_lowest. Qed.
Print Assumptions C147_aligned.

Theorem C147_aligned_state : forall (rt : nat -> CR) (s : spins CR) (J : nat -> nat -> R) (m : nat) (P : mat CR) (idx : list nat) (H V : mat CR) (E : list R), let n := sg_nsites (sp_geom s) in
  rt 1%nat = k1 -> sp_two s = 1%nat -> aligning s J -> flipped n m P idx -> sp_createH rt s (Some P) = Ok H -> eigenbasis H V E ->
  connected_spins s -> forall psi, state_of (length idx) H (aligned_energy n J) psi -> forall p q, (p < length idx)%nat -> (q < length idx)%nat -> psi p = psi q.
Proof. exact aligned_only. Qed.
Print Assumptions C147_aligned_state.
