(** Property theorems C149: total spin of the ground states of antiferromagnets.
    Theorems only. *)
From Coq Require Import List Arith Reals.
From Verif Require Import Scalars Res Matrix ModelBase ModelSpins SpecSpins SpecThermal SpecSigns SpecSectors SpecSinglet SingletRun SingletApi.
Import ListNotations.
Local Open Scope R_scope.

Theorem C149_rotations : forall (rt : nat -> CR) (s : spins CR) (J : nat -> nat -> R), let n := sg_nsites (sp_geom s) in let D := (2 ^ n)%nat in
  rt 1%nat = k1 -> sp_two s = 1%nat -> isotropic s J ->
  forall F X Y Z psi c, sp_createH rt s None = Ok F -> total_spin rt s X Y Z -> (c < D)%nat ->
  apply D X (apply D F psi) c = apply D F (apply D X psi) c /\ apply D Y (apply D F psi) c = apply D F (apply D Y psi) c /\ apply D Z (apply D F psi) c = apply D F (apply D Z psi) c.
Proof. exact rotations. Qed.
Print Assumptions C149_rotations.

Theorem C149_order : forall (rt : nat -> CR) (s : spins CR) (J : nat -> nat -> R), let n := sg_nsites (sp_geom s) in let D := (2 ^ n)%nat in
  rt 1%nat = k1 -> sp_two s = 1%nat -> isotropic s J ->
  forall m m' P P' idx idx' H H' V V' E E' e e', flipped n m P idx -> flipped n m' P' idx' -> sp_createH rt s (Some P) = Ok H -> sp_createH rt s (Some P') = Ok H' -> eigenbasis H V E -> eigenbasis H' V' E' ->
  smallest e E -> smallest e' E' -> (m <= m')%nat -> (2 * m' <= n)%nat -> e' <= e.
Proof. exact sectors_order. Qed.
Print Assumptions C149_order.

Theorem C149_mirror : forall (rt : nat -> CR) (s : spins CR) (J : nat -> nat -> R), let n := sg_nsites (sp_geom s) in let D := (2 ^ n)%nat in
  rt 1%nat = k1 -> sp_two s = 1%nat -> isotropic s J ->
  forall m m' P P' idx idx' H H' V V' E E' e e', flipped n m P idx -> flipped n m' P' idx' -> sp_createH rt s (Some P) = Ok H -> sp_createH rt s (Some P') = Ok H' -> eigenbasis H V E -> eigenbasis H' V' E' ->
  smallest e E -> smallest e' E' -> m' = (n - m)%nat -> (m <= n)%nat -> e' = e.
Proof. exact sectors_mirror'. Qed.
Print Assumptions C149_mirror.

Theorem C149_strict : forall (rt : nat -> CR) (s : spins CR) (J : nat -> nat -> R) (part : nat -> bool), let n := sg_nsites (sp_geom s) in let D := (2 ^ n)%nat in let a := of_kind part n true in let b := of_kind part n false in
  rt 1%nat = k1 -> sp_two s = 1%nat -> isotropic s J -> two_kinds part n J -> connected_spins s ->
  forall m m' P P' idx idx' H H' V V' E E' e e', flipped n m P idx -> flipped n m' P' idx' -> sp_createH rt s (Some P) = Ok H -> sp_createH rt s (Some P') = Ok H' -> eigenbasis H V E -> eigenbasis H' V' E' ->
  smallest e E -> smallest e' E' -> (m < m')%nat -> (m' <= a)%nat -> (m' <= b)%nat -> e' < e.
Proof. exact strict'. Qed.
Print Assumptions C149_strict.

Theorem C149_sector_spin : forall (rt : nat -> CR) (s : spins CR) (J : nat -> nat -> R) (part : nat -> bool), let n := sg_nsites (sp_geom s) in let D := (2 ^ n)%nat in let a := of_kind part n true in let b := of_kind part n false in
  rt 1%nat = k1 -> sp_two s = 1%nat -> isotropic s J -> two_kinds part n J -> connected_spins s ->
  forall m P idx H V E e psi X Y Z, flipped n m P idx -> sp_createH rt s (Some P) = Ok H -> eigenbasis H V E -> smallest e E -> state_of (length idx) H e psi -> (exists p, (p < length idx)%nat /\ psi p <> k0) ->
  total_spin rt s X Y Z -> (m <= a)%nat -> (m <= b)%nat -> has_spin D X Y Z (INR n / 2 - INR m) (spread idx psi).
Proof. exact spin'. Qed.
Print Assumptions C149_sector_spin.

Theorem C149_level : forall (rt : nat -> CR) (s : spins CR) (J : nat -> nat -> R) (part : nat -> bool), let n := sg_nsites (sp_geom s) in let D := (2 ^ n)%nat in let a := of_kind part n true in let b := of_kind part n false in
  rt 1%nat = k1 -> sp_two s = 1%nat -> isotropic s J -> two_kinds part n J -> connected_spins s ->
  forall m m' P P' idx idx' H H' V V' E E' e e', flipped n m P idx -> flipped n m' P' idx' -> sp_createH rt s (Some P) = Ok H -> sp_createH rt s (Some P') = Ok H' -> eigenbasis H V E -> eigenbasis H' V' E' ->
  smallest e E -> smallest e' E' -> m = Nat.min a b -> (m <= m')%nat -> (m' + m <= n)%nat -> e' = e.
Proof. exact level'. Qed.
Print Assumptions C149_level.

Theorem C149_level_spin : forall (rt : nat -> CR) (s : spins CR) (J : nat -> nat -> R) (part : nat -> bool), let n := sg_nsites (sp_geom s) in let D := (2 ^ n)%nat in let a := of_kind part n true in let b := of_kind part n false in
  rt 1%nat = k1 -> sp_two s = 1%nat -> isotropic s J -> two_kinds part n J -> connected_spins s ->
  forall m P idx H V E e psi X Y Z, flipped n m P idx -> sp_createH rt s (Some P) = Ok H -> eigenbasis H V E -> smallest e E -> state_of (length idx) H e psi -> (exists p, (p < length idx)%nat /\ psi p <> k0) ->
  total_spin rt s X Y Z -> (Nat.min a b <= m)%nat -> (m + Nat.min a b <= n)%nat -> has_spin D X Y Z (INR n / 2 - INR (Nat.min a b)) (spread idx psi).
Proof. exact level_spin'. Qed.
Print Assumptions C149_level_spin.

Theorem C149_ground_spin : forall (rt : nat -> CR) (s : spins CR) (J : nat -> nat -> R) (part : nat -> bool), let n := sg_nsites (sp_geom s) in let D := (2 ^ n)%nat in let a := of_kind part n true in let b := of_kind part n false in
  rt 1%nat = k1 -> sp_two s = 1%nat -> isotropic s J -> two_kinds part n J -> connected_spins s ->
  forall F V E e, sp_createH rt s None = Ok F -> eigenbasis F V E -> smallest e E -> forall psi X Y Z, state_of D F e psi -> total_spin rt s X Y Z -> has_spin D X Y Z (Rabs (INR a - INR b) / 2) psi.
Proof. exact ground_spin'. Qed.
Print Assumptions C149_ground_spin.

Theorem C149_degeneracy : forall (rt : nat -> CR) (s : spins CR) (J : nat -> nat -> R) (part : nat -> bool), let n := sg_nsites (sp_geom s) in let D := (2 ^ n)%nat in let a := of_kind part n true in let b := of_kind part n false in
  rt 1%nat = k1 -> sp_two s = 1%nat -> isotropic s J -> two_kinds part n J -> connected_spins s ->
  forall F V E e, sp_createH rt s None = Ok F -> eigenbasis F V E -> smallest e E -> count_occ Req_EM_T E e = ((a - b) + (b - a) + 1)%nat.
Proof. exact ground_count'. Qed.
Print Assumptions C149_degeneracy.

Theorem C149_same_moment : forall (rt : nat -> CR) (s : spins CR) (J : nat -> nat -> R) (part : nat -> bool), let n := sg_nsites (sp_geom s) in let D := (2 ^ n)%nat in let a := of_kind part n true in let b := of_kind part n false in
  rt 1%nat = k1 -> sp_two s = 1%nat -> isotropic s J -> two_kinds part n J -> connected_spins s ->
  forall F V E e, sp_createH rt s None = Ok F -> eigenbasis F V E -> smallest e E -> forall psi phi c d, state_of D F e psi -> state_of D F e phi -> (c < D)%nat -> (d < D)%nat -> digit_sum 2 n c = digit_sum 2 n d -> kmul (phi c) (psi d) = kmul (psi c) (phi d).
Proof. exact ground_same'. Qed.
Print Assumptions C149_same_moment.

Theorem C149_singlet : forall (rt : nat -> CR) (s : spins CR) (J : nat -> nat -> R) (part : nat -> bool), let n := sg_nsites (sp_geom s) in let D := (2 ^ n)%nat in let a := of_kind part n true in let b := of_kind part n false in
  rt 1%nat = k1 -> sp_two s = 1%nat -> isotropic s J -> two_kinds part n J -> connected_spins s ->
  forall F V E e, sp_createH rt s None = Ok F -> eigenbasis F V E -> smallest e E -> forall psi X Y Z c, state_of D F e psi -> total_spin rt s X Y Z -> a = b -> (c < D)%nat -> apply D X psi c = k0 /\ apply D Y psi c = k0 /\ apply D Z psi c = k0.
Proof. exact ground_singlet'. Qed.
Print Assumptions C149_singlet.
