(** Property theorems C146: ground states without nodes, and signs of averages.
    Theorems only. *)
From Coq Require Import List Arith Reals.
From Verif Require Import Scalars Res Matrix ModelBase ModelSpins ModelThermal SpecThermal SpecHeat SpecConvex SpecSigns Convex Signs SignsHeat SignsSpins SignsRun.
Import ListNotations.
Local Open Scope R_scope.

Theorem C146_nodeless : forall (H V : mat CR) (E : list R) (n : nat) (eps : nat -> R), eigenbasis H V E -> nrow V = n -> signs n eps -> lowers n eps H -> (forall a b, (a < n)%nat -> (b < n)%nat -> joined n H a b) ->
  forall psi e a, smallest e E -> state_of n H e psi -> (exists b, (b < n)%nat /\ psi b <> k0) -> (a < n)%nat -> psi a <> k0.
Proof. exact nodeless. Qed.
Print Assumptions C146_nodeless.

Theorem C146_unique : forall (H V : mat CR) (E : list R) (n : nat) (eps : nat -> R), eigenbasis H V E -> nrow V = n -> signs n eps -> lowers n eps H -> (forall a b, (a < n)%nat -> (b < n)%nat -> joined n H a b) ->
  forall e k j, smallest e E -> (k < length E)%nat -> (j < length E)%nat -> nth k E 0 = e -> nth j E 0 = e -> k = j.
Proof. exact one_ground. Qed.
Print Assumptions C146_unique.

Theorem C146_phase : forall (H V : mat CR) (E : list R) (n : nat) (eps : nat -> R), eigenbasis H V E -> nrow V = n -> signs n eps -> lowers n eps H -> (forall a b, (a < n)%nat -> (b < n)%nat -> joined n H a b) ->
  forall psi e, smallest e E -> state_of n H e psi -> exists z, abs2 z = 1 /\ forall a, (a < n)%nat -> psi a = kmul z (eps a * sqrt (abs2 (psi a)), 0).
Proof. exact upright_phase. Qed.
Print Assumptions C146_phase.

Theorem C146_positive : forall (H V : mat CR) (E : list R) (n : nat) (eps : nat -> R), eigenbasis H V E -> nrow V = n -> n <> 0%nat -> signs n eps -> lowers n eps H -> (forall a b, (a < n)%nat -> (b < n)%nat -> joined n H a b) ->
  forall psi e O a b, smallest e E -> state_of n H e psi -> (exists c, (c < n)%nat /\ psi c <> k0) -> raises n eps O -> (a < n)%nat -> (b < n)%nat -> ent O a b <> (0, 0) -> 0 < expect n O psi.
Proof. exact ground_positive. Qed.
Print Assumptions C146_positive.

Theorem C146_averages : forall (H V : mat CR) (E : list R) (n : nat) (eps : nat -> R), eigenbasis H V E -> nrow V = n -> n <> 0%nat -> signs n eps -> lowers n eps H ->
  forall T O x, 0 <= T -> allowed T E -> nrow O = n -> ncol O = n -> raises n eps O -> exp_vals_thermal V O E T = Ok x -> 0 <= x.
Proof. exact average_sign. Qed.
Print Assumptions C146_averages.

Theorem C146_moments : forall (rt : nat -> CR) (s : spins CR) (part : nat -> bool) (H V : mat CR) (E : list R), let n := sg_nsites (sp_geom s) in
  rt 1%nat = k1 -> sp_two s = 1%nat -> sp_createH rt s None = Ok H -> unfrustrated part s -> eigenbasis H V E ->
  forall i O T x, (i < n)%nat -> single_site_op (sp_sys s) i 0 (sx_op rt 1) Boson = Ok O -> 0 <= T -> allowed T E -> exp_vals_thermal V O E T = Ok x -> 0 <= side part i * x.
Proof. exact moment_sign. Qed.
Print Assumptions C146_moments.

Theorem C146_correlations : forall (rt : nat -> CR) (s : spins CR) (part : nat -> bool) (H V : mat CR) (E : list R), let n := sg_nsites (sp_geom s) in
  rt 1%nat = k1 -> sp_two s = 1%nat -> sp_createH rt s None = Ok H -> unfrustrated part s -> eigenbasis H V E ->
  forall i j OX OY T x y, (i < n)%nat -> (j < n)%nat -> i <> j -> two_site_op (sp_sys s) i 0 j 0 (sx_op rt 1) (sx_op rt 1) Boson = Ok OX -> two_site_op (sp_sys s) i 0 j 0 (sy_op rt 1) (sy_op rt 1) Boson = Ok OY ->
  0 <= T -> allowed T E -> exp_vals_thermal V OX E T = Ok x -> exp_vals_thermal V OY E T = Ok y -> Rabs y <= side part i * side part j * x.
Proof. exact correlation_sign. Qed.
Print Assumptions C146_correlations.

Theorem C146_spin_unique : forall (rt : nat -> CR) (s : spins CR) (part : nat -> bool) (H V : mat CR) (E : list R), let n := sg_nsites (sp_geom s) in
  rt 1%nat = k1 -> sp_two s = 1%nat -> sp_createH rt s None = Ok H -> unfrustrated part s -> eigenbasis H V E ->
  (forall i, (i < n)%nat -> sp_hx s i <> k0) ->
  forall e k j, smallest e E -> (k < length E)%nat -> (j < length E)%nat -> nth k E 0 = e -> nth j E 0 = e -> k = j.
Proof. exact spin_unique. Qed.
Print Assumptions C146_spin_unique.

Theorem C146_spin_state : forall (rt : nat -> CR) (s : spins CR) (part : nat -> bool) (H V : mat CR) (E : list R), let n := sg_nsites (sp_geom s) in
  rt 1%nat = k1 -> sp_two s = 1%nat -> sp_createH rt s None = Ok H -> unfrustrated part s -> eigenbasis H V E ->
  (forall i, (i < n)%nat -> sp_hx s i <> k0) ->
  forall e psi, smallest e E -> state_of (2 ^ n) H e psi -> (exists a, (a < 2 ^ n)%nat /\ psi a <> k0) ->
  exists z, abs2 z = 1 /\ forall a, (a < 2 ^ n)%nat -> psi a <> k0 /\ psi a = kmul z (state_sign part n a * sqrt (abs2 (psi a)), 0).
Proof. exact spin_nodeless. Qed.
Print Assumptions C146_spin_state.

Theorem C146_cold_moments : forall (rt : nat -> CR) (s : spins CR) (part : nat -> bool) (H V : mat CR) (E : list R), let n := sg_nsites (sp_geom s) in
  rt 1%nat = k1 -> sp_two s = 1%nat -> sp_createH rt s None = Ok H -> unfrustrated part s -> eigenbasis H V E ->
  (forall i, (i < n)%nat -> sp_hx s i <> k0) ->
  forall i O x, (i < n)%nat -> single_site_op (sp_sys s) i 0 (sx_op rt 1) Boson = Ok O -> sorted_list E -> apart gap13 E -> exp_vals_thermal V O E 0 = Ok x -> 0 < side part i * x.
Proof. exact cold_moment. Qed.
Print Assumptions C146_cold_moments.
