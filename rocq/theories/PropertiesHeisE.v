(** Property theorem C193: bounds on the energies of Heisenberg models.  Theorems only. *)
From Coq Require Import List Arith Reals QArith Bool.
From Verif Require Import Scalars Res Matrix ModelBase ModelFermions ModelSpins ModelGeometry ModelPhase ModelSymmetry SymBase ModelThermal SpecThermal HeisE HeisTop.
Import ListNotations.
Local Open Scope R_scope.

(** C193.  [rsum m f] is [f 0 + ... + f (m - 1)]; the sums run over all pairs of sites. *)
Theorem C193_energies : forall rt (s : spins CR) (J : nat -> nat -> R) (H V : mat CR) E k, let n := sg_nsites (sp_geom s) in rt 1%nat = k1 -> sp_two s = 1%nat ->
  (forall i j, (j < i < n)%nat -> sp_jx s i j = real (J i j) /\ sp_jy s i j = real (J i j) /\ sp_jz s i j = real (J i j)) -> (forall i, (i < n)%nat -> sp_hx s i = c0 /\ sp_hy s i = c0 /\ sp_hz s i = c0) ->
  sp_createH rt s None = Ok H -> eigenbasis H V E -> (k < length E)%nat ->
  rsum n (fun i => rsum i (fun j => Rmin (- (3 / 2) * J i j) (1 / 2 * J i j))) <= nth k E 0 <= rsum n (fun i => rsum i (fun j => Rmax (- (3 / 2) * J i j) (1 / 2 * J i j))).
Proof. exact heisenberg_energies. Qed.
Print Assumptions C193_energies.
(** Half of the sum of the couplings, the energy of parallel spins, is one of the energies, *)
Theorem C193_parallel : forall rt (s : spins CR) (J : nat -> nat -> R) (H V : mat CR) E, let n := sg_nsites (sp_geom s) in rt 1%nat = k1 -> sp_two s = 1%nat ->
  (forall i j, (j < i < n)%nat -> sp_jx s i j = real (J i j) /\ sp_jy s i j = real (J i j) /\ sp_jz s i j = real (J i j)) -> (forall i, (i < n)%nat -> sp_hx s i = c0 /\ sp_hy s i = c0 /\ sp_hz s i = c0) ->
  sp_createH rt s None = Ok H -> eigenbasis H V E -> In (rsum n (fun i => rsum i (fun j => 1 / 2 * J i j))) E.
Proof. exact parallel_energy. Qed.
Print Assumptions C193_parallel.
(** the lowest one of a ferromagnet and the highest one of an antiferromagnet. *)
Theorem C193_extreme : forall rt (s : spins CR) (J : nat -> nat -> R) (H V : mat CR) E e, let n := sg_nsites (sp_geom s) in rt 1%nat = k1 -> sp_two s = 1%nat ->
  (forall i j, (j < i < n)%nat -> sp_jx s i j = real (J i j) /\ sp_jy s i j = real (J i j) /\ sp_jz s i j = real (J i j)) -> (forall i, (i < n)%nat -> sp_hx s i = c0 /\ sp_hy s i = c0 /\ sp_hz s i = c0) ->
  sp_createH rt s None = Ok H -> eigenbasis H V E -> In e E ->
  ((forall i j, (j < i < n)%nat -> J i j <= 0) -> rsum n (fun i => rsum i (fun j => 1 / 2 * J i j)) <= e) /\ ((forall i j, (j < i < n)%nat -> 0 <= J i j) -> e <= rsum n (fun i => rsum i (fun j => 1 / 2 * J i j))).
Proof. exact ferromagnet. Qed.
Print Assumptions C193_extreme.
