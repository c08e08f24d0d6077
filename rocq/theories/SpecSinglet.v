(** Vocabulary for the total spin of spins 1/2. *)
From Coq Require Import List Arith Reals Bool.
From Verif Require Import Scalars Res Matrix ModelBase ModelSpins SpecSpins SpecThermal SpecSigns.
Import ListNotations.
Local Open Scope R_scope.

(** Couplings are the same along the three axes and there are no fields. *)
Definition isotropic (s : spins CR) (J : nat -> nat -> R) : Prop :=
  let n := sg_nsites (sp_geom s) in
  (forall i j, (j < i < n)%nat -> sp_jx s i j = (J i j, 0) /\ sp_jy s i j = (J i j, 0) /\ sp_jz s i j = (J i j, 0)) /\
  (forall i, (i < n)%nat -> sp_hx s i = (0, 0) /\ sp_hy s i = (0, 0) /\ sp_hz s i = (0, 0)).
(** Couplings between sites of different kinds are antiferromagnetic, couplings within a
    kind ferromagnetic (or absent). *)
Definition two_kinds (part : nat -> bool) (n : nat) (J : nat -> nat -> R) : Prop :=
  forall i j, (j < i < n)%nat -> side part i * side part j * J i j <= 0.
(** Number of sites of a kind. *)
Definition of_kind (part : nat -> bool) (n : nat) (t : bool) : nat := length (filter (fun i => Bool.eqb (part i) t) (seq 0 n)).
(** The state of the whole system that [psi] is in a basis of configurations. *)
Definition spread (idx : list nat) (psi : nat -> CR) (a : nat) : CR := ksum (length idx) (fun p => if (nth p idx 0 =? a)%nat then psi p else k0).
(** [X], [Y], [Z] are the components of the total spin. *)
Definition total_spin (rt : nat -> CR) (s : spins CR) (X Y Z : mat CR) : Prop :=
  sum_op (sp_sys s) (sx_op rt 1) 0 Boson = Ok X /\ sum_op (sp_sys s) (sy_op rt 1) 0 Boson = Ok Y /\ sum_op (sp_sys s) (sz_op 1) 0 Boson = Ok Z.
(** [psi] has total spin [S]. *)
Definition has_spin (n : nat) (X Y Z : mat CR) (S : R) (psi : nat -> CR) : Prop :=
  forall a, (a < n)%nat -> kadd (kadd (apply n X (apply n X psi) a) (apply n Y (apply n Y psi) a)) (apply n Z (apply n Z psi) a) = @kmul CR _ (S * (S + 1), 0) (psi a).
