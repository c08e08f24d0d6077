(** Vocabulary for statements about motion with one frequency, written without reference to
    the model. *)
From Coq Require Import List Arith Reals Bool.
From Verif Require Import Scalars Matrix ModelSpins SpecSpins SpecThermal.
Import ListNotations.
Local Open Scope R_scope.

(** [O] takes states of energy [e] to states of energy [e + c]: [H O = O H + c O]. *)
Definition shifts (n : nat) (H O : mat CR) (c : R) : Prop :=
  forall psi a, (a < n)%nat ->
    apply n H (apply n O psi) a = kadd (apply n O (apply n H psi) a) (@kmul CR _ (c, 0) (apply n O psi a)).
(** Expectation value, with its imaginary part. *)
Definition amplitude (n : nat) (O : mat CR) (psi : nat -> CR) : CR := inner n psi (apply n O psi).

(** Vectors of space. *)
Record vec := Vec { vx : R; vy : R; vz : R }.
Definition vdot (a b : vec) : R := vx a * vx b + vy a * vy b + vz a * vz b.
Definition vcross (a b : vec) : vec :=
  Vec (vy a * vz b - vz a * vy b) (vz a * vx b - vx a * vz b) (vx a * vy b - vy a * vx b).
(** The vector [v], turned by the angle [phi] about the unit vector [u]. *)
Definition turned (u : vec) (phi : R) (v : vec) : vec :=
  let c := cos phi in let s := sin phi in let p := vdot u v * (1 - cos phi) in
  Vec (c * vx v + s * vx (vcross u v) + p * vx u)
      (c * vy v + s * vy (vcross u v) + p * vy u)
      (c * vz v + s * vz (vcross u v) + p * vz u).
(** Expectation values of three operators. *)
Definition spin_vector (n : nat) (X Y Z : mat CR) (psi : nat -> CR) : vec :=
  Vec (expect n X psi) (expect n Y psi) (expect n Z psi).
(** Couplings are the same along the three axes; on every site the field is [h]. *)
Definition in_field (s : spins CR) (J : nat -> nat -> R) (h : vec) : Prop :=
  let n := sg_nsites (sp_geom s) in
  (forall i j, (j < i < n)%nat -> sp_jx s i j = (J i j, 0) /\ sp_jy s i j = (J i j, 0) /\ sp_jz s i j = (J i j, 0)) /\
  (forall i, (i < n)%nat -> sp_hx s i = (vx h, 0) /\ sp_hy s i = (vy h, 0) /\ sp_hz s i = (vz h, 0)).
Definition scaled (w : R) (u : vec) : vec := Vec (w * vx u) (w * vy u) (w * vz u).
(** [O] is the sum of the operators [A i] of the sites, with opposite signs on the two
    classes of sites. *)
Definition alternating (sites n : nat) (side : nat -> bool) (A : nat -> mat CR) (O : mat CR) : Prop :=
  nrow O = n /\ ncol O = n /\
  forall a b, (a < n)%nat -> (b < n)%nat -> ent O a b = ksum sites (fun i => @kmul CR _ ((if side i then 1 else -1), 0) (ent (A i) a b)).
