(** Vocabulary for statements about fermion systems that differ by signs of the hopping or
    by the scale of energies, written without reference to the many-particle matrices. *)
From Coq Require Import List Arith Reals Bool.
From Verif Require Import Scalars Res Matrix SpecMat ModelBase ModelFermions ModelThermal SpecThermal SpecFermiGas.
Import ListNotations.
Local Open Scope R_scope.

(** All couplings of [f'] are [r] times those of [f]; the hopping between two sites moreover
    has the product of the signs [w] of the two sites. *)
Definition regauged (r : R) (w : nat -> nat -> R) (f f' : fermions CR) : Prop :=
  let n := fg_nsites (f_geom f) in let m := f_nspecies f in
  f_geom f' = f_geom f /\ f_nspecies f' = f_nspecies f /\
  (forall i k, (i < n)%nat -> (k < m)%nat -> w i k = 1 \/ w i k = -1) /\
  (forall i j k, (j < i < n)%nat -> (k < m)%nat -> f_ts f' i j k = kmul (re (r * (w i k * w j k))) (f_ts f i j k)) /\
  (forall i, (i < n)%nat -> f_us f' i = kmul (re r) (f_us f i)) /\
  (forall i j k, (j <= i < n)%nat -> (k < m)%nat -> f_same f' i j k = kmul (re r) (f_same f i j k)) /\
  (forall k, (k < m)%nat -> f_mus f' k = kmul (re r) (f_mus f k)) /\
  (forall i k, (i < n)%nat -> (k < m)%nat -> f_pot f' i k = kmul (re r) (f_pot f i k)).

(** The same couplings but the hopping, which has the opposite sign. *)
Definition opposite_hopping (f f' : fermions CR) : Prop :=
  let n := fg_nsites (f_geom f) in let m := f_nspecies f in
  f_geom f' = f_geom f /\ f_nspecies f' = f_nspecies f /\
  (forall i j k, (j < i < n)%nat -> (k < m)%nat -> f_ts f' i j k = kopp (f_ts f i j k)) /\
  (forall i, (i < n)%nat -> f_us f' i = f_us f i) /\
  (forall i j k, (j <= i < n)%nat -> (k < m)%nat -> f_same f' i j k = f_same f i j k) /\
  (forall k, (k < m)%nat -> f_mus f' k = f_mus f k) /\
  (forall i k, (i < n)%nat -> (k < m)%nat -> f_pot f' i k = f_pot f i k).
(** The same hopping, everything else with the opposite sign. *)
Definition opposite_energies (f f' : fermions CR) : Prop :=
  let n := fg_nsites (f_geom f) in let m := f_nspecies f in
  f_geom f' = f_geom f /\ f_nspecies f' = f_nspecies f /\
  (forall i j k, (j < i < n)%nat -> (k < m)%nat -> f_ts f' i j k = f_ts f i j k) /\
  (forall i, (i < n)%nat -> f_us f' i = kopp (f_us f i)) /\
  (forall i j k, (j <= i < n)%nat -> (k < m)%nat -> f_same f' i j k = kopp (f_same f i j k)) /\
  (forall k, (k < m)%nat -> f_mus f' k = kopp (f_mus f k)) /\
  (forall i k, (i < n)%nat -> (k < m)%nat -> f_pot f' i k = kopp (f_pot f i k)).

(** The basis states of the whole space, or those a projector selects. *)
Definition selects (f : fermions CR) (pr : option (mat CR)) (idx : list nat) : Prop :=
  match pr with
  | None => idx = seq 0 (nstates (f_sys f))
  | Some P => rows_are (nstates (f_sys f)) P idx /\ forall k, In k idx -> (k < nstates (f_sys f))%nat
  end.
(** An operator as it is used with these states. *)
Definition used (pr : option (mat CR)) (A O : mat CR) : Prop :=
  match pr with None => O = A | Some P => sandwich P A = Ok O end.
(** An operator that is measured and the sign it gets: the number of particles on a site,
    the product of two such numbers, and the hop of a particle. *)
Inductive measured (f : fermions CR) (w : nat -> nat -> R) : mat CR -> R -> Prop :=
| m_number i k A : (i < fg_nsites (f_geom f))%nat -> (k < f_nspecies f)%nat -> single_site_op (f_sys f) i k n_op Boson = Ok A -> measured f w A 1
| m_numbers i k j l A : (i < fg_nsites (f_geom f))%nat -> (k < f_nspecies f)%nat -> (j < fg_nsites (f_geom f))%nat -> (l < f_nspecies f)%nat ->
    two_site_op (f_sys f) i k j l n_op n_op Boson = Ok A -> measured f w A 1
| m_hop i j k A : (i < fg_nsites (f_geom f))%nat -> (j < fg_nsites (f_geom f))%nat -> (k < f_nspecies f)%nat -> i <> j ->
    two_site_op (f_sys f) i k j k cdag_op c_op Fermion = Ok A -> measured f w A (w i k * w j k).
(** Column [k] of a matrix of states has a single entry. *)
Definition single_config (S : mat CR) (k : nat) : Prop :=
  exists p, forall q, (q < nrow S)%nat -> q <> p -> ent S q k = k0.
