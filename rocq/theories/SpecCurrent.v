(** Vocabulary for currents on clusters with open boundaries. *)
From Coq Require Import List Arith Reals QArith Qabs Qreals.
From Verif Require Import Scalars Res Matrix ModelBase ModelFermions SpecThermal.
Import ListNotations.
Local Open Scope R_scope.

(** [x] and [y] are coordinates of the sites; neighbours are one apart, along the first or
    along the second axis, and the distances of the geometry are the differences of the
    coordinates. *)
Definition open_bonds (g : fgeom CR) (x y : nat -> Q) : Prop :=
  forall i j, (i < fg_nsites g)%nat -> (j < fg_nsites g)%nat -> fg_adj g i j = true ->
    fg_adj g j i = true /\ (fg_xdist g i j == x i - x j)%Q /\ (fg_ydist g i j == y i - y j)%Q /\
    ((Qabs (x i - x j) == 1 /\ y i - y j == 0) \/ (Qabs (y i - y j) == 1 /\ x i - x j == 0))%Q.
(** Amplitude [tx] along the first axis and [ty] along the second. *)
Definition hops_along (f : fermions CR) (tx ty : CR) : Prop :=
  forall i j s, (j < i < fg_nsites (f_geom f))%nat -> (s < f_nspecies f)%nat ->
    f_ts f i j s = if fg_adj (f_geom f) i j then (if Qeq_bool (fg_ydist (f_geom f) i j) 0 then tx else ty) else k0.
(** [X] is the sum over the particles of the coordinate [x]. *)
Definition position_op (f : fermions CR) (x : nat -> R) (X : mat CR) : Prop :=
  let ns := fg_nsites (f_geom f) in
  square (nstates (f_sys f)) X /\
  exists O : nat -> nat -> mat CR, (forall i s, (i < ns)%nat -> (s < f_nspecies f)%nat -> single_site_op (f_sys f) i s n_op Boson = Ok (O i s)) /\
    forall a b, (a < nstates (f_sys f))%nat -> (b < nstates (f_sys f))%nat ->
      ent X a b = ksum ns (fun i => ksum (f_nspecies f) (fun s => @kmul CR _ (x i, 0) (ent (O i s) a b))).
(** Coordinate along an axis. *)
Definition along (d : axis) (x y : nat -> Q) (i : nat) : R := match d with AxisX => Q2R (x i) | AxisY => Q2R (y i) end.
(** The number is the direction of the axis. *)
Definition first_part (d : axis) : CR := match d with AxisX => k1 | AxisY => k0 end.
Definition second_part (d : axis) : CR := match d with AxisX => k0 | AxisY => k1 end.
