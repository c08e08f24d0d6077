(** Rotations of the spin on rectangular lattices: proofs. *)
From Coq Require Import List Arith Lia Reals Lra ZArith Bool QArith.
From Verif Require Import Scalars Res Matrix SqMat ModelBase ModelFermions ModelGeometry ModelPhase ModelSymmetry SymBase ModelThermal SpecThermal
  SpecFermiGas SpecHalf ModelFreeLattice SpecFreeLattice SpecSpace SpaceHubbard SpinRotate.
Local Open Scope R_scope.

Theorem lattice_spin nx ny o1 o2 (g : geometry CR) u w t v mu m f :
  c_square_geometry nx ny 0 0 o1 o2 = Ok g ->
  fermions_init (fgeom_of g) (number u) (numbers m t) None (numbers m mu) (number w) (numbers m v) m = Ok f ->
  (2 <= m)%nat -> t 0%nat = t 1%nat -> mu 0%nat = mu 1%nat -> v 0%nat = 0 -> v 1%nat = 0 -> spin_symmetric f.
Proof.
  intros LG made m2 T01 M01 V0 V1. destruct (couplings g u w t v mu m f made) as (FG & NS & FT & FU & FV & FM & FP).
  assert (K0 : (0 < m)%nat) by lia. assert (K1 : (1 < m)%nat) by lia. split; [lia|]. split; [|split; [|split]].
  - intros i j Hij. rewrite !FT by assumption. rewrite T01. reflexivity.
  - rewrite !FM by assumption. rewrite M01. reflexivity.
  - intros i Hi. rewrite !FP by assumption. reflexivity.
  - intros i j Hij. rewrite !FV by assumption. rewrite V0, V1. split; apply injective_projections; cbn; ring.
Qed.
