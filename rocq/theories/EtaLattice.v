(** Pairs of particles on rectangular lattices: proofs. *)
From Coq Require Import List Arith Lia Reals Lra ZArith Bool QArith.
From Verif Require Import Scalars Res Matrix SqMat ModelBase ModelFermions ModelGeometry ModelPhase ModelSymmetry SymBase ModelThermal SpecThermal
  SpecFermiGas SpecHalf SpecEta ModelFreeLattice SpecFreeLattice SpecSpace SpaceHubbard HalfLattice.
Local Open Scope R_scope.

Theorem lattice_pair nx ny o1 o2 (g : geometry CR) u w t v mu m f :
  (1 <= nx)%Z -> (1 <= ny)%Z -> (2 * nx <= 100000000000000)%Z -> (2 * ny <= 100000000000000)%Z ->
  c_square_geometry nx ny 0 0 o1 o2 = Ok g ->
  fermions_init (fgeom_of g) (number u) (numbers m t) None (numbers m mu) (number w) (numbers m v) m = Ok f ->
  o1 = true \/ Z.even nx = true -> o2 = true \/ Z.even ny = true ->
  (2 <= m)%nat -> t 0%nat = t 1%nat -> v 0%nat = 0 -> v 1%nat = 0 -> pair_symmetric f (chess ny) (u + (w - mu 0%nat) + (w - mu 1%nat)).
Proof.
  intros X1 Y1 X2 Y2 LG made P1 P2 m2 T01 V0 V1. destruct (couplings g u w t v mu m f made) as (FG & NS & FT & FU & FV & FM & FP).
  assert (K0 : (0 < m)%nat) by lia. assert (K1 : (1 < m)%nat) by lia. split; [lia|]. split; [|split; [|split]].
  - intros i j Hij. rewrite !FT by assumption. rewrite T01. reflexivity.
  - intros i j Hij. apply (chess_coloured nx ny o1 o2 g u w t v mu m f X1 Y1 X2 Y2 LG made P1 P2 i j 0%nat Hij). lia.
  - intros i j Hij. rewrite !FV by assumption. rewrite V0, V1. split; apply injective_projections; cbn; ring.
  - intros i Hi. rewrite !FP, !FM, FU by assumption. apply injective_projections; cbn; ring.
Qed.
