(** The models of the theorems on motions of lattices exist. *)
From Coq Require Import List Arith Lia Reals Lra ZArith QArith Qabs Qreals Bool.
From Verif Require Import Scalars Res Sums Matrix ModelBase ModelFermions ModelGeometry ModelPhase ModelSymmetry SymBase GeoSquare GeoApi GeoTotal SpecGeometry
  SpecFermiGas ModelFreeLattice SpecFreeLattice SpecSites ModelSites SpecSpace SpaceMaps FreeExist.
Import ListNotations.
Local Open Scope R_scope.

Theorem hubbard_exists nx ny o1 o2 u w (t v mu : nat -> R) m : (1 <= nx)%Z -> (1 <= ny)%Z ->
  (2 * nx <= 100000000000000)%Z -> (2 * ny <= 100000000000000)%Z -> (nx = 1%Z -> o1 = true) -> (ny = 1%Z -> o2 = true) -> exists g f,
    c_square_geometry nx ny 0 0 o1 o2 = Ok g /\
    fermions_init (fgeom_of g) (number u) (numbers m t) None (numbers m mu) (number w) (numbers m v) m = Ok f.
Proof.
  intros X1 Y1 X2 Y2 X3 Y3. destruct (square_total nx ny 0 0 o1 o2 X1 Y1 X2 Y2 X3 Y3) as (g & LG). exists g.
  destruct (square_neighbours phase_matrix valid_phases nx ny 0 0 o1 o2 g X1 Y1 X2 Y2 LG) as (_ & _ & _ & _ & _ & _ & NB).
  assert (PH : forall i j, (i < g_n g)%nat -> (j < g_n g)%nat -> ent (g_phase g) i j = c1).
  { intros i j Hi Hj. pose proof LG as LG'. unfold c_square_geometry, square_geometry in LG'.
    destruct (_ && _) in LG'; [discriminate|]. destruct (_ && _) in LG'; [discriminate|].
    destruct (phases_hermitian _ _ _ _ _ _ _ _ _ g LG' (or_intror (px_long nx X1)) (or_intror (py_long ny Y1))) as (_ & _ & PP).
    destruct (PP i j Hi Hj) as (_ & _ & P1). apply P1; reflexivity. }
  assert (SZ : forall x, nd_size (numbers m x) = m) by (intros x; unfold nd_size, numbers; cbn [ModelFermions.shape fold_right]; apply Nat.mul_1_r).
  unfold fermions_init, init_ts. rewrite SZ, Nat.eqb_refl. cbn [orb]. unfold hopping_mat.
  match goal with |- context[if ?b then Ok ?h else _] => assert (C : b = true); [|rewrite C] end.
  { apply forallb_forall. intros k _. apply forallb_forall. intros i Hi. apply forallb_forall. intros j Hj. apply in_seq in Hi, Hj. cbn [fgeom_of fg_nsites] in Hi, Hj.
    cbn [fgeom_of fg_adj fg_phase]. rewrite !PH by lia. rewrite (proj1 (proj2 (NB j i ltac:(lia) ltac:(lia)))). rewrite real_kre. unfold kneb. destruct (keq_dec _ _); [reflexivity | congruence]. }
  cbn [bind]. unfold init_us, init_same, init_pot. rewrite !SZ, (Nat.eqb_refl m), orb_true_r.
  cbn [nd_size number ModelFermions.shape fold_right Nat.mul Nat.add Nat.eqb orb bind].
  assert (M : exists r, init_mus m (numbers m mu) = Ok r).
  { unfold init_mus. rewrite SZ, Nat.eqb_refl. destruct (m =? 1)%nat; eauto. }
  destruct M as (r & ->). unfold init_pot. cbn [nd_size number ModelFermions.shape fold_right Nat.mul Nat.add Nat.eqb orb bind n_projector].
  eexists. split; [exact LG | reflexivity].
Qed.
