(** The lattices of the comparison with the Fermi gas exist, and their
    Hamiltonians have orthonormal bases of eigenvectors. *)
From Coq Require Import List Arith Lia Reals Lra ZArith QArith Qabs Qreals Bool.
From Verif Require Import Scalars Res Sums Matrix ModelBase ModelFermions ModelGeometry ModelPhase ModelSymmetry SymBase GeoSquare GeoApi GeoTotal SpecGeometry
  ModelThermal SpecThermal SpecFermiGas ModelFreeLattice SpecFreeLattice FockProofs HamProofs FermiOps FermiApi FreeLattice Spectral.
Import ListNotations.
Local Open Scope R_scope.

Lemma real_kre (z : CR) : kconj (kre z) = kre z.
Proof. apply injective_projections; cbn; ring. Qed.

Section Exist.
  Variables (nx ny : Z) (o1 o2 : bool) (u t : R) (m : nat) (mu : nat -> R).
  Hypothesis X1 : (1 <= nx)%Z. Hypothesis Y1 : (1 <= ny)%Z.
  Hypothesis X2 : (2 * nx <= 100000000000000)%Z. Hypothesis Y2 : (2 * ny <= 100000000000000)%Z.
  Hypothesis X3 : (nx = 1%Z -> o1 = true). Hypothesis Y3 : (ny = 1%Z -> o2 = true).
  Lemma lattice_system : exists g f,
    c_square_geometry nx ny 0 0 o1 o2 = Ok g /\
    fermions_init (fgeom_of g) (number u) (number t) None (numbers m mu) (number 0) (number 0) m = Ok f.
  Proof.
    destruct (square_total nx ny 0 0 o1 o2 X1 Y1 X2 Y2 X3 Y3) as (g & LG). exists g.
    destruct (square_neighbours phase_matrix valid_phases nx ny 0 0 o1 o2 g X1 Y1 X2 Y2 LG) as (_ & _ & _ & _ & _ & _ & NB).
    assert (PH : forall i j, (i < g_n g)%nat -> (j < g_n g)%nat -> ent (g_phase g) i j = c1).
    { intros i j Hi Hj. pose proof LG as LG'. unfold c_square_geometry, square_geometry in LG'.
      destruct (_ && _) in LG'; [discriminate|]. destruct (_ && _) in LG'; [discriminate|].
      destruct (phases_hermitian _ _ _ _ _ _ _ _ _ g LG' (or_intror (px_long nx X1)) (or_intror (py_long ny Y1))) as (_ & _ & PP).
      destruct (PP i j Hi Hj) as (_ & _ & P1). apply P1; reflexivity. }
    unfold fermions_init, init_ts. change (nd_size (number t)) with 1%nat. rewrite orb_true_r. unfold hopping_mat.
    match goal with |- context[if ?b then Ok ?h else _] => assert (C : b = true); [|rewrite C] end.
    { apply forallb_forall. intros k _. apply forallb_forall. intros i Hi. apply forallb_forall. intros j Hj. apply in_seq in Hi, Hj. cbn [fgeom_of fg_nsites] in Hi, Hj.
      cbn [fgeom_of fg_adj fg_phase]. rewrite !PH by lia. rewrite (proj1 (proj2 (NB j i ltac:(lia) ltac:(lia)))). rewrite real_kre. unfold kneb. destruct (keq_dec _ _); [reflexivity | congruence]. }
    cbn [bind]. unfold init_us, init_same, init_pot. cbn [nd_size number ModelFermions.shape fold_right Nat.mul Nat.add Nat.eqb orb bind].
    assert (M : exists r, init_mus m (numbers m mu) = Ok r).
    { unfold init_mus, numbers, nd_size. cbn [ModelFermions.shape fold_right]. rewrite Nat.mul_1_r, Nat.eqb_refl. destruct (m =? 1)%nat; eauto. }
    destruct M as (r & ->). cbn [bind n_projector]. eexists. split; [exact LG | reflexivity].
  Qed.
End Exist.

Lemma hubbard_hermitian (fg : fgeom CR) u t m mu f :
  fermions_init fg (number u) (number t) None (numbers m mu) (number 0) (number 0) m = Ok f ->
  (2 <= m)%nat \/ u = 0 ->
  exists H, createH f None = Ok H /\ nrow H = nstates (f_sys f) /\ ncol H = nstates (f_sys f) /\ hermitian (nstates (f_sys f)) H.
Proof.
  intros made species. unfold fermions_init in made.
  apply bind_ok in made as (ts & E1 & M1). apply bind_ok in M1 as (us & E2 & M2). apply bind_ok in M2 as (sm & E3 & M3).
  apply bind_ok in M3 as (ms & E4 & M4). apply bind_ok in M4 as (pt & E5 & M5). apply bind_ok in M5 as (pr & E6 & M6).
  injection M6 as <-.
  unfold init_ts in E1. change (nd_size (number t)) with 1%nat in E1. rewrite orb_true_r in E1. unfold hopping_mat in E1.
  destruct (forallb _ (seq 0 m)) in E1; [|discriminate]. injection E1 as <-.
  cbn in E2. injection E2 as <-. cbn in E3. injection E3 as <-. cbn in E5. injection E5 as <-.
  set (f := Ferm _ _ _ _ _ _ _ _).
  destruct (hermitian_api f None) as (H & EH & SQ & HH).
  - apply nstates2, f_two.
  - unfold us_ok. cbn. destruct species as [L| ->]; [left; exact L | right; reflexivity].
  - unfold real_couplings. repeat split; cbn [f_ts f_us f_same f_mus f_pot f]; intros; try reflexivity.
    all: try apply real_kre.
    all: try (apply injective_projections; cbn; ring).
    unfold init_mus in E4. destruct (_ =? 1)%nat in E4; [injection E4 as <-; apply injective_projections; cbn; ring|].
    destruct (_ =? m)%nat in E4; [injection E4 as <-; apply injective_projections; cbn; ring | discriminate].
  - exists H. split; [exact EH|]. destruct SQ as [S1 S2]. cbn [meye nrow] in S1, S2. split; [exact S1|]. split; [exact S2|].
    intros i j Hi Hj. destruct HH as (_ & _ & HH). specialize (HH i j). cbn [madj nrow ncol ent] in HH. symmetry. apply HH; lia.
Qed.

Lemma lattice_exists nx ny o1 o2 u t m mu : (1 <= nx)%Z -> (1 <= ny)%Z ->
  (2 * nx <= 100000000000000)%Z -> (2 * ny <= 100000000000000)%Z -> (nx = 1%Z -> o1 = true) -> (ny = 1%Z -> o2 = true) -> (2 <= m)%nat \/ u = 0 ->
  exists g f H V E, c_square_geometry nx ny 0 0 o1 o2 = Ok g /\
    fermions_init (fgeom_of g) (number u) (number t) None (numbers m mu) (number 0) (number 0) m = Ok f /\
    createH f None = Ok H /\ eigenbasis H V E.
Proof.
  intros X1 Y1 X2 Y2 X3 Y3 SP. destruct (lattice_system nx ny o1 o2 u t m mu X1 Y1 X2 Y2 X3 Y3) as (g & f & LG & MD).
  destruct (hubbard_hermitian _ _ _ _ _ _ MD SP) as (H & EH & R1 & R2 & HH). destruct (spectral _ H HH R1 R2) as (V & E & B).
  exists g, f, H, V, E. tauto.
Qed.
