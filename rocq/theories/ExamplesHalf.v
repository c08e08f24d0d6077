(** Concrete cases that meet the hypotheses of C130..C132. *)
From Coq Require Import List Arith Lia Reals Lra ZArith QArith Bool.
From Verif Require Import Scalars Res Matrix SqMat SpecMat ModelBase ModelFermions OpsProofs FermiOps ModelGeometry ModelPhase ModelSymmetry SpecGeometry SpecSites
  ModelThermal SpecThermal Spectral SpecFermiGas ModelFreeLattice SpecFreeLattice SpecSpace SpaceMaps SpaceExist SpaceHubbard SpecHalf HalfHam HalfLattice SpinRotate SpinLattice SymAverage PropertiesHalf.
From Verif Require HamProofs FermiApi.
From Verif Require Import FreeThermal HalfModes SymBase.
Import ListNotations.
Local Open Scope R_scope.

(** A Hamiltonian of the Hubbard model has an eigenbasis. *)
Lemma solved nx ny o1 o2 u w t v mu m : (1 <= nx)%Z -> (1 <= ny)%Z -> (2 * nx <= 100000000000000)%Z -> (2 * ny <= 100000000000000)%Z ->
  (nx = 1%Z -> o1 = true) -> (ny = 1%Z -> o2 = true) -> (2 <= m)%nat ->
  exists g f H V E, c_square_geometry nx ny 0 0 o1 o2 = Ok g /\
    fermions_init (fgeom_of g) (number u) (numbers m t) None (numbers m mu) (number w) (numbers m v) m = Ok f /\
    createH f None = Ok H /\ eigenbasis H V E /\ fg_nsites (f_geom f) = Z.to_nat (nx * ny) /\ f_nspecies f = m.
Proof.
  intros X1 Y1 X2 Y2 O1 O2 M2. destruct (hubbard_exists nx ny o1 o2 u w t v mu m X1 Y1 X2 Y2 O1 O2) as (g & f & LG & made).
  pose proof (nsites_f nx ny o1 o2 g u w t v mu m f X1 Y1 X2 Y2 LG made) as NS. pose proof (nsp_f g u w t v mu m f made) as NP.
  destruct (SpaceHubbard.hamiltonian nx ny o1 o2 g u w t v mu m f X1 Y1 X2 Y2 LG made (or_introl M2)) as (H & EH & (R1 & R2) & Hh).
  destruct (spectral _ H Hh R1 R2) as (V & E & B).
  exists g, f, H, V, E. repeat (split; [assumption|]). assumption.
Qed.

(** C130: an open lattice of two by three sites with a repulsion of eight and a
    chemical potential of four, at temperature one. *)
Example ex_half : exists f H V E, createH f None = Ok H /\ eigenbasis H V E /\ fg_nsites (f_geom f) = 6%nat /\
  (forall i, (i < 6)%nat -> exists A, single_site_op (f_sys f) i 1 n_op Boson = Ok A /\ exp_vals_thermal V A E 1 = Ok (1 / 2)) /\
  (exists A, two_site_op (f_sys f) 0 0 2 0 cdag_op c_op Fermion = Ok A /\ exp_vals_thermal V A E 1 = Ok 0).
Proof.
  destruct (solved 2 3 true true 8 0 (fun _ => 1) (fun _ => 0) (fun _ => 4) 2 ltac:(lia) ltac:(lia) ltac:(lia) ltac:(lia) ltac:(reflexivity) ltac:(reflexivity) (le_n 2))
    as (g & f & H & V & E & LG & made & EH & B & NS & NP). change (Z.to_nat (2 * 3)) with 6%nat in NS.
  exists f, H, V, E. split; [exact EH|]. split; [exact B|]. split; [exact NS|].
  assert (MU : forall k, (k < 2)%nat -> 4 = 0 + (if (k <? 2)%nat then 8 / 2 else 0)).
  { intros k Hk. apply Nat.ltb_lt in Hk. rewrite Hk. lra. }
  split.
  - intros i Hi. destruct (single_ok (f_sys f) i 1 n_op Boson (HamProofs.f_two f) ltac:(discriminate) ltac:(change (i < fg_nsites (f_geom f))%nat; lia) ltac:(change (1 < f_nspecies f)%nat; lia) (sq2 _ _ _ _)) as (A & EA & _).
    exists A. split; [exact EA|].
    exact (C130_lattice_density 2 3 true true g 8 0 (fun _ => 1) (fun _ => 0) (fun _ => 4) 2 f ltac:(lia) ltac:(lia) ltac:(lia) ltac:(lia) LG made (or_introl (le_n 2)) H V E 1 EH B (or_introl R1_neq_R0)
      (or_introl eq_refl) (or_introl eq_refl) (fun _ _ => eq_refl) MU i 1%nat A Hi (le_n 2) EA).
  - destruct (two_ok (f_sys f) 0 0 2 0 cdag_op c_op Fermion (HamProofs.f_two f) ltac:(discriminate) ltac:(change (0 < fg_nsites (f_geom f))%nat; lia) ltac:(change (0 < f_nspecies f)%nat; lia)
      ltac:(change (2 < fg_nsites (f_geom f))%nat; lia) ltac:(change (0 < f_nspecies f)%nat; lia) (sq2 _ _ _ _) (sq2 _ _ _ _)) as (A & EA & _).
    exists A. split; [exact EA|].
    exact (C130_lattice_bond 2 3 true true g 8 0 (fun _ => 1) (fun _ => 0) (fun _ => 4) 2 f ltac:(lia) ltac:(lia) ltac:(lia) ltac:(lia) LG made (or_introl (le_n 2)) H V E 1 EH B (or_introl R1_neq_R0)
      (or_introl eq_refl) (or_introl eq_refl) (fun _ _ => eq_refl) MU 0%nat 2%nat 0%nat A ltac:(change (Z.to_nat (2 * 3)) with 6%nat; lia) ltac:(change (Z.to_nat (2 * 3)) with 6%nat; lia) ltac:(lia) ltac:(discriminate) ltac:(reflexivity) EA).
Qed.

(** C131: the three by three torus away from half filling; the quarter turn takes
    the bond between the first two sites to another one. *)
Example ex_torus_density : exists f H V E, createH f None = Ok H /\ eigenbasis H V E /\ fg_nsites (f_geom f) = 9%nat /\
  forall i j, (i < 9)%nat -> (j < 9)%nat -> exists A B, single_site_op (f_sys f) i 1 n_op Boson = Ok A /\ single_site_op (f_sys f) j 1 n_op Boson = Ok B /\
    exp_vals_thermal V A E 2 = exp_vals_thermal V B E 2.
Proof.
  destruct (solved 3 3 false false 8 0 (fun k => if (k =? 0)%nat then 1 else 2) (fun _ => 1) (fun _ => 3) 2 ltac:(lia) ltac:(lia) ltac:(lia) ltac:(lia) ltac:(discriminate) ltac:(discriminate) (le_n 2))
    as (g & f & H & V & E & LG & made & EH & B & NS & NP). change (Z.to_nat (3 * 3)) with 9%nat in NS.
  exists f, H, V, E. split; [exact EH|]. split; [exact B|]. split; [exact NS|]. intros i j Hi Hj.
  destruct (single_ok (f_sys f) i 1 n_op Boson (HamProofs.f_two f) ltac:(discriminate) ltac:(change (i < fg_nsites (f_geom f))%nat; lia) ltac:(change (1 < f_nspecies f)%nat; lia) (sq2 _ _ _ _)) as (A & EA & _).
  destruct (single_ok (f_sys f) j 1 n_op Boson (HamProofs.f_two f) ltac:(discriminate) ltac:(change (j < fg_nsites (f_geom f))%nat; lia) ltac:(change (1 < f_nspecies f)%nat; lia) (sq2 _ _ _ _)) as (A' & EA' & _).
  exists A, A'. split; [exact EA|]. split; [exact EA'|].
  assert (T2 : 2 <> 0) by lra.
  exact (C131_uniform 3 3 false false g 8 0 (fun k => if (k =? 0)%nat then 1 else 2) (fun _ => 1) (fun _ => 3) 2 f ltac:(lia) ltac:(lia) ltac:(lia) ltac:(lia) LG made (or_introl (le_n 2)) H V E 2 EH B (or_introl T2)
    i j 1%nat A A' eq_refl eq_refl Hi Hj (le_n 2) EA EA').
Qed.
Example ex_turn_keeps : keeps 3 3 true true (quarter_turn 3) /\ keeps 3 3 false false (shift 1 2) /\
  (let moved i := spot_at 3 3 (move_z (quarter_turn 3) (site_x 3 i, site_y 3 i)) in (moved 0%nat, moved 1%nat) = (6%nat, 3%nat)).
Proof.
  split; [|split]; [| | reflexivity]; unfold keeps, quarter_turn, shift; cbn [m_swap m_sx m_sy m_a m_b]; split; try split; try discriminate; intros; try split; reflexivity.
Qed.

(** C132: three sites in a row with attraction, filled unevenly, at a temperature
    of one half. *)
Example ex_spin : exists f H V E, spin_symmetric f /\ createH f None = Ok H /\ eigenbasis H V E /\ fg_nsites (f_geom f) = 3%nat /\
  exists A B, two_site_op (f_sys f) 0 0 2 0 cdag_op c_op Fermion = Ok A /\ two_site_op (f_sys f) 0 1 2 1 cdag_op c_op Fermion = Ok B /\
    exp_vals_thermal V A E (1 / 2) = exp_vals_thermal V B E (1 / 2).
Proof.
  destruct (solved 3 1 true true (-4) 0 (fun _ => 1) (fun _ => 0) (fun _ => 1) 2 ltac:(lia) ltac:(lia) ltac:(lia) ltac:(lia) ltac:(reflexivity) ltac:(reflexivity) (le_n 2))
    as (g & f & H & V & E & LG & made & EH & B & NS & NP). change (Z.to_nat (3 * 1)) with 3%nat in NS.
  assert (SS : spin_symmetric f) by exact (C132_lattice 3 1 true true g (-4) 0 (fun _ => 1) (fun _ => 0) (fun _ => 1) 2 f LG made (le_n 2) eq_refl eq_refl eq_refl eq_refl).
  exists f, H, V, E. split; [exact SS|]. split; [exact EH|]. split; [exact B|]. split; [exact NS|].
  destruct (two_ok (f_sys f) 0 0 2 0 cdag_op c_op Fermion (HamProofs.f_two f) ltac:(discriminate) ltac:(change (0 < fg_nsites (f_geom f))%nat; lia) ltac:(change (0 < f_nspecies f)%nat; lia)
      ltac:(change (2 < fg_nsites (f_geom f))%nat; lia) ltac:(change (0 < f_nspecies f)%nat; lia) (sq2 _ _ _ _) (sq2 _ _ _ _)) as (A & EA & _).
  destruct (two_ok (f_sys f) 0 1 2 1 cdag_op c_op Fermion (HamProofs.f_two f) ltac:(discriminate) ltac:(change (0 < fg_nsites (f_geom f))%nat; lia) ltac:(change (1 < f_nspecies f)%nat; lia)
      ltac:(change (2 < fg_nsites (f_geom f))%nat; lia) ltac:(change (1 < f_nspecies f)%nat; lia) (sq2 _ _ _ _) (sq2 _ _ _ _)) as (A' & EA' & _).
  exists A, A'. split; [exact EA|]. split; [exact EA'|]. assert (T2 : 1 / 2 <> 0) by lra.
  exact (C132_bond f SS H V E EH B (1 / 2) (or_introl T2) 0%nat 2%nat A A' ltac:(lia) ltac:(lia) EA EA').
Qed.
