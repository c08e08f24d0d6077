(** Concrete cases that meet the hypotheses of C133..C135. *)
From Coq Require Import List Arith Lia Reals Lra ZArith QArith Bool Permutation.
From Verif Require Import Scalars Res Matrix SqMat SpecMat ModelBase ModelFermions ModelSpins OpsProofs FermiOps ModelGeometry ModelPhase ModelSymmetry SpecGeometry
  ModelThermal SpecThermal Spectral SpecFermiGas SpecFree ModelFreeLattice SpecFreeLattice SpaceExist SpaceHubbard ModelSpinLattice SpecJordan SpinOps SpinJordanLattice SpecRect PropertiesJordan.
From Verif Require HamProofs.
From Verif Require Import FreeThermal SymBase.
Import ListNotations.
Local Open Scope R_scope.

(** Systems of one species without [u], and their eigenbases. *)
Lemma solved_one nx ny o1 o2 w t v mu : (1 <= nx)%Z -> (1 <= ny)%Z -> (2 * nx <= 100000000000000)%Z -> (2 * ny <= 100000000000000)%Z ->
  (nx = 1%Z -> o1 = true) -> (ny = 1%Z -> o2 = true) ->
  exists g f H V E, c_square_geometry nx ny 0 0 o1 o2 = Ok g /\
    fermions_init (fgeom_of g) (number 0) (numbers 1 t) None (numbers 1 mu) (number w) (numbers 1 v) 1 = Ok f /\
    createH f None = Ok H /\ eigenbasis H V E.
Proof.
  intros X1 Y1 X2 Y2 O1 O2. destruct (hubbard_exists nx ny o1 o2 0 w t v mu 1 X1 Y1 X2 Y2 O1 O2) as (g & f & LG & made).
  destruct (SpaceHubbard.hamiltonian nx ny o1 o2 g 0 w t v mu 1 f X1 Y1 X2 Y2 LG made (or_intror eq_refl)) as (H & EH & (R1 & R2) & Hh).
  destruct (spectral _ H Hh R1 R2) as (V & E & B).
  exists g, f, H, V, E. repeat (split; [assumption|]). assumption.
Qed.

(** C133: a chain of four sites with hopping one, a repulsion of two between
    neighbours and a chemical potential of one half is a chain of spins in a field
    that differs at the ends; the energies differ by the offset. *)
Example ex_chain : exists g f s Hf Hs V E, c_square_geometry 4 1 0 0 true true = Ok g /\
  spins_init (fun _ => false) (sgeom_of g) (JNum (real (- (1)))) (JNum (real (- (1)))) (JNum (real (2 / 2))) (HNum c0) (HNum c0)
    (HArr (map (fun i => real (0 - 1 / 2 + 2 / 2 * INR (chain_degree 4 i))) (seq 0 4))) false 1 = Ok s /\
  createH f None = Ok Hf /\ sp_createH (fun k => real (sqrt (INR k))) s None = Ok Hs /\ eigenbasis Hf V E /\
  eigenbasis Hs V (map (fun e => e + - (1 / 2)) E) /\ same_chain s f.
Proof.
  destruct (solved_one 4 1 true true 0 (fun _ => 1) (fun _ => 2) (fun _ => 1 / 2) ltac:(lia) ltac:(lia) ltac:(lia) ltac:(lia) ltac:(reflexivity) ltac:(reflexivity))
    as (g & f & H & V & E & LG & MF & EH & B).
  destruct (C133_open 4 g 0 1 2 (1 / 2) (fun _ => false) ltac:(lia) ltac:(lia) LG f MF) as (s & MS & SC & OFF). change (Z.to_nat 4) with 4%nat in *.
  assert (R1 : (fun k => real (sqrt (INR k))) 1%nat = c1) by (cbn; rewrite sqrt_1; reflexivity).
  destruct (C133_hamiltonian CR _ (fun k => real (sqrt (INR k))) R1 s f SC) as (Hs & Hf & EHs & EHf & _). rewrite EH in EHf. injection EHf as <-.
  exists g, f, s, H, Hs, V, E. split; [exact LG|]. split; [exact MS|]. split; [exact EH|]. split; [exact EHs|]. split; [exact B|]. split; [|exact SC].
  refine (C133_energies _ s f Hs H (- (1 / 2)) R1 SC EHs EH _ V E B). rewrite OFF. f_equal. cbn. field.
Qed.
(** The field is one half at the ends and three halves inside. *)
Example ex_fields : map (chain_degree 4) (seq 0 4) = [1; 2; 2; 1]%nat. Proof. reflexivity. Qed.

(** C134: the levels of two by three sites, closed along the second side; the two
    sites of the first side have one bond. *)
Example ex_rect : exists f H V E, createH f None = Ok H /\ eigenbasis H V E /\ length E = 64%nat /\
  Permutation E (subset_sums (rect_levels false false 2 3 1 0)) /\
  exists A, single_site_op (f_sys f) 4 0 n_op Boson = Ok A /\ exp_vals_thermal V A E 1 = Ok (fst (filled 1 (rect_waves false false 2 3) (rect_levels false false 2 3 1 0) 4 4)).
Proof.
  destruct (solved_one 2 3 false false 0 (fun _ => 1) (fun _ => 0) (fun _ => 0) ltac:(lia) ltac:(lia) ltac:(lia) ltac:(lia) ltac:(discriminate) ltac:(discriminate))
    as (g & f & H & V & E & LG & MF & EH & B).
  pose proof (C134_spectrum 2 3 false false g 0 (fun _ => 1) (fun _ => 0) 1 f ltac:(lia) ltac:(lia) ltac:(lia) ltac:(lia) LG MF H V E EH B) as P.
  cbn [seq flat_map] in P. rewrite app_nil_r, Rminus_0_r in P.
  exists f, H, V, E. split; [exact EH|]. split; [exact B|]. split; [rewrite (Permutation_length P), FreeSpectrum.subsets_length; unfold rect_levels; rewrite map_length, seq_length; reflexivity|].
  split; [exact P|].
  destruct (couplings g 0 0 (fun _ => 1) (fun _ => 0) (fun _ => 0) 1 f MF) as (FG & FS & _).
  pose proof (RectFree.sites_rect 2 3 false false g 0 (fun _ => 1) (fun _ => 0) 1 f ltac:(lia) ltac:(lia) ltac:(lia) ltac:(lia) LG MF) as NS.
  destruct (single_ok (f_sys f) 4 0 n_op Boson (HamProofs.f_two f) ltac:(discriminate) ltac:(change (4 < fg_nsites (f_geom f))%nat; lia) ltac:(change (0 < f_nspecies f)%nat; lia) (sq2 _ _ _ _)) as (A & EA & _).
  exists A. split; [exact EA|].
  pose proof (C134_density 2 3 false false g 0 (fun _ => 1) (fun _ => 0) 1 f ltac:(lia) ltac:(lia) ltac:(lia) ltac:(lia) LG MF H V E EH B 0%nat 1 4%nat A R1_neq_R0 ltac:(lia) ltac:(lia) EA) as D.
  rewrite Rminus_0_r in D. exact D.
Qed.
Example ex_sides : side_level false 2 0 = 1 /\ side_level false 2 1 = -1 /\ side_level false 3 0 = 2 /\ side_level true 1 0 = 0.
Proof.
  unfold side_level, ring_side, momentum. cbn [negb andb Nat.leb]. repeat split.
  - replace (PI * INR 1 / INR 3) with (PI / 3) by (cbn; field). rewrite cos_PI3. field.
  - replace (PI * INR 2 / INR 3) with (2 * (PI / 3)) by (cbn; field). rewrite cos_2PI3. field.
  - replace (2 * PI * INR 0 / INR 3) with 0 by (cbn; field). rewrite cos_0. ring.
  - replace (PI * INR 1 / INR 2) with (PI / 2) by (cbn; field). rewrite cos_PI2. ring.
Qed.

(** C135: two spins coupled by two in a field of three: the levels are 3 + 2 and
    3 - 2, and the energies -3, 2, -2 and 3. *)
Example ex_two_spins : exists g s Hs Vs Es, c_square_geometry 2 1 0 0 true true = Ok g /\
  spins_init (fun _ => false) (sgeom_of g) (JNum (real 2)) (JNum (real 2)) (JNum c0) (HNum c0) (HNum c0) (HNum (real 3)) false 1 = Ok s /\
  sp_createH (fun k => real (sqrt (INR k))) s None = Ok Hs /\ eigenbasis Hs Vs Es /\ Permutation Es [-3; -2; 2; 3] /\
  exists A, single_site_op (sp_sys s) 0 0 (sz_op 1) Boson = Ok A /\ exp_vals_thermal Vs A Es 1 = Ok (1 / 2 - chain_green 2 2 3 1 0 0).
Proof.
  destruct (solved_one 2 1 true true 3 (fun _ => - (2)) (fun _ => 0) (fun _ => 0) ltac:(lia) ltac:(lia) ltac:(lia) ltac:(lia) ltac:(reflexivity) ltac:(reflexivity))
    as (g & f & H & V & E & LG & MF & EH & B).
  assert (M : exists s : spins CR, spins_init (fun _ => false) (sgeom_of g) (JNum (real 2)) (JNum (real 2)) (JNum c0) (HNum c0) (HNum c0) (HNum (real 3)) false 1 = Ok s) by (eexists; reflexivity).
  destruct M as (s & MS).
  pose proof (stored_uniform 2 g 2 3 (fun _ => false) s MS) as ST.
  pose proof (open_same 2 g 3 (- (2)) 0 0 f s ltac:(lia) ltac:(lia) LG MF ST) as SC.
  pose proof (open_offset 2 g 3 (- (2)) 0 0 s ltac:(lia) ltac:(lia) LG ST) as OFF.
  assert (R1 : (fun k => real (sqrt (INR k))) 1%nat = c1) by (cbn; rewrite sqrt_1; reflexivity).
  destruct (C133_hamiltonian CR _ (fun k => real (sqrt (INR k))) R1 s f SC) as (Hs & Hf & EHs & EHf & _). rewrite EH in EHf. injection EHf as <-.
  pose proof (C133_energies _ s f Hs H _ R1 SC EHs EH OFF V E B) as BS.
  set (Es := map _ E) in BS. exists g, s, Hs, V, Es. split; [exact LG|]. split; [exact MS|]. split; [exact EHs|]. split; [exact BS|]. split.
  - pose proof (C135_spectrum 2 g 2 3 (fun _ => false) s _ Hs V Es ltac:(lia) ltac:(lia) LG MS R1 EHs BS) as P. rewrite P.
    cbn [seq map subset_sums fold_right app]. unfold chain_level.
    replace (PI * INR 1 / INR 3) with (PI / 3) by (cbn; field). replace (PI * INR 2 / INR 3) with (2 * (PI / 3)) by (cbn; field). rewrite cos_PI3, cos_2PI3.
    replace (INR 2) with 2 by (cbn; ring).
    match goal with |- Permutation [?a; ?b; ?c; ?d] _ => replace a with (-3) by field; replace b with (-2) by field; replace c with 2 by field; replace d with 3 by field end. reflexivity.
  - destruct SC as (NS & TW & _). assert (YS : sp_sys s = dsys 2 2).
    { unfold sp_sys. rewrite TW. destruct ST as (SG & _). rewrite SG. cbn [sgeom_of sg_nsites]. rewrite (n_sites 2 g ltac:(lia) ltac:(lia) LG). reflexivity. }
    destruct (single_elem 2 ltac:(lia) 2 0 (sz_op (K:=CR) 1) ltac:(split; reflexivity) ltac:(lia) (or_introl eq_refl)) as (A & EA & _). exists A. rewrite YS. split; [exact EA|].
    rewrite <- YS in EA. exact (C135_moment 2 g 2 3 (fun _ => false) s _ Hs V Es ltac:(lia) ltac:(lia) LG MS R1 EHs BS 1 R1_neq_R0 0%nat A ltac:(lia) EA).
Qed.
