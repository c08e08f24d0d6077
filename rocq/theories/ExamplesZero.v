(** Concrete cases that meet the hypotheses of C136..C138. *)
From Coq Require Import List Arith Lia Reals Lra ZArith QArith Bool Permutation.
From Verif Require Import Scalars Res Sums Matrix SqMat SpecMat ModelBase ModelFermions OpsProofs FermiOps ModelGeometry ModelPhase ModelSymmetry SpecGeometry
  ModelThermal SpecThermal Spectral SpecFermiGas ModelFermiGas FermiModes FermiGas SpecFree ModelFreeLattice SpecFreeLattice PlaneWaves FreeThermal FreeLattice SpecZero FreeZero LatticeZero SpecAtomic PropertiesZero.
From Verif Require HamProofs FreeExist FreeSpectrum FermiApi.
From Verif Require Import SymBase.
Import ListNotations.
Local Open Scope R_scope.

(** C136, C137: a ring of four sites with one particle at most in the lowest level,
    the chemical potential -1 between the levels -2 and 0: the ground state is
    unique, has energy -1 and one particle in four sites. *)
Lemma four_band' mu : band Chain 4 1 mu = [-2 - mu; 0 - mu; 2 - mu; 0 - mu].
Proof.
  unfold band. cbn [depth seq map Nat.mul Nat.add].
  change (spot Chain 4 0) with (0%nat, 0%nat). change (spot Chain 4 1) with (1%nat, 0%nat). change (spot Chain 4 2) with (2%nat, 0%nat). change (spot Chain 4 3) with (3%nat, 0%nat).
  rewrite !four_level by lia. cbn [nth]. repeat (f_equal; try ring).
Qed.
Lemma ring_four z : exists g f H V E, c_square_geometry 4 1 0 0 false true = Ok g /\
  fermions_init (fgeom_of g) (number 0) (number 1) None (numbers 1 (fun _ => IZR z)) (number 0) (number 0) 1 = Ok f /\
  createH f None = Ok H /\ eigenbasis H V E /\ sorted_list E /\ apart gap13 E /\ non_interacting f /\ f_nspecies f = 1%nat /\ fg_nsites (f_geom f) = 4%nat /\
  eigenbasis (particle_matrix f 0) (waves Chain 4) [-2 - IZR z; 0 - IZR z; 2 - IZR z; 0 - IZR z].
Proof.
  destruct (FreeExist.lattice_exists 4 1 false true 0 1 1 (fun _ => IZR z) ltac:(lia) ltac:(lia) ltac:(lia) ltac:(lia) ltac:(discriminate) ltac:(intros _; exact eq_refl) ltac:(right; reflexivity)) as (g & f & H & V0 & E0 & LG & MD & EH & EB0).
  destruct (sort_basis H V0 E0 EB0) as (V & E & EB & S & _).
  pose proof (free_f g 1 1 (fun _ => IZR z) f MD) as FR. pose proof (nsp g 1 1 (fun _ => IZR z) f MD) as SP.
  pose proof (waves_ok Chain 4 g 1 1 (fun _ => IZR z) f ltac:(lia) ltac:(cbn; lia) LG MD 0%nat ltac:(lia)) as WB. cbv beta in WB. rewrite four_band' in WB.
  pose proof (sites_f Chain 4 g 1 1 (fun _ => IZR z) f ltac:(lia) ltac:(cbn; lia) LG MD) as NS. cbn [depth Nat.mul Nat.add] in NS.
  pose proof (FreeSpectrum.spectrum_ok f FR H V E EH EB (fun _ => waves Chain 4) (fun _ => [-2 - IZR z; 0 - IZR z; 2 - IZR z; 0 - IZR z])) as P. rewrite SP in P.
  specialize (P ltac:(intros k Hk; replace k with 0%nat by lia; exact WB)). cbn [seq flat_map] in P.
  exists g, f, H, V, E. repeat (split; [assumption|]). split; [|split; [exact FR|split; [exact SP|split; [exact NS|exact WB]]]].
  apply apart_even. intros x Hx. apply (Permutation_in _ P) in Hx.
  assert (Q : forall l, (forall y, In y l -> exists z, y = IZR z) -> forall y, In y (subset_sums l) -> exists z, y = IZR z).
  { clear. induction l as [|a l IH]; intros HL y Hy; [destruct Hy as [<-|[]]; exists 0%Z; reflexivity|]. change (subset_sums (a :: l)) with (subset_sums l ++ map (Rplus a) (subset_sums l)) in Hy.
    apply in_app_or in Hy as [Hy|Hy]; [apply IH; [intros; apply HL; right; assumption | exact Hy]|].
    apply in_map_iff in Hy as (w & <- & Hw). destruct (IH ltac:(intros; apply HL; right; assumption) w Hw) as (z & ->). destruct (HL a ltac:(left; reflexivity)) as (z' & ->).
    exists (z' + z)%Z. rewrite plus_IZR. reflexivity. }
  apply (Q _) in Hx; [exact Hx|]. intros y Hy. cbn in Hy.
  destruct Hy as [<-|[<-|[<-|[<-|[]]]]]; rewrite <- minus_IZR; eexists; reflexivity.
Qed.
Example ex_quarter : exists f H V E, createH f None = Ok H /\ eigenbasis H V E /\ sorted_list E /\ nth 0 E 0 = -1 /\ times (nth 0 E 0) E = 1%nat /\
  exists A, single_site_op (f_sys f) 2 0 n_op Boson = Ok A /\ exp_vals_thermal V A E 0 = fg_density BetaInf (-1) 4 Dim1 /\ exp_vals_thermal V A E 0 = Ok (1 / 4).
Proof.
  destruct (ring_four (-1)) as (g & f & H & V & E & LG & MD & EH & B & S & AP & FR & SP & NS & WB).
  assert (M : forall k, (k < f_nspecies f)%nat -> eigenbasis (particle_matrix f k) ((fun _ => waves Chain 4) k) ((fun _ => [-2 - -1; 0 - -1; 2 - -1; 0 - -1]) k)) by (intros k Hk; replace k with 0%nat by lia; exact WB).
  exists f, H, V, E. split; [exact EH|]. split; [exact B|]. split; [exact S|].
  split; [|split].
  - rewrite (C136_ground f FR H V E EH B S _ _ M), SP. cbn. unfold Rmin. repeat (match goal with |- context [Rle_dec ?a ?b] => destruct (Rle_dec a b) end; try lra).
  - rewrite (C136_degeneracy f FR H V E EH B S _ _ M), SP. unfold times. cbn [seq flat_map app count_occ].
    repeat (match goal with |- context [Req_EM_T ?a ?b] => destruct (Req_EM_T a b); [lra|] end). reflexivity.
  - destruct (single_ok (f_sys f) 2 0 n_op Boson (HamProofs.f_two f) ltac:(discriminate) ltac:(change (2 < fg_nsites (f_geom f))%nat; lia) ltac:(change (0 < f_nspecies f)%nat; lia) (sq2 _ _ _ _)) as (A & EA & _).
    exists A. split; [exact EA|].
    assert (GS : good_size Chain 4) by (split; [lia | cbn; lra]).
    assert (D : exp_vals_thermal V A E 0 = fg_density BetaInf (-1 / 1) 4 Dim1).
    { apply (C137_density_partial Chain 4 g 1 1 (fun _ => -1) f ltac:(lia) ltac:(lia) LG MD H V E EH B S AP ltac:(lra) GS 0%nat 2%nat A); [|lia|cbn; lia|exact EA].
      intros (a & b) Hp. unfold modes in Hp. apply in_prod_iff in Hp as (Ha & Hb). apply in_seq in Ha. cbn in Hb. destruct Hb as [<-|[]].
      rewrite four_level by lia. destruct a as [|[|[|[|a]]]]; cbn; try lra; lia. }
    replace (-1 / 1) with (-1) in D by field. split; [exact D|]. rewrite D. change Dim1 with (dim_of Chain). rewrite density_eq by exact GS. f_equal.
    unfold mean, modes. cbn [seq list_prod map app length total fold_right]. rewrite !four_level by lia. cbn [nth]. unfold fermi, rle_b.
    repeat (match goal with |- context [Rle_dec ?a ?b] => destruct (Rle_dec a b); try lra end). cbn. field.
Qed.
(** With the lowest level at the chemical potential there are two ground states. *)
Example ex_two_ground : exists f H V E, createH f None = Ok H /\ eigenbasis H V E /\ sorted_list E /\ nth 0 E 0 = 0 /\ times 0 E = 2%nat /\ exp_vals_thermal V H E 0 = Ok 0.
Proof.
  destruct (ring_four (-2)) as (g & f & H & V & E & LG & MD & EH & B & S & AP & FR & SP & NS & WB).
  assert (M : forall k, (k < f_nspecies f)%nat -> eigenbasis (particle_matrix f k) ((fun _ => waves Chain 4) k) ((fun _ => [-2 - -2; 0 - -2; 2 - -2; 0 - -2]) k)) by (intros k Hk; replace k with 0%nat by lia; exact WB).
  assert (SEA : sea (flat_map (fun _ : nat => [-2 - -2; 0 - -2; 2 - -2; 0 - -2]) (seq 0 1)) = 0).
  { cbn. unfold Rmin. repeat (match goal with |- context [Rle_dec ?a ?b] => destruct (Rle_dec a b) end; try lra). }
  pose proof (C136_ground f FR H V E EH B S _ _ M) as G. rewrite SP, SEA in G.
  pose proof (C136_degeneracy f FR H V E EH B S _ _ M) as D. rewrite SP, G in D.
  pose proof (C136_energy f FR H V E EH B S AP _ _ M) as EN. rewrite SP, SEA in EN.
  exists f, H, V, E. split; [exact EH|]. split; [exact B|]. split; [exact S|]. split; [exact G|]. split; [|exact EN].
  rewrite D. unfold times. cbn [seq flat_map app count_occ].
  destruct (Req_EM_T (-2 - -2) 0); [|lra]. repeat (match goal with |- context [Req_EM_T ?a ?b] => destruct (Req_EM_T a b); [lra|] end). reflexivity.
Qed.

(** C138: three sites of which the first two exchange particles; the repulsion is
    eight and the chemical potential three. *)
Definition dimer_and_atom : fermions CR :=
  Ferm (FGeom 3 (fun i j => ((i =? 0)%nat && (j =? 1)%nat) || ((i =? 1)%nat && (j =? 0)%nat)) (fun _ _ => c1) (fun _ _ => 0%Q) (fun _ _ => 0%Q)) 2
    (fun i j _ => if ((i =? 0)%nat && (j =? 1)%nat) || ((i =? 1)%nat && (j =? 0)%nat) then c1 else c0)
    (fun _ => real 8) (fun _ _ _ => c0) (fun _ => real 3) (fun _ _ => c0) (meye 64).
Example ex_atom : exists H V E A, createH dimer_and_atom None = Ok H /\ eigenbasis H V E /\
  two_site_op (f_sys dimer_and_atom) 2 0 2 1 n_op n_op Boson = Ok A /\
  exp_vals_thermal V A E 1 = Ok (exp (-2) / (1 + exp 3 + exp 3 + exp (-2))).
Proof.
  assert (IS : isolated dimer_and_atom 2) by (intros j k Hj Hk; cbn; rewrite !andb_false_r; repeat split; reflexivity).
  assert (EN : site_energies dimer_and_atom 2 (-3) (-3) 8) by (split; [reflexivity|]; split; apply injective_projections; cbn; ring).
  assert (RC : HamProofs.real_couplings dimer_and_atom).
  { unfold HamProofs.real_couplings. repeat split; intros; try (apply injective_projections; cbn; ring).
    cbn [f_ts dimer_and_atom]. unfold HamProofs.real. match goal with |- context [if ?b then _ else _] => destruct b end; apply injective_projections; cbn; ring. }
  destruct (FermiApi.hermitian_api dimer_and_atom None (nstates2 _ (HamProofs.f_two dimer_and_atom)) (or_introl (le_n 2)) RC) as (H & EH & (S1 & S2) & HH). cbn [meye nrow] in S1, S2.
  assert (Hh : hermitian (nstates (f_sys dimer_and_atom)) H).
  { intros i j Hi Hj. destruct HH as (_ & _ & HH). specialize (HH i j). cbn [madj nrow ncol ent] in HH. symmetry. apply HH; lia. }
  destruct (spectral _ H Hh S1 S2) as (V & E & B).
  destruct (two_ok (f_sys dimer_and_atom) 2 0 2 1 n_op n_op Boson (HamProofs.f_two _) ltac:(discriminate) ltac:(cbn; lia) ltac:(cbn; lia) ltac:(cbn; lia) ltac:(cbn; lia) (sq2 _ _ _ _) (sq2 _ _ _ _)) as (A & EA & _).
  exists H, V, E, A. split; [exact EH|]. split; [exact B|]. split; [exact EA|].
  rewrite (C138_double dimer_and_atom 2 (-3) (-3) 8 (le_n 2) ltac:(cbn; lia) IS EN H V E 1 EH B R1_neq_R0 A EA). f_equal.
  unfold atom_prob, atom_partition, atom_weight, bit.
  replace (- (1 * -3 + 1 * -3 + 1 * 1 * 8) / 1) with (-2) by field. replace (- (0 * -3 + 0 * -3 + 0 * 0 * 8) / 1) with 0 by field.
  replace (- (1 * -3 + 0 * -3 + 1 * 0 * 8) / 1) with 3 by field. replace (- (0 * -3 + 1 * -3 + 0 * 1 * 8) / 1) with 3 by field. rewrite exp_0. reflexivity.
Qed.
