(** Cases that meet the hypotheses of C117..C120. *)
From Coq Require Import List Arith Lia Reals Lra ZArith QArith Bool Permutation.
From Verif Require Import Scalars Res Matrix ModelGeometry ModelPhase ModelBase ModelFermions ModelThermal SpecThermal
  SpecFermiGas ModelFermiGas FermiModes SpecFree ModelFreeLattice SpecFreeLattice FermiOps FreeThermal FreeSpectrum PlaneWaves FreeLattice FreeExist FreeTwo Spectral.
Import ListNotations.
Local Open Scope R_scope.

(** Every lattice of C119 exists, with its Hamiltonian and an eigenbasis. *)
Lemma lattice_met s n t m mu : (2 <= n)%nat -> (2 * Z.of_nat n <= 100000000000000)%Z ->
  exists g f H V E, c_square_geometry (Z.of_nat n) (Z.of_nat (depth s n)) 0 0 false (flat_shape s) = Ok g /\
    fermions_init (fgeom_of g) (number 0) (number t) None (numbers m mu) (number 0) (number 0) m = Ok f /\
    createH f None = Ok H /\ eigenbasis H V E.
Proof.
  intros L S. apply lattice_exists; try lia.
  - destruct s; cbn [depth]; lia.
  - destruct s; cbn [depth]; lia.
  - destruct s; cbn [depth flat_shape]; [reflexivity | lia].
  - right. reflexivity.
Qed.

(** C117, C119: a ring of three sites and a 3 x 3 torus, one species; the system
    does not interact and plane waves are an eigenbasis for one particle. *)
Example ex_free_ring s : exists g f H V E A,
  c_square_geometry 3 (Z.of_nat (depth s 3)) 0 0 false (flat_shape s) = Ok g /\
  fermions_init (fgeom_of g) (number 0) (number 1) None (numbers 1 (fun _ => 1)) (number 0) (number 0) 1 = Ok f /\
  createH f None = Ok H /\ eigenbasis H V E /\ non_interacting f /\ fg_nsites (f_geom f) = (3 * depth s 3)%nat /\
  eigenbasis (particle_matrix f 0) (waves s 3) (band s 3 1 1) /\
  single_site_op (f_sys f) 1 0 n_op Boson = Ok A /\
  exp_vals_thermal V A E 2 = fg_density (Beta (1 / 2)) (1 / 1) 3 (dim_of s).
Proof.
  destruct (lattice_met s 3 1 1 (fun _ => 1) ltac:(lia) ltac:(lia)) as (g & f & H & V & E & LG & MD & EH & EB).
  assert (S3 : (1 < 3 * depth s 3)%nat) by (destruct s; cbn; lia).
  assert (GS : good_size s 3) by (split; [lia|]; destruct s; cbn; lra).
  pose proof (sites_f s 3 g 1 1 (fun _ => 1) f ltac:(lia) ltac:(lia) LG MD) as NS.
  destruct (made_ok g 1 1 (fun _ => 1) f MD) as (_ & FS & _).
  destruct (single_ok (f_sys f) 1 0 n_op Boson (HamProofs.f_two f) ltac:(discriminate) ltac:(change (1 < fg_nsites (f_geom f))%nat; lia) ltac:(change (0 < f_nspecies f)%nat; lia) (sq2 _ _ _ _)) as (A & EA & _).
  exists g, f, H, V, E, A. repeat (split; [first [exact LG | exact MD | exact EH | exact EB | exact NS | exact EA | exact (free_f g 1 1 (fun _ => 1) f MD)
    | exact (waves_ok s 3 g 1 1 (fun _ => 1) f ltac:(lia) ltac:(lia) LG MD 0%nat ltac:(lia))]|]).
  exact (lattice_density s 3 g 1 1 (fun _ => 1) f ltac:(lia) ltac:(lia) LG MD H V E 2 EH EB ltac:(lra) ltac:(lra) GS 0%nat 1%nat A ltac:(lia) S3 EA).
Qed.
(** C118 on the same ring: the energies of the many-particle states are the eight
    sums of the three levels. *)
Example ex_free_spectrum : exists f H V E, createH f None = Ok H /\ eigenbasis H V E /\
  Permutation E (subset_sums (flat_map (fun _ => band Chain 3 1 1) (seq 0 (f_nspecies f)))) /\ length E = 8%nat.
Proof.
  destruct (ex_free_ring Chain) as (g & f & H & V & E & A & _ & MD & EH & EB & FR & _ & MB & _ & _).
  destruct (made_ok g 1 1 (fun _ => 1) f MD) as (_ & FS & _).
  assert (P : Permutation E (subset_sums (flat_map (fun _ => band Chain 3 1 1) (seq 0 (f_nspecies f))))).
  { apply (spectrum_ok f FR H V E EH EB (fun _ => waves Chain 3) (fun _ => band Chain 3 1 1)). intros k Hk. rewrite FS in Hk. replace k with 0%nat by lia. exact MB. }
  exists f, H, V, E. split; [exact EH|]. split; [exact EB|]. split; [exact P|].
  apply Permutation_length in P. rewrite P, FS. reflexivity.
Qed.
(** C119: two species. *)
Example ex_two_species : exists g f H V E A,
  c_square_geometry 4 1 0 0 false true = Ok g /\
  fermions_init (fgeom_of g) (number 0) (number 1) None (numbers 2 INR) (number 0) (number 0) 2 = Ok f /\
  createH f None = Ok H /\ eigenbasis H V E /\
  two_site_op (f_sys f) 1 0 1 1 n_op n_op Boson = Ok A /\
  exp_vals_thermal V A E 2 = fg_doubles (Beta (1 / 2)) (INR 0 / 1) (INR 1 / 1) 4 (dim_of Chain).
Proof.
  destruct (lattice_met Chain 4 1 2 INR ltac:(lia) ltac:(lia)) as (g & f & H & V & E & LG & MD & EH & EB).
  assert (GS : good_size Chain 4) by (split; [lia|]; cbn; lra).
  pose proof (sites_f Chain 4 g 1 2 INR f ltac:(lia) ltac:(lia) LG MD) as NS. cbn in NS.
  destruct (made_ok g 1 2 INR f MD) as (_ & FS & _).
  assert (L1 : (1 < fg_nsites (f_geom f))%nat) by lia. assert (K0 : (0 < f_nspecies f)%nat) by lia. assert (K1 : (1 < f_nspecies f)%nat) by lia.
  destruct (two_ok (f_sys f) 1 0 1 1 n_op n_op Boson (HamProofs.f_two f) ltac:(discriminate) L1 K0 L1 K1 (sq2 _ _ _ _) (sq2 _ _ _ _)) as (A & EA & _).
  exists g, f, H, V, E, A. repeat (split; [first [exact LG | exact MD | exact EH | exact EB | exact EA]|]).
  exact (lattice_doubles Chain 4 g 1 2 INR f ltac:(lia) ltac:(lia) LG MD H V E 2 EH EB ltac:(lra) ltac:(lra) GS 1%nat A eq_refl ltac:(cbn; lia) EA).
Qed.
(** C120: a Hubbard model on a 2 x 2 lattice. *)
Example ex_hubbard : exists g f H V E, c_square_geometry 2 2 0 0 true false = Ok g /\
  fermions_init (fgeom_of g) (number 4) (number 1) None (numbers 2 INR) (number 0) (number 0) 2 = Ok f /\
  createH f None = Ok H /\ eigenbasis H V E.
Proof. apply lattice_exists; try lia; try discriminate. Qed.
Example ex_pauli_y : hermitian 2 (Mat 2 2 (fun i j => if (i =? j)%nat then (0, 0) else if (i <? j)%nat then (0, -1) else (0, 1)) : mat CR).
Proof. intros i j Hi Hj. destruct i as [|[|i]], j as [|[|j]]; try lia; apply injective_projections; cbn; ring. Qed.
