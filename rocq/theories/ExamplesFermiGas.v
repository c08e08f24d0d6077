(** Concrete cases of the theorems about the lattice Fermi gas. *)
From Coq Require Import List Arith Lia Reals Lra ZArith Bool.
From Verif Require RefuteThermal.
From Verif Require Import Scalars Res Sums Matrix ModelPhase ModelSymmetry SymBase SpecSymmetry ModelBase ModelThermal SpecThermal ThermalBase
  ModelFermiGas SpecFermiGas FermiBase FermiGrid FermiModes FermiGas FermiGreen FermiCorr RefuteFermi FermiDos FermiGfn ExamplesThermal PropertiesFermiGas.
Import ListNotations.
Local Open Scope R_scope.

(** Sizes: a chain of four sites, a square lattice of three by three. *)
Example size_chain : good_size Chain 4.
Proof. apply small_size. lia. Qed.
Example size_square : good_size Square 3.
Proof. apply small_size. lia. Qed.

(** C58: half filled at the chemical potential; the derivatives there. *)
Example fermi_at_mu : fermi (Beta 4) 1 1 = 1 / 2.
Proof. unfold fermi. replace (4 * (1 - 1)) with 0 by ring. rewrite exp_0. field. Qed.
Example slope_at_mu : fermi_derivatives (Beta 4) 1 1 0 = Ok (1, -1, 0).
Proof. unfold fermi_derivatives. rewrite fermi_at_mu. repeat f_equal; field. Qed.

(** C59 and C91: two sites have the energies -2 and 2. *)
Example two_sites b mu : exists N, fg_density (Beta b) mu 2 Dim1 = Ok N /\
  N = (occupation b mu (-2) + occupation b mu 2) / 2.
Proof.
  destruct (C91_density Chain 2 b) as (N & HN & E & _); [apply small_size; lia|].
  exists (N mu). split; [apply HN|]. rewrite E. unfold mean, modes. cbn [seq list_prod map app].
  rewrite !total_cons, total_nil. unfold level_of, momentum. cbn [fst length INR].
  replace (2 * PI * 0 / (1 + 1)) with 0 by field. replace (2 * PI * 1 / (1 + 1)) with PI by field.
  rewrite cos_0, cos_PI. replace (-2 * 1) with (-2) by ring. replace (-2 * -1) with 2 by ring. field.
Qed.
Example two_sites_half b : fg_density (Beta b) 0 2 Dim1 = Ok (1 / 2).
Proof. destruct (C59_half_filling_partial Chain 2 b) as (N & HN & _ & E); [apply small_size; lia|reflexivity|]. rewrite <- E. apply HN. Qed.

(** C60: the momenta of four sites, from -pi up. *)
Example grid_4 : exists points, allowed_kvects 4 1 Balanced = Ok (points, 2 * PI / INR 4, 2 * PI / INR 1) /\ length points = 4%nat /\
  good_grid (- PI) 4 1 points.
Proof.
  destruct (C60_balanced_grid 4 1) as (l & E & G); [lia|lia|]. exists l. split; [exact E|]. split; [|exact G].
  destruct G as (kxs & kys & -> & (L & _) & (L' & _) & _). destruct kys as [|k [|]]; try discriminate. unfold row_major. cbn.
  rewrite app_nil_r, map_length. exact L.
Qed.
Example axis_2 : axis 2 Balanced = Ok [- PI; 0].
Proof.
  assert (P := PI_RGT_0). unfold axis. cbn [seq map INR]. replace (2 * PI / (1 + 1) * 0) with 0 by field.
  replace (2 * PI / (1 + 1) * 1) with PI by field. unfold rle_b.
  destruct (Rle_dec PI 0); [lra|]. destruct (Rle_dec PI PI); [|lra]. replace (PI - 2 * PI) with (- PI) by ring.
  cbn. unfold rle_b. destruct (Rle_dec 0 (- PI)); [lra|]. reflexivity.
Qed.

(** C93: a solver which tries the chemical potential 0 finds it for the density of
    three sites at that chemical potential, which is not one half. *)
Definition try_0 (f : R -> res R) : res R :=
  match f 0 with Ok y => if Req_EM_T y 0 then Ok 0 else Raise ValueError | Raise e => Raise e end.
Example try_0_solves : forall f x, try_0 f = Ok x -> f x = Ok 0.
Proof.
  intros f x. unfold try_0. destruct (f 0) as [y|] eqn:E; [|discriminate]. destruct (Req_EM_T y 0) as [-> |]; [|discriminate].
  intros [= <-]. exact E.
Qed.
Example found : exists s n b x, good_size s n /\ 0 < b /\ x <> 1 / 2 /\ fg_density (Beta b) 0 n (dim_of s) = Ok x /\
  fg_mu try_0 (fun _ _ => Raise ValueError) (Beta b) x n (dim_of s) = Ok 0.
Proof.
  destruct C59_half_filling_refuted as (s & n & b & x & Hs & Hb & E & Hx & _). exists s, n, b, x. repeat (split; [assumption|]).
  unfold fg_mu. destruct (Req_EM_T x (1 / 2)); [contradiction|].
  destruct (C91_density s n b Hs) as (N & HN & _ & _ & _ & C). destruct (C (Rlt_le _ _ Hb) 0) as (c & Hc & _).
  unfold try_0. rewrite E, Hc. cbn. rewrite Rminus_diag_eq, Rabs_R0 by reflexivity. destruct (Req_EM_T (2 * 0 * c) 0); [reflexivity|lra].
Qed.

(** C94: the plane waves add up at the same site of the square lattice. *)
Example anticommutator : same_site Square 3 (3, -6)%Z = true /\ same_site Square 3 (1, 0)%Z = false /\ same_site Chain 4 (8, 1)%Z = true.
Proof. repeat split. Qed.

(** C98: equivalent displacements. *)
Example around : same_place Chain 4 (5, 0)%Z (1, 0)%Z = true /\ same_place Square 3 (-1, 4)%Z (2, 1)%Z = true /\
  same_place Square 3 (-1, 4)%Z (2, 2)%Z = false.
Proof. repeat split. Qed.

(** C99: the square lattice of one site already has a static response. *)
Example response_1 : exists x, density_response (Beta 1) 0 (1, 1) 0 0 1 Dim2 = Ok (re x) /\ x < 0.
Proof. apply C99_static_response; [lia|lra]. Qed.

(** C100: every density and correlation is that of a pair of numbers. *)
Definition two_bits (n c : R) : pair_law := fun u v =>
  match u, v with true, true => c + n * n | false, false => 1 - 2 * n + (c + n * n) | _, _ => n - (c + n * n) end.
Example two_bits_ok n c : pair_stats (two_bits n c) n c.
Proof. unfold pair_stats, law, two_bits. repeat split; ring. Qed.

(** C101: three energies in two bins; the last bin includes its upper edge. *)
Example dos_3 : get_dos [1 / 2; 1; 2] [0; 1; 2] = Ok [1 / 3; 2 / 3].
Proof.
  unfold get_dos. cbn [diffs existsb length Nat.eqb orb]. unfold rlt_b at 1 2. unfold rle_b at 1 2.
  destruct (Rlt_dec (1 - 0) 0); [lra|]. destruct (Rlt_dec (2 - 1) 0); [lra|].
  destruct (Rle_dec (1 - 0) 0); [lra|]. destruct (Rle_dec (2 - 1) 0); [lra|]. cbn [orb].
  cbn [histogram filter]. unfold in_bin, rle_b, rlt_b.
  repeat (match goal with |- context [Rle_dec ?a ?b] => destruct (Rle_dec a b); [try lra|try lra] | |- context [Rlt_dec ?a ?b] => destruct (Rlt_dec a b); [try lra|try lra] end; cbn [andb orb]).
  cbn [length quotients map INR]. f_equal. repeat (apply f_equal2; [field|]). reflexivity.
Qed.
Example edges_ok : increasing [0; 1; 2] /\ (forall x, In x [1 / 2; 1; 2] -> 0 <= x <= last [1; 2] 0).
Proof.
  split; [repeat constructor; lra|]. intros x [<-|[<-|[<-|[]]]]; cbn; lra.
Qed.

(** C103: the eigenvectors of the Pauli matrix x are a complete basis. *)
Example basis_X : complete_basis VX /\ nrow VX = nrow RefuteThermal.flip.
Proof. split; [apply eigen_X|reflexivity]. Qed.
