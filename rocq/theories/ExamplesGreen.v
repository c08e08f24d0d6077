(** Concrete cases of the theorems about Green's functions and linear response. *)
From Coq Require Import List Arith Lia Reals Lra ZArith Bool.
From Verif Require Import Scalars Res Sums ModelPhase ModelSymmetry SymBase SpecThermal ThermalBase SpecFermiGas ModelFermiGas ModelGreen SpecGreen
  GreenFrq GreenKernel GreenTime GreenFT GreenMore PropertiesGreen.
Import ListNotations.
Local Open Scope R_scope.

Lemma pi_bounds : 3 < PI <= 4.
Proof. pose proof PI2_3_2. pose proof PI_4. lra. Qed.

(** C63: the frequencies below 9 at inverse temperature 1. *)
Example fermion_frqs_1 : matsubara_frqs 1 9 Fermion = Ok [- PI; PI].
Proof.
  assert (P := pi_bounds). destruct (C63_fermion_frequencies 1 9) as (l & E & I & H); [lra|]. rewrite E. f_equal. apply increasing_eq; [exact I|repeat constructor; lra|].
  intros w. rewrite H. split.
  - intros ((z & ->) & A). apply Rabs_def2 in A. unfold Rdiv in *. rewrite Rinv_1, Rmult_1_r in *.
    assert (IZR z < 1) by nra. assert (-2 < IZR z) by nra. apply lt_IZR in H0, H1. assert (z = 0%Z \/ z = (-1)%Z) as [-> | ->] by lia; [right; left|left]; ring.
  - intros [<-|[<-|[]]]; [split; [exists (-1)%Z; field|]|split; [exists 0%Z; field|]]; unfold Rabs; destruct Rcase_abs; lra.
Qed.
Example boson_frqs_1 : matsubara_frqs 1 9 Boson = Ok [- (2 * PI); 0; 2 * PI].
Proof.
  assert (P := pi_bounds). destruct (C63_boson_frequencies 1 9) as (l & E & I & H); [lra|]. rewrite E. f_equal. apply increasing_eq; [exact I|repeat constructor; lra|].
  intros w. rewrite H. split.
  - intros ((z & ->) & A). unfold Rdiv in *. rewrite Rinv_1, Rmult_1_r in *. destruct A as [A|A]; [|right; left; symmetry; exact A].
    apply Rabs_def2 in A. assert (IZR z < 2) by nra. assert (-2 < IZR z) by nra. apply lt_IZR in H0, H1.
    assert (z = 0%Z \/ z = (-1)%Z \/ z = 1%Z) as [-> |[-> | ->]] by lia; [right; left|left|right; right; left]; ring.
  - intros [<-|[<-|[<-|[]]]]; [split; [exists (-1)%Z; field|left]|split; [exists 0%Z; field|right; reflexivity]|split; [exists 1%Z; field|left]]; unfold Rabs; destruct Rcase_abs; lra.
Qed.

(** C62: the grid -1, 1 at frequency 1. *)
Example kernel_two_points : exists G, imagfrq_spectralfn [1] [-1; 1] [1; 1] = Ok [G] /\
  (K <- imagfrq_kernel [1] [-1; 1] ;; Ok (map (fun row => row_times row [1; 1]) K)) = Ok [G] /\ G = (0, - (1 / (2 * PI))).
Proof.
  assert (P := pi_bounds).
  destruct (C62_frequency_integral [1] [-1; 1] [1; 1] eq_refl) as (G & E & L & H).
  { intros wn o [<-|[]] _ F. lra. }
  destruct G as [|g [|]]; try discriminate. exists g. split; [exact E|]. split; [rewrite <- E; symmetry; apply C62_frequency_kernel; [reflexivity|cbn; lia]|].
  destruct (H 0%nat) as (y & Q & V); [cbn; lia|]. cbn in V. rewrite V. unfold trapezoid. cbn [length Nat.sub seq nth]. unfold klsum. cbn [map fold_right list_sum].
  destruct (Q 0%nat) as [_ Q0]; [cbn; lia|]. destruct (Q 1%nat) as [_ Q1]; [cbn; lia|]. cbn [nth] in Q0, Q1.
  destruct (y 0%nat) as [a b], (y 1%nat) as [c d]. cbn in Q0, Q1. injection Q0 as A1 A2. injection Q1 as A3 A4.
  assert (a = 1 / 2) by lra. assert (b = - (1 / 2)) by lra. assert (c = - (1 / 2)) by lra. assert (d = - (1 / 2)) by lra. subst.
  apply injective_projections; cbn; field; lra.
Qed.

(** C104 and C105: bosons with spectral weight at 1 and 2. *)
Example boson_ends : exists G, (forall taus, imagtime_spectralfn taus 1 [1; 2] [3; 5] Boson = Ok (map G taus)) /\ G 0 - G 1 = - (2 / PI).
Proof.
  assert (P := pi_bounds). destruct (C104_ends Boson 1 [1; 2] [3; 5]) as (G & E & S & _); [lra|discriminate|reflexivity|intros _ [H|[H|[]]]; lra|].
  exists G. split; [exact E|]. replace (G 0 - G 1) with (G 0 + -1 * G 1) by ring. rewrite S. unfold r_trapezoid. cbn [length Nat.sub seq nth].
  rewrite total_cons, total_nil. cbn [nth]. field. lra.
Qed.
Example boson_transform : exists G, (forall taus, imagtime_spectralfn taus 1 [1; 2] [3; 5] Boson = Ok (map G taus)) /\
  exists g, imagfrq_spectralfn [2 * PI] [1; 2] [3; 5] = Ok [g] /\ integral (fun t => re (G t) *c wave (2 * PI * t)) 0 1 g.
Proof.
  destruct (C105_spectral Boson 1 [1; 2] [3; 5]) as (G & E & T); [lra|discriminate|reflexivity|intros _ [H|[H|[]]]; lra|].
  exists G. split; [exact E|]. apply T. exists 1%Z. field.
Qed.
Example level_transform : exists G g g', (forall taus, noninteracting_tau taus 2 1 Fermion = Ok (map G taus)) /\
  noninteracting_imagfrq 9 2 1 Fermion = Ok ([g; g'], [- PI; PI]) /\ integral (fun t => re (G t) *c wave (PI * t)) 0 1 g'.
Proof.
  destruct (C105_level 9 2 1) as (G & gs & ws & E & N & W & L & H); [lra|]. rewrite fermion_frqs_1 in W. injection W as <-.
  destruct gs as [|g [|g' [|]]]; try discriminate. exists G, g, g'. split; [exact E|]. split; [exact N|].
  destruct (H 1%nat) as [_ I]; [cbn; lia|]. exact I.
Qed.

(** C106: three boson frequencies and four times at inverse temperature 1. *)
Example round_trip_1 a : (ht <- imagfrq_ft (even_times 1 3) [- (2 * PI); 0; 2 * PI] [a; k1; kconj a] 1 ;;
    imagtime_ft [- (2 * PI); 0; 2 * PI] (even_times 1 3) ht 1) = Ok [a; k1; kconj a].
Proof.
  apply (C106_round_trip_partial Boson 1 9); [lra| |exact boson_frqs_1|reflexivity|lia|cbn; lia].
  assert (E : IZR (10 ^ 14) / 10 ^ 14 = 1) by (field_simplify_eq; lra).
  pose proof (round14_decimal (10 ^ 14)) as D. rewrite E in D. rewrite D. lra.
Qed.
(** C107: the same data are real and periodic in time. *)
Example real_in_time a : exists G, forall taus, imagfrq_ft taus [- (2 * PI); 0; 2 * PI] [a; k1; kconj a] 1 = Ok (map (fun t => re (G t)) taus).
Proof.
  apply C107_real; [lra|reflexivity|apply (C107_mirror Boson 1 9); [lra|exact boson_frqs_1]|].
  cbn [rev app map]. rewrite kconj_inv, kconj_1. reflexivity.
Qed.

(** C108: width one. *)
Example lorentzian_1 : noninteracting_spectral_fn [0; 1] 0 1 = Ok [2; 1].
Proof.
  assert (P := pi_bounds). unfold noninteracting_spectral_fn, r_over_r. cbn [rmap bind].
  destruct Req_EM_T; [lra|]. destruct Req_EM_T; [lra|]. cbn [bind]. do 2 f_equal; [|f_equal]; field; repeat split; lra.
Qed.

(** C109: diffusion constant one. *)
Example hydro_1 : chi_hydro [1] 1 2 1 0 None = Ok [(1, 1)].
Proof.
  unfold chi_hydro. destruct Req_EM_T as [E|]; [ring_simplify in E; lra|]. cbn [rmap]. unfold r_over_c.
  match goal with |- context [if ?c then _ else _] => destruct c as [E|] end; [cbn in E; exfalso; lra|]. cbn [bind]. do 2 f_equal. apply injective_projections; cbn; field.
Qed.

(** C110: a symmetric grid with a real response. *)
Example response_real a : exists phi, forall ts, phi_t ts [-1; 0; 1] [a; k1; kconj a] = Ok (map (fun t => re (phi t)) ts).
Proof.
  apply C110_real; [reflexivity|unfold mirror; cbn; repeat f_equal; ring|]. cbn [rev app map]. rewrite kconj_inv, kconj_1. reflexivity.
Qed.
