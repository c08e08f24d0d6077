(** Concrete cases that meet the hypotheses of C121..C125. *)
From Coq Require Import String List Arith Lia Reals Lra ZArith Bool.
From Verif Require Import Scalars Sums Res Matrix SpecMat ModelGeometry ModelPhase ModelSymmetry SymBase ModelBase ModelFermions ModelThermal ModelRest
  SpecThermal ThermalBase RefuteThermal ExamplesThermal SpecFermiGas OpsProofs SpecRest RestThermal RestFourier RestPolygon.
Import ListNotations.
Local Open Scope R_scope.

(** C121: one particle on two sites with energies 0 and 1, at temperature 0 and 2. *)
Definition two_levels : list R := [0; 1].
Definition at_site (i : nat) : res cmat := Ok (Mat 2 2 (fun a b => if ((a =? i) && (b =? i))%nat then (1, 0) else (0, 0))).
Example ex_sites : exists rs, thermal_exp_sites (meye 2) two_levels 2 at_site [2] None None = Ok (rs, [0%nat; 1%nat]) /\
  nth 0 (nth 1 rs []) 0 = exp (- (1 / 2)) / (1 + exp (- (1 / 2))).
Proof.
  destruct (thermal_sites_ok (meye 2) two_levels None [2]) with (nsites := 2%nat) (site_op := at_site) (sites := @None (list nat)) as (rs & E & F).
  - reflexivity.
  - reflexivity.
  - discriminate.
  - intros T [<-|[]]. left. lra.
  - intros i _. eexists. split; [reflexivity|]. split; reflexivity.
  - exists rs. split; [exact E|]. cbn [seq] in F. inversion F as [|? r0 ? rs' _ F1]; subst. inversion F1 as [|? r1 ? rs'' (op & EO & F2) F3]; subst. cbn [nth].
    injection EO as <-. inversion F2 as [|? v ? ? [MV _] F4]; subst. cbn [nth]. rewrite (MV ltac:(lra)). unfold boltzmann, total, expect, inner, apply, lift, col, two_levels, the_projector.
    cbn. pose proof (exp_pos (- (1 / 2))) as EP.
    repeat first [rewrite Rmult_0_r | rewrite Rmult_0_l | rewrite Rplus_0_r | rewrite Rplus_0_l | rewrite Rmult_1_l | rewrite Rmult_1_r | rewrite Ropp_0 | rewrite Rminus_0_r].
    replace (0 / 2) with 0 by field. rewrite ?Ropp_0, exp_0. replace (- (1) / 2) with (- (1 / 2)) by field. reflexivity.
Qed.
(** C122: a particle that hops between two sites, with energies -1 and 1. *)
Example ex_partition : exists expm, partition_fn_hamiltonian expm true flip 1 = Ok (exp 1 + exp (-1)) /\ partition_fn_hamiltonian expm true flip 0 = Ok 2 /\
  partition_fn_hamiltonian expm false flip 1 = Raise AttributeError.
Proof.
  destruct (exponential_exists flip VX EX 1 eigen_X) as [X HX]. exists (fun _ => X). split; [|split].
  - rewrite (partition_trace (fun _ => X) flip VX EX eigen_X 1 (fun _ => HX)). f_equal. unfold EX. rewrite !total_cons, total_nil. replace (- (1) * -1) with 1 by ring. replace (- (1) * 1) with (-1) by ring. ring.
  - unfold partition_fn_hamiltonian, is_zero. destruct (Req_EM_T 0 0); [|lra]. reflexivity.
  - apply partition_dense. lra.
Qed.
(** C123: a ring of two sites and one species; its two momenta are independent. *)
Definition two_sites : sys := {| s_nsites := 2; s_nspecies := 1; s_nbasis := 2 |}.
Example ex_inverse : two_state two_sites /\ same_site Chain 2 (0 - 1, 0 - 0)%Z = false /\ s_nsites two_sites = length (modes Chain 2).
Proof. repeat split. Qed.
Example ex_modes : overlap two_sites (lattice_x Chain 2) (lattice_y Chain 2) (wave_vector Chain 2 (1, 0)%nat) (wave_vector Chain 2 (0, 0)%nat) = c0 /\
  overlap two_sites (lattice_x Chain 2) (lattice_y Chain 2) (wave_vector Chain 2 (1, 0)%nat) (wave_vector Chain 2 (1, 0)%nat) = real 2.
Proof.
  split; rewrite overlap_modes; try reflexivity; try lia; try (left; reflexivity); try (right; left; reflexivity).
Qed.
(** C124: opposite corners of a square are not neighbours. *)
Example ex_square : exists sites A, polygon 4 = Ok (sites, A) /\ A 0%nat 1%nat = 1 /\ A 0%nat 3%nat = 1 /\ A 0%nat 2%nat = 0 /\
  1 < distance (nth 0 sites (0, 0)) (nth 2 sites (0, 0)).
Proof.
  destruct (polygon_ok 4 ltac:(lia)) as (sites & A & E & _ & _ & P). exists sites, A. split; [exact E|].
  destruct (P 0%nat 1%nat) as (_ & _ & _ & _ & P1); try lia. destruct (P 0%nat 3%nat) as (_ & _ & _ & _ & P3); try lia. destruct (P 0%nat 2%nat) as (_ & Z & G & D2 & P2); try lia.
  split; [apply P1; left; reflexivity|]. split; [apply P3; right; reflexivity|].
  assert (N : A 0%nat 2%nat <> 1) by (intros X; apply P2 in X; change ((0 + 1) mod 4)%nat with 1%nat in X; change ((2 + 1) mod 4)%nat with 3%nat in X; lia).
  split; [destruct Z; [assumption | contradiction]|]. assert (distance (nth 0 sites (0, 0)) (nth 2 sites (0, 0)) <> 1) by (intros X; apply N, D2, X). clear - G H. destruct G; [assumption | lra].
Qed.
