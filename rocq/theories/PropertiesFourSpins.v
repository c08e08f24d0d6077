(** Property theorems C162-C164: energies of spins added one at a time.
    Theorems only. *)
From Coq Require Import List Arith Reals Permutation.
From Verif Require Import Scalars Res Matrix SpecMat ModelSpins ModelPhase ModelSymmetry ModelThermal SpecThermal ModelChain ModelFourSpins SpecAddition FourSpins.
Import ListNotations.
Local Open Scope R_scope.

Theorem C162_spectrum : forall sp c, nested_couplings sp c ->
  exists H, sp_createH np_sqrt sp None = Ok H /\ square ((sp_two sp + 1) ^ sg_nsites (sp_geom sp)) H /\
    hermitian ((sp_two sp + 1) ^ sg_nsites (sp_geom sp)) H /\
    forall V E, eigenbasis H V E -> Permutation E (level_energies (spin_levels c (sp_two sp) (sg_nsites (sp_geom sp)))) /\
      (sorted_list E -> E = np_sort (level_energies (spin_levels c (sp_two sp) (sg_nsites (sp_geom sp))))).
Proof. exact nested_solved. Qed.
Print Assumptions C162_spectrum.
Theorem C162_total_spin : forall sp sp1 c, nested_couplings sp c -> nested_couplings sp1 (fun _ => 1) ->
  sp_two sp1 = sp_two sp -> sg_nsites (sp_geom sp1) = sg_nsites (sp_geom sp) ->
  exists H H1 V, sp_createH np_sqrt sp None = Ok H /\ sp_createH np_sqrt sp1 None = Ok H1 /\
    eigenbasis H V (level_energies (spin_levels c (sp_two sp) (sg_nsites (sp_geom sp)))) /\
    eigenbasis H1 V (level_energies (spin_squares c (sp_two sp) (sg_nsites (sp_geom sp)))).
Proof. exact nested_joint. Qed.
Print Assumptions C162_total_spin.
Theorem C162_count : forall c s n, list_sum (map (fun f => S (snd f)) (spin_levels c s n)) = (S s ^ n)%nat.
Proof. exact levels_count. Qed.
Print Assumptions C162_count.
Theorem C163_script : forall two j1 j2 j3, exists s H, four_spins np_sqrt two j1 j2 j3 = Ok (s, H) /\
  square ((two + 1) ^ 4) H /\ hermitian ((two + 1) ^ 4) H /\
  forall eigh eigsh, eigenbasis H (snd (eigh H)) (fst (eigh H)) ->
    fst (diagH eigh eigsh H 200 false) = np_sort (analytic_energies two j1 j2 j3) /\
    four_excess eigh eigsh np_sqrt two j1 j2 j3 = Ok 0.
Proof. exact four_ok. Qed.
Print Assumptions C163_script.
Theorem C164_alike : forall sp c, (2 <= sg_nsites (sp_geom sp))%nat -> nested_couplings sp (fun _ => c) ->
  let n := sg_nsites (sp_geom sp) in let s := sp_two sp in
  exists H, sp_createH np_sqrt sp None = Ok H /\ forall V E, eigenbasis H V E ->
    forall e, In e E <-> exists T, (T <= n * s)%nat /\ Nat.even T = Nat.even (n * s) /\ e = c * (casimir T - INR n * casimir s).
Proof. exact alike_solved. Qed.
Print Assumptions C164_alike.
