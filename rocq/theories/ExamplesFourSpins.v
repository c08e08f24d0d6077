(** Concrete cases that meet the hypotheses of C162-C164. *)
From Coq Require Import List Arith Lia Reals Lra Bool Permutation.
From Verif Require Import Scalars Res Matrix SpecMat ModelSpins ModelPhase ModelSymmetry ModelThermal SpecThermal ThermalDiag Spectral HeatRun SymBase ModelChain ModelFourSpins SpecAddition PropertiesFourSpins.
Import ListNotations.
Local Open Scope R_scope.

(** Spins on sites that are all neighbours of each other. *)
Definition all_near (n : nat) : sgeom CR := SGeom n (fun i j => negb (i =? j)%nat) (fun _ _ => c1).
Lemma near_spins n two J : exists sp, spins_init (K:=CR) (fun _ => false) (all_near n) (JNum (real J)) (JNum (real J)) (JNum (real J)) (HNum k0) (HNum k0) (HNum k0) false two = Ok sp /\
  nested_couplings sp (fun _ => J) /\ sg_nsites (sp_geom sp) = n /\ sp_two sp = two.
Proof.
  eexists. split; [reflexivity|]. split; [|split; reflexivity]. split; cbn [sp_jx sp_jy sp_jz sp_hx sp_hy sp_hz sp_geom all_near sg_nsites sg_adj sg_phase].
  - intros i j Hij. rewrite (proj2 (Nat.eqb_neq i j)) by lia. cbn [negb kb].
    assert (E : kmul (K:=CR) (kmul (real J) k1) c1 = real J) by ring. rewrite E. auto.
  - intros i _. assert (E : kmul (K:=CR) k0 k1 = k0) by ring. rewrite E. auto.
Qed.

(** C162: two spins 1/2: a singlet and a triplet. *)
Example ex_pair : level_energies (spin_levels (fun _ => 1) 1 2) = [- (3 / 2); 1 / 2; 1 / 2; 1 / 2].
Proof. unfold level_energies. cbn. unfold casimir. cbn. repeat (apply f_equal2; [field|]). reflexivity. Qed.
(** Three spins 1 with different couplings: seven energies for 27 states. *)
Example ex_three : map snd (spin_levels (fun i => INR i) 2 3) = [2; 0; 2; 4; 2; 4; 6]%nat.
Proof. reflexivity. Qed.
Example ex_couplings : exists sp, spins_init (K:=CR) (fun _ => false) (all_near 3) (JArr2 3 3 (fun i j => real (INR (Nat.max i j)))) (JArr2 3 3 (fun i j => real (INR (Nat.max i j))))
    (JArr2 3 3 (fun i j => real (INR (Nat.max i j)))) (HNum k0) (HNum k0) (HNum k0) false 2 = Ok sp /\ nested_couplings sp (fun i => INR i) /\
  exists H V, sp_createH np_sqrt sp None = Ok H /\ eigenbasis H V (level_energies (spin_levels (fun i => INR i) 2 3)).
Proof.
  eexists. split; [reflexivity|].
  match goal with |- nested_couplings ?s _ /\ _ => assert (NC : nested_couplings s (fun i => INR i)) end.
  { split; cbn [sp_jx sp_jy sp_jz sp_hx sp_hy sp_hz sp_geom all_near sg_nsites].
    - intros i j Hij. rewrite Nat.max_l by lia. auto.
    - intros i _. assert (E : kmul (K:=CR) k0 k1 = k0) by ring. rewrite E. auto. }
  split; [exact NC|]. destruct (near_spins 3 2 1) as (sp1 & _ & N1 & S1 & T1).
  destruct (C162_total_spin _ sp1 _ NC N1 T1 S1) as (H & H1 & V & E & _ & EB & _). exists H, V. split; [exact E|exact EB].
Qed.

(** C163: a solver for the spins 5/2 of the script exists, and the script then passes. *)
Example ex_script : exists H eigh, eigenbasis H (snd (eigh H)) (fst (eigh H)) /\ four_excess eigh (fun A _ => eigh A) np_sqrt 5 (3333 / 10000) (23623627 / 100000000) (8434783478 / 10000000000) = Ok 0 /\
  length (fst (eigh H)) = (6 ^ 4)%nat.
Proof.
  destruct (C163_script 5 (3333 / 10000) (23623627 / 100000000) (8434783478 / 10000000000)) as (s & H & E & (S1 & S2) & HH & RUN).
  destruct (spectral ((5 + 1) ^ 4) H HH S1 S2) as (V & En & EB). exists H, (fun _ => (En, V)). cbn [fst snd].
  split; [exact EB|]. split; [apply (RUN (fun _ => (En, V))); exact EB|].
  assert (NV : nrow V = ((5 + 1) ^ 4)%nat) by (destruct EB as ((_ & R1 & _) & _); congruence).
  rewrite (energies_count H V En EB); [exact NV|]. rewrite NV. apply Nat.pow_nonzero. lia.
Qed.

(** C164: five spins 3/2 that are all coupled alike: the lowest total spin is 1/2, and its energy the lowest. *)
Example ex_alike : exists sp H, nested_couplings sp (fun _ => 1) /\ sg_nsites (sp_geom sp) = 5%nat /\ sp_createH np_sqrt sp None = Ok H /\
  forall V E, eigenbasis H V E -> In (- 18) E /\ forall e, In e E -> - 18 <= e.
Proof.
  destruct (near_spins 5 3 1) as (sp & _ & NC & N & T). destruct (C164_alike sp 1 ltac:(rewrite N; lia) NC) as (H & EH & SV). rewrite N, T in SV.
  exists sp, H. split; [exact NC|]. split; [exact N|]. split; [exact EH|]. intros V E EB. split.
  - apply (SV V E EB). exists 1%nat. split; [lia|]. split; [reflexivity|]. unfold casimir. cbn. lra.
  - intros e He. apply (SV V E EB) in He as (k & B & P & ->). assert (K1 : (1 <= k)%nat) by (destruct k; [discriminate P|lia]).
    apply le_INR in K1. change (INR 1) with 1 in K1. unfold casimir. cbn [INR]. nra.
Qed.
