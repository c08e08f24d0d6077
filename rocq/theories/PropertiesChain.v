(** Property theorems C159-C161: sectors inside sectors for rings of spins.
    Theorems only. *)
From Coq Require Import List Arith ZArith Reals Permutation.
From Verif Require Import Scalars Res Matrix SpecMat ModelSpins ModelPhase ModelSymmetry SpecSymmetry ModelThermal SpecThermal SpinAlg
  ModelChain SpecChain RingSectors ChainLabels ChainSpectrum ChainRing ChainRun.
Import ListNotations.
Local Open Scope R_scope.

Theorem C159_sectors : forall svd N n (Sz T F I : mat CR), (0 < n)%nat -> ring_symmetries N n Sz T F I ->
  exists ss, chain_sectors svd Sz T F I n = Ok ss /\ splits N (map se_rows ss) /\
    (forall s, In s ss -> (0 < nrow (se_rows s))%nat /\ labelled n Sz T F I (se_rows s) (se_mz s) (se_k s) (se_spin s) (se_space s)) /\
    (forall H, square N H -> meq (mmul Sz H) (mmul H Sz) -> meq (mmul T H) (mmul H T) -> meq (mmul F H) (mmul H F) -> meq (mmul I H) (mmul H I) ->
       block_diagonal (map se_rows ss) H).
Proof. exact chain_ok. Qed.
Print Assumptions C159_sectors.
Theorem C159_labels : forall svd N n (Sz T F I : mat CR) ss, (0 < n)%nat -> diagonal_mat N Sz -> chain_sectors svd Sz T F I n = Ok ss ->
  NoDup (map (fun s => (se_mz s, se_k s, se_spin s, se_space s)) ss).
Proof. exact labels_distinct. Qed.
Print Assumptions C159_labels.
Theorem C160_spectrum : forall (N : nat) (H : mat CR) (l : list (mat CR * mat CR * list R)) V E, square N H -> hermitian N H ->
  splits N (map (fun x => fst (fst x)) l) -> block_diagonal (map (fun x => fst (fst x)) l) H ->
  (forall x, In x l -> eigenbasis (seen_in (fst (fst x)) H) (snd (fst x)) (snd x)) ->
  eigenbasis H V E -> nrow V = N -> sorted_list E ->
  Permutation (concat (map snd l)) E /\ np_sort (concat (map snd l)) = E.
Proof. exact blocks_spectrum. Qed.
Print Assumptions C160_spectrum.
Theorem C161_ring : forall rt z (J : R), (2 <= z)%Z -> (2 * z <= 100000000000000)%Z -> roots_ok rt 1 ->
  let n := Z.to_nat z in exists c, ring_chain rt z (real J) = Ok c /\ sg_nsites (sp_geom (ch_spins c)) = n /\
    ring_symmetries (2 ^ n) n (ch_sz c) (ch_tx c) (ch_flip c) (ch_inv c) /\ square (2 ^ n) (ch_ham c) /\ hermitian (2 ^ n) (ch_ham c) /\
    forall X, In X [ch_sz c; ch_tx c; ch_flip c; ch_inv c] -> meq (mmul X (ch_ham c)) (mmul (ch_ham c) X).
Proof. exact ring_ok. Qed.
Print Assumptions C161_ring.
Theorem C161_script : forall rt z (J : R) svd, (2 <= z)%Z -> (2 * z <= 100000000000000)%Z -> roots_ok rt 1 ->
  let n := Z.to_nat z in exists c ss, ring_chain rt z (real J) = Ok c /\ reduced_chain svd c = Ok ss /\ splits (2 ^ n) (map se_rows ss) /\
    (forall s, In s ss -> (0 < nrow (se_rows s))%nat /\ hermitian (nrow (se_rows s)) (sector_matrix c s) /\
       labelled n (ch_sz c) (ch_tx c) (ch_flip c) (ch_inv c) (se_rows s) (se_mz s) (se_k s) (se_spin s) (se_space s)) /\
    block_diagonal (map se_rows ss) (ch_ham c) /\ hermitian (2 ^ n) (ch_ham c) /\
    forall eigh eigsh, (forall A, A = ch_ham c \/ In A (map (sector_matrix c) ss) -> eigenbasis A (snd (eigh A)) (fst (eigh A))) ->
      compared eigh eigsh c ss = Ok 0.
Proof. exact run_ok. Qed.
Print Assumptions C161_script.
