(** The script for a ring of spins, from beginning to end. *)
From Coq Require Import List Arith Lia ZArith QArith Reals Lra Bool Ring Permutation.
From Verif Require Import Scalars Sums Res Matrix SpecMat ModelBase ModelSpins SpecSpins ModelGeometry ModelPhase ModelSites ModelSymmetry SpecSymmetry
  ModelThermal SpecThermal ModelSpinLattice ThermalDiag ThermalBlocks HeatRun SpinAlg SpinApi GeoTotal SymBase ModelChain SpecChain RingSectors ChainSpectrum ChainRing.
Import ListNotations.
Local Open Scope R_scope.

Lemma same_lists l : l <> [] -> max_difference l l = Ok 0.
Proof.
  intros N. unfold max_difference. rewrite Nat.eqb_refl. cbn [negb]. destruct l as [|a l]; [congruence|]. cbn [combine map fst snd].
  rewrite Rminus_diag_eq, Rabs_R0 by reflexivity. f_equal. clear. induction l as [|b l IH]; [reflexivity|]. cbn [combine map fold_left fst snd].
  rewrite Rminus_diag_eq, Rabs_R0 by reflexivity. rewrite Rmax_left by lra. exact IH.
Qed.

Theorem ring_ok rt z (J : R) : (2 <= z)%Z -> (2 * z <= 100000000000000)%Z -> roots_ok rt 1 ->
  let n := Z.to_nat z in exists c, ring_chain rt z (real J) = Ok c /\ sg_nsites (sp_geom (ch_spins c)) = n /\
    ring_symmetries (2 ^ n) n (ch_sz c) (ch_tx c) (ch_flip c) (ch_inv c) /\ square (2 ^ n) (ch_ham c) /\ hermitian (2 ^ n) (ch_ham c) /\
    forall X, In X [ch_sz c; ch_tx c; ch_flip c; ch_inv c] -> meq (mmul X (ch_ham c)) (mmul (ch_ham c) X).
Proof.
  intros Z2 ZB R1 n. destruct (square_total z 1 0 0 false true) as (g & LG); try lia.
  unfold ring_chain. rewrite LG. cbn [bind].
  match goal with |- exists c, bind ?m _ = _ /\ _ => destruct m as [s|] eqn:ES; [|discriminate ES] end.
  pose proof (spins_init_ok _ _ _ _ _ _ _ _ _ s ES) as ST. cbv zeta in ST.
  destruct (ring_made z g Z2 ZB LG J s rt R1 ST) as (Sz & T & F & I & H & c & E1 & E2 & -> & E4 & E5 & E6 & RS & SH & HH & C1 & C2 & C3 & C4).
  eexists. split; [cbn [bind]; rewrite E1; cbn [bind]; rewrite E2; cbn [bind]; rewrite E4; cbn [bind]; rewrite E5; cbn [bind]; rewrite E6; reflexivity|].
  cbn [ch_spins ch_sz ch_tx ch_flip ch_inv ch_ham]. split; [destruct ST as (-> & _); cbn [sgeom_of sg_nsites]; exact (sites_ring z g Z2 ZB LG)|].
  split; [exact RS|]. split; [exact SH|]. split; [exact HH|]. intros X [<-|[<-|[<-|[<-|[]]]]]; assumption.
Qed.

Theorem run_ok rt z (J : R) svd : (2 <= z)%Z -> (2 * z <= 100000000000000)%Z -> roots_ok rt 1 ->
  let n := Z.to_nat z in exists c ss, ring_chain rt z (real J) = Ok c /\ reduced_chain svd c = Ok ss /\ splits (2 ^ n) (map se_rows ss) /\
    (forall s, In s ss -> (0 < nrow (se_rows s))%nat /\ hermitian (nrow (se_rows s)) (sector_matrix c s) /\
       labelled n (ch_sz c) (ch_tx c) (ch_flip c) (ch_inv c) (se_rows s) (se_mz s) (se_k s) (se_spin s) (se_space s)) /\
    block_diagonal (map se_rows ss) (ch_ham c) /\ hermitian (2 ^ n) (ch_ham c) /\
    forall eigh eigsh, (forall A, A = ch_ham c \/ In A (map (sector_matrix c) ss) -> eigenbasis A (snd (eigh A)) (fst (eigh A))) ->
      compared eigh eigsh c ss = Ok 0.
Proof.
  intros Z2 ZB R1 n. destruct (ring_ok rt z J Z2 ZB R1) as (c & EC & NS & RS & SH & HH & CM). fold n in NS, RS, SH, HH.
  destruct (chain_ok svd (2 ^ n) n (ch_sz c) (ch_tx c) (ch_flip c) (ch_inv c) ltac:(unfold n; lia) RS) as (ss & ES & SP & LB & BD).
  exists c, ss. split; [exact EC|]. split; [unfold reduced_chain; rewrite NS; exact ES|]. split; [exact SP|].
  assert (BH : block_diagonal (map se_rows ss) (ch_ham c)) by (apply BD; [exact SH|apply CM; cbn; tauto..]).
  split.
  { intros s Hs. destruct (LB s Hs) as (A & B). split; [exact A|]. split; [|exact B]. unfold sector_matrix.
    assert (CW : ncol (se_rows s) = (2 ^ n)%nat) by (apply (in_map se_rows), (In_nth _ _ (mzero 0 0)) in Hs as (a & Ha & <-); apply SP; exact Ha). destruct SH as (H1 & H2).
    intros i j Hi Hj. cbn [mmul madj ent ncol nrow]. rewrite H2, CW. rewrite ksum_conj.
    assert (X : forall i j, (i < nrow (se_rows s))%nat -> (j < nrow (se_rows s))%nat -> ksum (2 ^ n) (fun l => kmul (ksum (2 ^ n) (fun m => kmul (ent (se_rows s) i m) (ent (ch_ham c) m l))) (kconj (ent (se_rows s) j l))) =
      ksum (2 ^ n) (fun l => ksum (2 ^ n) (fun m => kmul (kmul (ent (se_rows s) i m) (ent (ch_ham c) m l)) (kconj (ent (se_rows s) j l))))) by (intros; apply ksum_ext; intros l Hl; rewrite ksum_mul_r; reflexivity).
    rewrite X by assumption. rewrite ksum_swap. apply ksum_ext. intros m Hm. rewrite kconj_mul, ksum_conj, kconj_inv, <- ksum_mul_r. apply ksum_ext. intros l Hl.
    rewrite kconj_mul, (HH m l Hm Hl). ring. }
  split; [exact BH|]. split; [exact HH|]. intros eigh eigsh SV. unfold compared.
  pose proof (diagH_dense eigh eigsh (ch_ham c) 200 (SV _ (or_introl eq_refl))) as (SO & EB & _ & NR). cbv zeta in *.
  set (D := diagH eigh eigsh (ch_ham c) 200 false) in *.
  assert (NV : nrow (snd D) = (2 ^ n)%nat) by (destruct EB as ((_ & W & _) & _); rewrite <- W; apply SH).
  pose (l := map (fun s => (se_rows s, snd (diagH eigh eigsh (sector_matrix c s) 200 false), fst (diagH eigh eigsh (sector_matrix c s) 200 false))) ss).
  destruct (blocks_spectrum (2 ^ n) (ch_ham c) l (snd D) (fst D) SH HH) as (_ & B).
  - unfold l. rewrite map_map. cbn [fst snd]. exact SP.
  - unfold l. rewrite map_map. cbn [fst snd]. exact BH.
  - intros x Hx. unfold l in Hx. apply in_map_iff in Hx as (s & <- & Hs). cbn [fst snd].
    apply (diagH_dense eigh eigsh (sector_matrix c s) 200). apply SV. right. apply in_map, Hs.
  - exact EB.
  - exact NV.
  - exact SO.
  - unfold l in B. rewrite map_map in B. cbn [snd] in B. rewrite B. apply same_lists. intros X.
    assert (P : nrow (snd D) <> 0%nat) by (rewrite NV; apply Nat.pow_nonzero; discriminate).
    pose proof (energies_count (ch_ham c) (snd D) (fst D) EB P) as W. rewrite X in W. cbn in W. congruence.
Qed.
