(** Energies of spins coupled to all earlier ones alike, of the four spins of
    the script, and of spins that are all coupled alike. *)
From Coq Require Import List Arith Lia ZArith QArith Reals Lra Bool Permutation.
From Verif Require Import Scalars Res Sums Matrix SpecMat ModelBase ModelSpins SpinAlg SpinHam SpinApi ModelGeometry ModelPhase ModelSites ModelSymmetry SymBase ModelThermal SpecThermal ThermalBase ThermalBasis ThermalDiag
  ModelFermions ModelFreeLattice ModelSpinLattice GeoTotal SpaceHubbard HeatRun ModelChain ChainSpectrum ModelFourSpins SpecAddition Addition AddTop AddStep AddFamily AddModel.
Import ListNotations.
Local Open Scope R_scope.

Theorem nested_solved sp c : nested_couplings sp c -> exists H, sp_createH np_sqrt sp None = Ok H /\ square ((sp_two sp + 1) ^ sg_nsites (sp_geom sp)) H /\
  hermitian ((sp_two sp + 1) ^ sg_nsites (sp_geom sp)) H /\
  forall V E, eigenbasis H V E -> Permutation E (level_energies (spin_levels c (sp_two sp) (sg_nsites (sp_geom sp)))) /\
    (sorted_list E -> E = np_sort (level_energies (spin_levels c (sp_two sp) (sg_nsites (sp_geom sp))))).
Proof.
  intros NC. destruct (nested_spectrum sp c NC) as (H & EH & SH & HH & EW). exists H. split; [exact EH|]. split; [exact SH|]. split; [exact HH|].
  intros V E EV.
  assert (NV : nrow V = ((sp_two sp + 1) ^ sg_nsites (sp_geom sp))%nat) by (destruct EV as ((_ & X & _) & _); rewrite <- X; apply SH).
  assert (P : Permutation E (level_energies (spin_levels c (sp_two sp) (sg_nsites (sp_geom sp))))).
  { apply (energies_perm H V (basis_of (dm (sp_two sp) (sg_nsites (sp_geom sp))) (fam (sp_two sp) c (sg_nsites (sp_geom sp))))); [rewrite NV; exact HH|exact EV|exact EW|]. cbn [basis_of nrow]. rewrite dm_pow, NV, Nat.add_1_r. reflexivity. }
  split; [exact P|]. intros SE. apply sorted_same; [exact SE|apply argsort_sorted|]. unfold np_sort. rewrite argsort_energies. exact P.
Qed.

(** ** The script *)
Lemma arange_total t s : arange2 (absdiff s t) (s + t + 2) = total_spins t s.
Proof.
  unfold arange2, total_spins, absdiff. rewrite (Nat.max_comm s), (Nat.min_comm s).
  replace ((s + t + 2 - (Nat.max t s - Nat.min t s) + 1) / 2)%nat with (S (Nat.min t s)); [reflexivity|].
  replace (s + t + 2 - (Nat.max t s - Nat.min t s) + 1)%nat with (1 + S (Nat.min t s) * 2)%nat by lia. rewrite Nat.div_add by lia. reflexivity.
Qed.
Lemma energies_flat {A} (g : A -> list (R * nat)) l : level_energies (flat_map g l) = flat_map (fun f => level_energies (g f)) l.
Proof. unfold level_energies. induction l as [|a l IH]; [reflexivity|]. cbn [flat_map]. rewrite flat_map_app, IH. reflexivity. Qed.
Lemma flat_map_map {A B C} (f : A -> B) (g : B -> list C) l : flat_map g (map f l) = flat_map (fun x => g (f x)) l.
Proof. rewrite !flat_map_concat_map, map_map. reflexivity. Qed.
Lemma flat_map_one {A B} (g : A -> list B) a : flat_map g [a] = g a.
Proof. cbn. apply app_nil_r. Qed.
Definition four_c (j1 j2 j3 : R) (i : nat) : R := match i with O => 0 | 1%nat => - j1 | 2%nat => - j2 | _ => - j3 end.
Lemma levels_S c s m : spin_levels c s (S m) = flat_map (fun f => map (fun T => (fst f + c m * (casimir T - casimir (snd f) - casimir s), T)) (total_spins (snd f) s)) (spin_levels c s m).
Proof. reflexivity. Qed.
Lemma flat_flat {A B C} (f : A -> list B) (g : B -> list C) l : flat_map g (flat_map f l) = flat_map (fun x => flat_map g (f x)) l.
Proof. induction l as [|a l IH]; [reflexivity|]. cbn [flat_map]. rewrite flat_map_app, IH. reflexivity. Qed.
Lemma analytic_levels two j1 j2 j3 : analytic_energies two j1 j2 j3 = level_energies (spin_levels (four_c j1 j2 j3) two 4).
Proof.
  assert (L1 : spin_levels (four_c j1 j2 j3) two 1 = [(0, two)]).
  { cbn [spin_levels]. rewrite flat_map_one. unfold total_spins. cbn [fst snd Nat.max Nat.min map seq]. rewrite Nat.sub_0_r, Nat.mul_0_r, Nat.add_0_r. cbn [four_c]. f_equal. f_equal. ring. }
  unfold analytic_energies. rewrite (levels_S _ _ 3), (levels_S _ _ 2), (levels_S _ _ 1), L1, flat_map_one. cbn [fst snd].
  rewrite flat_map_map, flat_flat, energies_flat. rewrite arange_total. apply flat_map_ext. intros t12. cbn [fst snd].
  rewrite flat_map_map, energies_flat. rewrite arange_total. apply flat_map_ext. intros t123. cbn [fst snd].
  unfold level_energies. rewrite flat_map_map, arange_total. apply flat_map_ext. intros T. cbn [fst snd]. rewrite Nat.add_1_r. f_equal.
  unfold analytic_energy, casimir, four_c. field.
Qed.
Lemma same_excess l : l <> [] -> max_excess l l = Ok 0.
Proof.
  intros N. unfold max_excess. rewrite Nat.eqb_refl. cbn [negb]. destruct l as [|a l]; [congruence|]. cbn [combine map fst snd].
  rewrite Rminus_diag_eq by reflexivity. f_equal. clear. induction l as [|b l IH]; [reflexivity|]. cbn [combine map fold_left fst snd].
  rewrite Rminus_diag_eq by reflexivity. rewrite Rmax_left by lra. exact IH.
Qed.
Theorem four_ok two j1 j2 j3 : exists s H, four_spins np_sqrt two j1 j2 j3 = Ok (s, H) /\ square ((two + 1) ^ 4) H /\ hermitian ((two + 1) ^ 4) H /\
  forall eigh eigsh, eigenbasis H (snd (eigh H)) (fst (eigh H)) ->
    fst (diagH eigh eigsh H 200 false) = np_sort (analytic_energies two j1 j2 j3) /\
    four_excess eigh eigsh np_sqrt two j1 j2 j3 = Ok 0.
Proof.
  destruct (square_total 4 1 0%Q 0%Q true true) as (g & LG); try lia.
  pose proof (sites_n 4 1 true true g ltac:(lia) ltac:(lia) ltac:(lia) ltac:(lia) LG) as NG. change (Z.to_nat (4 * 1)) with 4%nat in NG.
  unfold four_excess, four_spins. rewrite LG. cbn [bind].
  match goal with |- exists s H, bind ?m _ = _ /\ _ => destruct m as [s|e] eqn:ES end.
  2:{ exfalso. unfold spins_init, interaction_mat in ES. cbn [sgeom_of sg_nsites] in ES. rewrite NG in ES. cbn in ES. discriminate. }
  pose proof (spins_init_ok _ _ _ _ _ _ _ _ _ s ES) as ST. cbv zeta in ST. destruct ST as (GE & TW & (_ & _ & JX) & (_ & _ & JY) & (_ & _ & JZ) & HX & HY & HZ).
  assert (NS : sg_nsites (sp_geom s) = 4%nat) by (rewrite GE; exact NG).
  assert (NC : nested_couplings s (four_c j1 j2 j3)).
  { split; rewrite NS.
    - intros i j Hij. rewrite JX, JY, JZ. assert (E : four_js j1 j2 j3 i j = real (four_c j1 j2 j3 i)); [|rewrite E; auto].
      assert (I : (i = 1 \/ i = 2 \/ i = 3)%nat) by lia. destruct I as [->|[->| ->]].
      + replace j with 0%nat by lia. reflexivity.
      + assert (J : (j = 0 \/ j = 1)%nat) by lia. destruct J as [->| ->]; reflexivity.
      + assert (J : (j = 0 \/ j = 1 \/ j = 2)%nat) by lia. destruct J as [->|[->| ->]]; reflexivity.
    - intros i _. rewrite HX, HY, HZ. auto. }
  destruct (nested_solved s (four_c j1 j2 j3) NC) as (H & EH & SH & HH & SV). rewrite NS, TW in SH, HH, SV. rewrite <- analytic_levels in SV.
  exists s, H. cbn [bind]. rewrite EH. cbn [bind snd]. split; [reflexivity|]. split; [exact SH|]. split; [exact HH|].
  intros eigh eigsh EB. destruct (diagH_dense eigh eigsh H 200 EB) as (SO & EB' & _). destruct (SV _ _ EB') as (P & Q). specialize (Q SO).
  split; [exact Q|]. rewrite <- Q. apply same_excess. intros X.
  assert (NR : nrow (snd (diagH eigh eigsh H 200 false)) = ((two + 1) ^ 4)%nat) by (destruct EB' as ((_ & W & _) & _); rewrite <- W; apply SH).
  assert (N0 : nrow (snd (diagH eigh eigsh H 200 false)) <> 0%nat) by (rewrite NR; apply Nat.pow_nonzero; lia).
  pose proof (energies_count H _ _ EB' N0) as W. rewrite X in W. cbn in W. congruence.
Qed.

(** ** All couplings alike *)
Lemma alike_energy c s n : forall f, In f (spin_levels (fun _ => c) s n) -> fst f = c * (casimir (snd f) - INR n * casimir s) /\ (snd f <= n * s)%nat /\ Nat.even (snd f) = Nat.even (n * s).
Proof.
  induction n as [|n IH]; intros f Hf.
  - destruct Hf as [<-|[]]. cbn [fst snd]. split; [unfold casimir; cbn [INR]; field|]. split; [lia|reflexivity].
  - rewrite levels_S in Hf. apply in_flat_map in Hf as (g & Hg & Hf). apply in_map_iff in Hf as (T & <- & HT). destruct (IH g Hg) as (E & B & P).
    unfold total_spins in HT. apply in_map_iff in HT as (k & <- & Hk). apply in_seq in Hk. cbn [fst snd]. split; [|split].
    + rewrite E, S_INR. ring.
    + nia.
    + rewrite Nat.even_add_mul_2. change (S n * s)%nat with (s + n * s)%nat. rewrite Nat.even_add, <- P, Nat.even_sub by lia.
      destruct (Nat.max_spec (snd g) s) as [(L & ->)|(L & ->)], (Nat.min_spec (snd g) s) as [(L' & ->)|(L' & ->)]; try lia;
        destruct (Nat.even (snd g)), (Nat.even s); reflexivity.
Qed.
Lemma in_total t s T : (t <= T + s)%nat -> (s <= T + t)%nat -> (T <= t + s)%nat -> Nat.even (t + s) = Nat.even T -> In T (total_spins t s).
Proof.
  intros A B C P. unfold total_spins. apply in_map_iff.
  assert (Q : Nat.even (T - (Nat.max t s - Nat.min t s)) = true).
  { rewrite Nat.even_sub, Nat.even_sub, <- P, Nat.even_add by lia.
    destruct (Nat.max_spec t s) as [(L & ->)|(L & ->)], (Nat.min_spec t s) as [(L' & ->)|(L' & ->)]; try lia; destruct (Nat.even t), (Nat.even s); reflexivity. }
  apply Nat.even_spec in Q as (k & Hk). exists k. split; [lia|]. apply in_seq. lia.
Qed.
Lemma alike_reached c s n T : (2 <= n)%nat -> (T <= n * s)%nat -> Nat.even T = Nat.even (n * s) -> exists e, In (e, T) (spin_levels c s n).
Proof.
  revert T. induction n as [|n IH]; intros T N B P; [lia|].
  assert (X : exists e t, In (e, t) (spin_levels c s n) /\ In T (total_spins t s)).
  { destruct (Nat.eq_dec n 1) as [->|N1].
    - exists (0 + c 0%nat * (casimir s - casimir 0 - casimir s)), s. split.
      + rewrite levels_S. cbn [spin_levels]. rewrite flat_map_one. cbn [fst snd]. unfold total_spins. cbn [Nat.max Nat.min map seq]. left. rewrite Nat.sub_0_r, Nat.mul_0_r, Nat.add_0_r. reflexivity.
      + apply in_total; try lia. rewrite P. f_equal. lia.
    - set (t := (Nat.max T s - Nat.min T s)%nat). destruct (IH t) as (e & He); [lia|nia| |].
      + unfold t. rewrite Nat.even_sub by lia. change (S n * s)%nat with (s + n * s)%nat in P. rewrite Nat.even_add in P.
        destruct (Nat.max_spec T s) as [(L & ->)|(L & ->)], (Nat.min_spec T s) as [(L' & ->)|(L' & ->)]; try lia;
          rewrite P; destruct (Nat.even s), (Nat.even (n * s)); reflexivity.
      + exists e, t. split; [exact He|]. apply in_total; try lia. unfold t. rewrite Nat.even_add, Nat.even_sub by lia.
        destruct (Nat.max_spec T s) as [(L & ->)|(L & ->)], (Nat.min_spec T s) as [(L' & ->)|(L' & ->)]; try lia; destruct (Nat.even s), (Nat.even T); reflexivity. }
  destruct X as (e & t & He & Ht). eexists. rewrite levels_S. apply in_flat_map. exists (e, t). split; [exact He|]. cbn [fst snd]. apply in_map_iff. exists T. split; [reflexivity|exact Ht].
Qed.
Lemma in_energies l e : In e (level_energies l) <-> exists T, In (e, T) l.
Proof.
  unfold level_energies. rewrite in_flat_map. split.
  - intros ((e', T) & Hf & He). cbn [fst snd] in He. apply repeat_spec in He. subst e'. exists T. exact Hf.
  - intros (T & HT). exists (e, T). split; [exact HT|]. cbn. left. reflexivity.
Qed.
Theorem alike_solved sp c : (2 <= sg_nsites (sp_geom sp))%nat -> nested_couplings sp (fun _ => c) ->
  let n := sg_nsites (sp_geom sp) in let s := sp_two sp in
  exists H, sp_createH np_sqrt sp None = Ok H /\ forall V E, eigenbasis H V E ->
    forall e, In e E <-> exists T, (T <= n * s)%nat /\ Nat.even T = Nat.even (n * s) /\ e = c * (casimir T - INR n * casimir s).
Proof.
  intros N2 NC n s. destruct (nested_solved sp (fun _ => c) NC) as (H & EH & SH & HH & SV). exists H. split; [exact EH|]. intros V E EB e.
  destruct (SV V E EB) as (P & _). fold n s in P.
  assert (IFF : In e E <-> In e (level_energies (spin_levels (fun _ => c) s n))) by (split; apply Permutation_in; [exact P|symmetry; exact P]).
  rewrite IFF, in_energies. split.
  - intros (T & HT). destruct (alike_energy c s n _ HT) as (A & B & C). exists T. auto.
  - intros (T & B & C & ->). destruct (alike_reached (fun _ => c) s n T N2 B C) as (e & He). exists T. destruct (alike_energy c s n _ He) as (A & _). cbn [fst snd] in A. rewrite <- A. exact He.
Qed.

(** One basis for any couplings. *)
Lemma squares_levels c s n : spin_squares c s n = spin_levels (fun _ => 1) s n.
Proof.
  pose proof (fam_same s c (fun _ => 1) n) as F. apply (f_equal (map fst)) in F. rewrite !map_map in F. cbn [fst] in F.
  unfold spin_squares. rewrite <- (fam_levels s c n), <- (fam_levels s (fun _ => 1) n), map_map.
  assert (A : forall f, In f (fam s (fun _ => 1) n) -> fst f = (casimir (mt f) - INR n * casimir s, mt f)).
  { intros f Hf. apply (in_map fst) in Hf. rewrite fam_levels in Hf. destruct (alike_energy 1 s n _ Hf) as (E & _).
    unfold mt. rewrite (surjective_pairing (fst f)) at 1. rewrite E. f_equal. ring. }
  transitivity (map (fun t => (casimir t - INR n * casimir s, t)) (map (fun x : member => mt x) (fam s c n))); [rewrite map_map; reflexivity|].
  transitivity (map (fun t => (casimir t - INR n * casimir s, t)) (map (fun x : member => mt x) (fam s (fun _ => 1) n))); [f_equal; exact F|].
  rewrite map_map. symmetry. exact (map_ext_in _ _ _ A).
Qed.
Theorem nested_joint sp sp1 c : nested_couplings sp c -> nested_couplings sp1 (fun _ => 1) -> sp_two sp1 = sp_two sp -> sg_nsites (sp_geom sp1) = sg_nsites (sp_geom sp) ->
  exists H H1 V, sp_createH np_sqrt sp None = Ok H /\ sp_createH np_sqrt sp1 None = Ok H1 /\
    eigenbasis H V (level_energies (spin_levels c (sp_two sp) (sg_nsites (sp_geom sp)))) /\
    eigenbasis H1 V (level_energies (spin_squares c (sp_two sp) (sg_nsites (sp_geom sp)))).
Proof.
  intros NC N1 T N. destruct (nested_spectrum sp c NC) as (H & EH & _ & _ & EW). destruct (nested_spectrum sp1 _ N1) as (H1 & EH1 & _ & _ & EW1).
  rewrite T, N, (basis_same _ _ c), <- (squares_levels c) in EW1. exists H, H1. eexists. split; [exact EH|]. split; [exact EH1|]. split; [exact EW|exact EW1].
Qed.
Theorem levels_count c s n : list_sum (map (fun f => S (snd f)) (spin_levels c s n)) = (S s ^ n)%nat.
Proof. destruct (fam_ok s c n) as (_ & _ & CT). rewrite <- (fam_levels s c n), map_map, <- dm_pow, <- CT at 1. reflexivity. Qed.
