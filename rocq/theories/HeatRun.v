(** The script cluster/diag_cluster.py: proofs. *)
From Coq Require Import List Arith Lia Reals Lra QArith Bool Permutation.
From Verif Require Import Scalars Res Sums Matrix SpecMat ModelBase ModelSpins SpecSpins ModelGeometry ModelPhase ModelSymmetry SymBase ModelThermal SpecThermal ThermalBase ThermalFacts ThermalBasis ThermalDiag
  SpinApi SpecHeat Thermo HeatCore HeatMore ModelSpinLattice ModelRun.
From Verif Require SymAverage Spectral.
Import ListNotations.
Local Open Scope R_scope.

Section Quantities.
  Variables (H V : mat CR) (E : list R).
  Hypothesis basis : eigenbasis H V E.
  Hypothesis rows : nrow V <> 0%nat.
  Lemma thermo_energy (O : mat CR) (f : R -> R) T : nrow O = nrow V /\ ncol O = nrow V -> (forall k, (k < length E)%nat -> expect (nrow V) O (col V k) = f (nth k E 0)) -> T <> 0 ->
    exp_vals_thermal V O E T = Ok (total (fun e => chance T E e * f e) E).
  Proof using basis rows.
    intros SO EV T0. rewrite (avg_val H V E basis rows O T SO T0). f_equal. rewrite chance_ave. apply ave_ext. intros k Hk. apply in_seq in Hk. apply EV. lia.
  Qed.
  Theorem thermo_val T : T <> 0 -> cluster_thermo V H E T = Ok (mean_energy T E, entropy T E, heat T E).
  Proof using basis rows.
    intros T0. pose proof (E_some H V E basis rows) as ne. pose proof (sized_H H V E basis) as (S1 & S2). unfold cluster_thermo.
    rewrite (thermo_energy H (fun e => e)) by (try split; assumption || intros; apply (ev_H1 H V E basis); assumption). fold (mean_energy T E). cbn [bind].
    unfold cmulv. rewrite S1, S2, Nat.eqb_refl. cbn [bind].
    rewrite (thermo_energy (mmul H H) (fun e => e ^ 2)); [|split; assumption|intros k Hk; rewrite (ev_H H V E basis H k) by (try split; assumption); rewrite (ev_H1 H V E basis) by assumption; ring|exact T0].
    cbn [bind]. f_equal. f_equal; [f_equal|].
    - rewrite entropy_val by exact ne. f_equal. unfold zustand. rewrite lsum_map. reflexivity.
    - rewrite heat_val by exact ne. field. exact T0.
  Qed.
  Lemma energies_count : length E = nrow V.
  Proof using basis rows.
    pose proof (trace_sum H V E basis (meye (nrow V)) ltac:(split; reflexivity)) as X. apply INR_eq.
    rewrite (total_ext _ (fun _ => 1)) in X.
    2:{ intros k Hk. apply in_seq in Hk. destruct basis as ((L & _) & ON & _). unfold expect. rewrite (inner_ext (nrow V) _ (col V k) _ (col V k)); [rewrite (ON k k) by lia; rewrite Nat.eqb_refl; reflexivity | reflexivity|].
        intros i Hi. unfold apply. cbn [meye ent]. rewrite (ksum_single (nrow V) i) by (try exact Hi; intros j Hj Nj; rewrite (proj2 (Nat.eqb_neq i j)) by congruence; cbn [kb]; change k0 with c0; ring). rewrite Nat.eqb_refl. cbn [kb]. change k1 with c1. ring. }
    assert (Y : total (fun i => fst (ent (@meye CR _ (nrow V)) i i)) (seq 0 (nrow V)) = total (fun _ => 1) (seq 0 (nrow V))) by (apply total_ext; intros i _; cbn [meye ent]; rewrite Nat.eqb_refl; reflexivity).
    rewrite Y in X. rewrite !FermiModes.total_const, !seq_length in X. lra.
  Qed.
End Quantities.

(** The quantities depend on the Hamiltonian only. *)
Theorem thermo_basis H V V' E E' : eigenbasis H V E -> eigenbasis H V' E' -> nrow V <> 0%nat -> forall T, T <> 0 -> cluster_thermo V H E T = cluster_thermo V' H E' T.
Proof.
  intros B B' N T T0. assert (SR : nrow V' = nrow V) by (destruct B as ((_ & S & _) & _), B' as ((_ & S' & _) & _); congruence).
  assert (N' : nrow V' <> 0%nat) by congruence.
  pose proof (E_some H V E B N) as ne. pose proof (E_some H V' E' B' N') as ne'.
  pose proof (SymAverage.eigenbasis_hermitian H V E B) as HM. pose proof (sized_H H V E B) as SH.
  assert (T1 : forall f : R -> R, total f E = total f E').
  { intros f. pose proof (trace_indep H V V' (meye (nrow V)) E E' HM B B' SR f) as X. destruct B as ((L & _) & ON & _), B' as ((L' & _) & ON' & _).
    assert (U : forall W k, (k < ncol W)%nat -> orthonormal W -> expect (nrow W) (meye (nrow W)) (col W k) = 1).
    { intros W k Hk O. unfold expect. rewrite (inner_ext (nrow W) _ (col W k) _ (col W k)); [rewrite (O k k) by lia; rewrite Nat.eqb_refl; reflexivity | reflexivity|].
      intros i Hi. unfold apply. cbn [meye ent]. rewrite (ksum_single (nrow W) i) by (try exact Hi; intros j Hj Nj; rewrite (proj2 (Nat.eqb_neq i j)) by congruence; cbn [kb]; change k0 with c0; ring). rewrite Nat.eqb_refl. cbn [kb]. change k1 with c1. ring. }
    rewrite (total_ext _ (fun k => f (nth k E 0))) in X by (intros k Hk; apply in_seq in Hk; rewrite U by (assumption || lia); ring).
    rewrite (total_ext (fun l => f (nth l E' 0) * _) (fun k => f (nth k E' 0))) in X by (intros k Hk; apply in_seq in Hk; rewrite <- SR; rewrite U by (assumption || lia); ring).
    rewrite L, L' in X. rewrite (total_seq f E), (total_seq f E'). exact X. }
  rewrite (thermo_val H V E B N T T0), (thermo_val H V' E' B' N' T T0).
  assert (Z : zustand T E = zustand T E') by apply T1.
  assert (C : forall e, chance T E e = chance T E' e) by (intros; unfold chance; rewrite Z; reflexivity).
  assert (M : mean_energy T E = mean_energy T E') by (unfold mean_energy; rewrite T1; apply total_ext; intros; rewrite C; reflexivity).
  f_equal. f_equal; [f_equal; [exact M|]|].
  - unfold entropy. rewrite T1. f_equal. apply total_ext. intros e _. rewrite C. reflexivity.
  - unfold heat. rewrite T1. f_equal. apply total_ext. intros e _. rewrite C, M. reflexivity.
Qed.

(** ** The script *)
Lemma pair_sum_one : pair_sum 1 = Ok 0. Proof. reflexivity. Qed.
Lemma pair_sum_more n : (2 <= n)%nat -> pair_sum n = Raise AttributeError.
Proof. intros Hn. destruct n as [|[|n]]; [lia|lia|]. reflexivity. Qed.
Lemma run_temps_pos T : In T run_temps -> 0 < T.
Proof. intros HT. unfold run_temps in HT. apply in_map_iff in HT as (k & <- & _). apply exp_pos. Qed.

Lemma run_temps_geo : length run_temps = 50%nat /\ nth 0 run_temps 0 = / 10 /\ nth 49 run_temps 0 = sqrt 1000 / 10 /\ exists q, forall k, (k < 49)%nat -> nth (S k) run_temps 0 = q * nth k run_temps 0.
Proof.
  assert (N : forall k, (k < 50)%nat -> nth k run_temps 0 = Rpower 10 (-1 + 3 / 2 * (INR k / 49))).
  { intros k Hk. unfold run_temps. rewrite nth_indep with (d' := Rpower 10 (-1 + 3 / 2 * (INR 0 / 49))) by (rewrite map_length, seq_length; exact Hk). rewrite (map_nth (fun k => Rpower 10 (-1 + 3 / 2 * (INR k / 49)))), seq_nth by exact Hk. reflexivity. }
  split; [unfold run_temps; rewrite map_length, seq_length; reflexivity|]. split; [|split].
  - rewrite N by lia. cbn [INR]. replace (-1 + 3 / 2 * (0 / 49)) with (- (1)) by field. rewrite Rpower_Ropp, Rpower_1 by lra. reflexivity.
  - rewrite N by lia. replace (INR 49) with 49 by (cbn; ring). replace (-1 + 3 / 2 * (49 / 49)) with (INR 3 * / 2 + - (1)) by (cbn; field). rewrite Rpower_plus, Rpower_Ropp, Rpower_1 by lra.
    unfold Rdiv. f_equal. rewrite <- Rpower_mult, Rpower_pow, Rpower_sqrt by lra. f_equal. ring.
  - exists (Rpower 10 (3 / 98)). intros k Hk. rewrite !N by lia. rewrite <- Rpower_plus, S_INR. f_equal. field.
Qed.

Lemma rmap_all {A B} (f : A -> res B) h l : (forall a, In a l -> f a = Ok (h a)) -> rmap f l = Ok (map h l).
Proof.
  induction l as [|a l IH]; intros X; [reflexivity|]. cbn [rmap map]. rewrite (X a (or_introl eq_refl)). cbn [bind]. rewrite IH by (intros; apply X; right; assumption). reflexivity.
Qed.

Section Script.
  Variable rt : nat -> CR.
  Hypothesis R1 : rt 1%nat = c1.
  Variable eigh : cmat -> list R * cmat.
  Variable g : geometry CR.
  Lemma spins_exist : exists s, run_spins g = Ok s /\ sg_nsites (sp_geom s) = g_n g /\ sp_two s = 1%nat /\ (forall i, sp_hx s i = c0 /\ sp_hy s i = c0 /\ sp_hz s i = c0).
  Proof using.
    eexists. split; [reflexivity|]. split; [reflexivity|]. split; [reflexivity|]. intros i. cbn [sp_hx sp_hy sp_hz]. repeat split; apply injective_projections; cbn; ring.
  Qed.
  Hypothesis solver : forall s H, run_spins g = Ok s -> sp_createH rt s None = Ok H -> eigenbasis H (snd (eigh H)) (fst (eigh H)).
  Lemma run_steps : exists s H V E, run_spins g = Ok s /\ sg_nsites (sp_geom s) = g_n g /\ sp_createH rt s None = Ok H /\ diagH eigh (fun H _ => eigh H) H 200 false = (E, V) /\ eigenbasis H V E /\ nrow V <> 0%nat /\
    meq H (pauli_hamiltonian (g_n g) (sp_jx s) (sp_jy s) (sp_jz s) (fun _ => c0) (fun _ => c0) (fun _ => c0)).
  Proof using R1 solver.
    destruct spins_exist as (s & ES & NS & TW & HF). destruct (half_model_documented rt s TW R1 ltac:(intros; apply HF)) as (H & EH & M).
    destruct (diagH_dense eigh (fun H _ => eigh H) H 200 (solver s H ES EH)) as (_ & B & _ & _). destruct (diagH eigh (fun H _ => eigh H) H 200 false) as [E V] eqn:D. cbn [fst snd] in B.
    exists s, H, V, E. split; [exact ES|]. split; [exact NS|]. split; [exact EH|]. split; [exact D|]. split; [exact B|].
    rewrite NS in M. split.
    - destruct B as ((_ & S & _) & _). destruct M as (M & _). rewrite <- S, M. cbn. apply Nat.pow_nonzero. discriminate.
    - destruct M as (M1 & M2 & M3). split; [exact M1|]. split; [exact M2|]. intros i j Hi Hj. rewrite M3 by assumption. cbn [ent pauli_hamiltonian]. unfold spin_elem. f_equal.
      apply ksum_ext. intros k Hk. destruct (HF k) as (-> & -> & ->). reflexivity.
  Qed.
  Theorem run_model : let J := fun a b => if Qeq_bool (ent (g_adj g) a b) 0 then c0 else ((1 / 2, 0) : CR) *c ent (g_phase g) a b in exists s H, run_spins g = Ok s /\ sp_createH rt s None = Ok H /\ meq H (pauli_hamiltonian (g_n g) J J J (fun _ => c0) (fun _ => c0) (fun _ => c0)).
  Proof using R1.
    intros J. destruct spins_exist as (s & ES & NS & TW & HF). destruct (half_model_documented rt s TW R1 ltac:(intros; apply HF)) as (H & EH & M1 & M2 & M3). exists s, H. split; [exact ES|]. split; [exact EH|].
    rewrite NS in M1, M2, M3. split; [exact M1|]. split; [exact M2|]. intros i j Hi Hj. rewrite M3 by assumption. cbn [ent pauli_hamiltonian].
    assert (X : forall a b, sp_jx s a b = J a b /\ sp_jy s a b = J a b /\ sp_jz s a b = J a b).
    { clear - ES. injection ES as <-. intros a b. cbn [sp_jx sp_jy sp_jz sgeom_of sg_adj sg_phase]. unfold J. destruct (Qeq_bool _ _); cbn [negb kb]; repeat split; apply injective_projections; cbn; unfold Q2R; cbn; field. }
    unfold spin_elem. f_equal; [|apply ksum_ext; intros k Hk; destruct (HF k) as (-> & -> & ->); reflexivity].
    apply ksum_ext. intros a _. apply ksum_ext. intros b _. destruct (X a b) as (-> & -> & ->). reflexivity.
  Qed.
  Theorem run_fails : (2 <= g_n g)%nat -> run_cluster rt eigh g = Raise AttributeError.
  Proof using R1 solver.
    intros Hn. destruct run_steps as (s & H & V & E & ES & NS & EH & D & B & N & _). unfold run_cluster. rewrite ES. cbn [bind]. rewrite EH. cbn [bind]. rewrite D, NS, (pair_sum_more _ Hn).
    pose proof run_temps_pos as P. assert (X : exists T l, run_temps = T :: l) by (eexists; eexists; reflexivity). destruct X as (T & l & X). rewrite X in *. cbn [rmap].
    rewrite (thermo_val H V E B N T) by (specialize (P T (or_introl eq_refl)); lra). reflexivity.
  Qed.
  Theorem run_single : g_n g = 1%nat -> run_cluster rt eigh g = Ok ([0; 0], map (fun _ => (0, ln 2, 0, 0)) run_temps).
  Proof using R1 solver.
    intros Hn. destruct run_steps as (s & H & V & E & ES & NS & EH & D & B & N & M). unfold run_cluster. rewrite ES. cbn [bind]. rewrite EH. cbn [bind]. rewrite D, NS, Hn, pair_sum_one.
    rewrite Hn in M. destruct M as (M1 & M2 & M3). change (nrow H = 2%nat) in M1. change (ncol H = 2%nat) in M2.
    assert (Z : forall i j, (i < 2)%nat -> (j < 2)%nat -> ent H i j = c0).
    { intros i j Hi Hj. rewrite M3 by lia. cbn [pauli_hamiltonian ent]. unfold spin_elem. cbn [ksum]. 
      apply injective_projections; cbn; ring. }
    pose proof (energies_count H V E B N) as LE.
    destruct B as ((L & S1 & S2 & EV) & ON & CM) eqn:EB.
    assert (NV : nrow V = 2%nat) by congruence. rewrite NV in LE.
    assert (E0 : forall k, (k < 2)%nat -> nth k E 0 = 0).
    { intros k Hk. pose proof (ON k k ltac:(lia) ltac:(lia)) as O. rewrite Nat.eqb_refl in O.
      assert (W : forall i, (i < 2)%nat -> real (nth k E 0) *c ent V i k = c0).
      { intros i Hi. change (real (nth k E 0)) with (nth k E 0, 0). rewrite <- (EV i k) by lia. unfold apply. rewrite NV. apply ksum_zero. intros j Hj. rewrite Z by lia. apply injective_projections; cbn; ring. }
      assert (Y : real (nth k E 0) *c inner (nrow V) (col V k) (col V k) = c0).
      { rewrite NV. unfold inner. rewrite <- ksum_mul_l. apply ksum_zero. intros i Hi. unfold col. replace (real (nth k E 0) *c (conj (ent V i k) *c ent V i k)) with (conj (ent V i k) *c (real (nth k E 0) *c ent V i k)) by ring. rewrite W by lia. apply injective_projections; cbn; ring. }
      rewrite O in Y. apply (f_equal fst) in Y. cbn in Y. lra. }
    assert (EE : E = [0; 0]). { destruct E as [|a [|b [|c E']]]; cbn in LE; try lia. pose proof (E0 0%nat ltac:(lia)) as A1. pose proof (E0 1%nat ltac:(lia)) as A2. cbn in A1, A2. subst. reflexivity. }
    clear EB. assert (B' : eigenbasis H V E) by (split; [split; [exact L|]; split; [exact S1|]; split; [exact S2 | exact EV] | split; assumption]).
    rewrite (rmap_all _ (fun _ => (0, ln 2, 0, 0))); [cbn [bind]; rewrite EE; reflexivity|].
    intros T HT. pose proof (run_temps_pos T HT) as TP. rewrite (thermo_val H V E B' N T) by lra. cbn [bind].
    assert (ME : mean_energy T E = 0) by (rewrite EE; unfold mean_energy; cbn; ring).
    assert (ZE : zustand T E = 2) by (rewrite EE; unfold zustand; cbn; replace (- 0 / T) with 0 by (unfold Rdiv; ring); rewrite exp_0; ring).
    rewrite entropy_val by (rewrite EE; discriminate). rewrite ZE. unfold heat. rewrite ME.
    replace (total (fun e => chance T E e * (e - 0) ^ 2) E) with 0 by (rewrite EE; cbn; ring). unfold Rdiv. rewrite !Rmult_0_l, Rplus_0_r. reflexivity.
  Qed.
End Script.

(** ** Laws of the computed quantities *)
Theorem thermo_laws H V E : eigenbasis H V E -> nrow V <> 0%nat -> exists e s c, forall T, T <> 0 ->
  cluster_thermo V H E T = Ok (e T, s T, c T) /\ derivable_pt_lim e T (c T) /\ derivable_pt_lim s T (c T / T) /\ 0 <= c T /\ 0 <= s T <= ln (INR (nrow V)).
Proof.
  intros B N. pose proof (E_some H V E B N) as ne. exists (fun T => mean_energy T E), (fun T => entropy T E), (fun T => heat T E). intros T T0.
  split; [apply thermo_val; assumption|]. split; [apply mean_slope; assumption|]. split; [apply entropy_slope; assumption|]. split; [apply heat_ge0; assumption|].
  split; [apply entropy_ge0; exact ne|]. rewrite <- (energies_count H V E B N). apply entropy_le; exact ne.
Qed.
Theorem thermo_hot H V E : eigenbasis H V E -> nrow V <> 0%nat -> forall eps, 0 < eps -> exists T0, 0 < T0 /\ forall T e s c, T0 < T ->
  cluster_thermo V H E T = Ok (e, s, c) -> Rabs (s - ln (INR (nrow V))) < eps.
Proof.
  intros B N eps He. pose proof (E_some H V E B N) as ne. destruct (entropy_hot E ne eps He) as (T0 & P & X). exists T0. split; [exact P|]. intros T e s c HT R.
  rewrite (thermo_val H V E B N T) in R by lra. injection R as <- <- <-. rewrite <- (energies_count H V E B N). apply X, HT.
Qed.
Theorem thermo_cold H V E : eigenbasis H V E -> nrow V <> 0%nat -> forall m, smallest m E -> forall eps, 0 < eps -> exists T0, 0 < T0 /\ forall T e s c, 0 < T < T0 ->
  cluster_thermo V H E T = Ok (e, s, c) -> Rabs (s - ln (occurs m E)) < eps.
Proof.
  intros B N m SM eps He. destruct (entropy_cold E m SM eps He) as (T0 & P & X). exists T0. split; [exact P|]. intros T e s c HT R.
  rewrite (thermo_val H V E B N T) in R by lra. injection R as <- <- <-. apply X, HT.
Qed.
Lemma shifted_basis H V E c : eigenbasis H V E -> eigenbasis (madd H (mscale (real c) (meye (nrow H)))) V (map (fun e => e + c) E).
Proof.
  intros ((L & S1 & S2 & EV) & ON & CM). split; [|split; assumption]. split; [rewrite map_length; exact L|]. split; [exact S1|]. split; [exact S2|]. intros i k Hi Hk.
  rewrite (nth_indep _ 0 ((fun e => e + c) 0)) by (rewrite map_length; lia). rewrite (map_nth (fun e => e + c)).
  assert (A : apply (nrow V) (madd H (mscale (real c) (meye (nrow H)))) (col V k) i = apply (nrow V) H (col V k) i +c real c *c col V k i).
  { unfold apply. cbn [madd mscale meye ent].
    rewrite (ksum_ext (nrow V) _ (fun j => ent H i j *c col V k j +c (real c *c kb (i =? j)%nat) *c col V k j)) by (intros j Hj; change (@kadd CR _) with cadd || idtac; ring).
    rewrite ksum_add. f_equal. rewrite (ksum_single (nrow V) i) by (try exact Hi; intros j Hj Nj; rewrite (proj2 (Nat.eqb_neq i j)) by congruence; cbn [kb]; change k0 with c0; ring).
    rewrite Nat.eqb_refl. cbn [kb]. change k1 with c1. ring. }
  rewrite A, (EV i k Hi Hk). unfold col. apply injective_projections; cbn; ring.
Qed.
Theorem thermo_shift H V E a V' E' : eigenbasis H V E -> nrow V <> 0%nat -> eigenbasis (madd H (mscale (real a) (meye (nrow H)))) V' E' -> forall T e s c, T <> 0 ->
  cluster_thermo V H E T = Ok (e, s, c) -> cluster_thermo V' (madd H (mscale (real a) (meye (nrow H)))) E' T = Ok (e + a, s, c).
Proof.
  intros B N B' T e s c T0 R. pose proof (E_some H V E B N) as ne. pose proof (shifted_basis H V E a B) as BS.
  rewrite <- (thermo_basis _ V V' _ E' BS B' N T T0). rewrite (thermo_val _ V _ BS N T T0). rewrite (thermo_val H V E B N T T0) in R. injection R as <- <- <-.
  rewrite mean_shift, entropy_shift, heat_shift by exact ne. reflexivity.
Qed.
Theorem thermo_sums H1 V1 E1 H2 V2 E2 H V E : eigenbasis H1 V1 E1 -> eigenbasis H2 V2 E2 -> eigenbasis H V E -> nrow V1 <> 0%nat -> nrow V2 <> 0%nat -> nrow V <> 0%nat ->
  Permutation E (energy_sums E1 E2) -> forall T e1 s1 c1 e2 s2 c2, T <> 0 -> cluster_thermo V1 H1 E1 T = Ok (e1, s1, c1) -> cluster_thermo V2 H2 E2 T = Ok (e2, s2, c2) ->
  cluster_thermo V H E T = Ok (e1 + e2, s1 + s2, c1 + c2).
Proof.
  intros B1 B2 B N1 N2 N P T e1 s1 c1 e2 s2 c2 T0 R1 R2. pose proof (E_some _ _ _ B1 N1) as ne1. pose proof (E_some _ _ _ B2 N2) as ne2.
  rewrite (thermo_val _ _ _ B1 N1 T T0) in R1. rewrite (thermo_val _ _ _ B2 N2 T T0) in R2. injection R1 as <- <- <-. injection R2 as <- <- <-.
  rewrite (thermo_val _ _ _ B N T T0), (mean_perm T _ _ P), (entropy_perm T _ _ P), (heat_perm T _ _ P), mean_sums, entropy_sums, heat_sums by assumption. reflexivity.
Qed.
