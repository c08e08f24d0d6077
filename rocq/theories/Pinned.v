(** Terms that change the basis states lower the free energy and the lowest energy. *)
From Coq Require Import List Arith Lia Reals Lra ZArith QArith Qabs Bool.
From Verif Require Import Scalars Res Matrix Sums SqMat SpecMat SpecFock OpsProofs FockProofs FermiOps ModelBase ModelFermions ModelSpins SpecSpins Digits SpinAlg SpinOps HamProofs FermiApi SpinHam SpinSym SpinApi Sectors SpecShells Shells ModelCurrent CurrentApi
  ModelGeometry ModelPhase ModelSymmetry SymBase ModelThermal SpecThermal ThermalBase ThermalFacts ThermalBasis Spectral Thermo SpecHeat HeatCore SpecConvex Convex ConvexRun Equil SpecPinned.
From Verif Require SymAverage Reversal Bloch.
Import ListNotations.
Local Open Scope R_scope.

Lemma apply_eye n (H : mat CR) k i : (k < n)%nat -> apply n H (col (meye n) k) i = ent H i k.
Proof.
  intros Hk. unfold apply, col. cbn [meye ent]. rewrite (ksum_single n k _ Hk).
  - rewrite Nat.eqb_refl. generalize (ent H i k). intros (u, v). apply injective_projections; cbn; ring.
  - intros j _ NE. rewrite (proj2 (Nat.eqb_neq _ _) NE). generalize (ent H i j). intros (u, v). apply injective_projections; cbn; ring.
Qed.
Lemma inner_eye n k (psi : nat -> CR) : (k < n)%nat -> inner n (col (meye n) k) psi = psi k.
Proof.
  intros Hk. unfold inner, col. cbn [meye ent]. rewrite (ksum_single n k _ Hk).
  - rewrite Nat.eqb_refl. destruct (psi k) as (u, v). apply injective_projections; cbn; ring.
  - intros j _ NE. rewrite (proj2 (Nat.eqb_neq _ _) NE). destruct (psi j) as (u, v). apply injective_projections; cbn; ring.
Qed.
(** A diagonal Hamiltonian has the basis states as eigenvectors. *)
Lemma diagonal_basis n (D : mat CR) (x : nat -> R) : nrow D = n -> ncol D = n -> (forall a b, (a < n)%nat -> (b < n)%nat -> ent D a b = if (a =? b)%nat then real (x a) else c0) ->
  eigenbasis D (meye n) (map x (seq 0 n)).
Proof.
  intros D1 D2 DE. split; [|split].
  - split; [rewrite map_length, seq_length; reflexivity|]. split; [exact D1|]. split; [exact D2|]. cbn [meye nrow ncol]. intros i k Hi Hk. fold (meye (K:=CR) n). rewrite (apply_eye n D k i Hk), (DE i k Hi Hk).
    rewrite (nth_indep _ 0 (x 0%nat)) by (rewrite map_length, seq_length; exact Hk). rewrite map_nth, seq_nth by exact Hk. cbn [Nat.add meye ent]. destruct (Nat.eqb_spec i k) as [->|NE]; apply injective_projections; cbn; ring.
  - intros k l Hk Hl. cbn [meye nrow ncol] in *. fold (meye (K:=CR) n). rewrite (inner_eye n k _ Hk). reflexivity.
  - intros psi i Hi. cbn [meye nrow ncol] in *. fold (meye (K:=CR) n). symmetry. rewrite (ksum_single n i _ Hi).
    + rewrite (inner_eye n i psi Hi). cbn [meye ent]. rewrite Nat.eqb_refl. destruct (psi i) as (u, v). apply injective_projections; cbn; ring.
    + intros k Hk NE. cbn [meye ent]. rewrite (proj2 (Nat.eqb_neq i k)) by congruence. generalize (inner n (col (meye n) k) psi). intros (u, v). apply injective_projections; cbn; ring.
Qed.
(** The free energy does not depend on the eigenvectors. *)
Lemma free_le H V E V' E' T : eigenbasis H V E -> eigenbasis H V' E' -> nrow V' = nrow V -> nrow V <> 0%nat -> 0 < T -> free_energy T E' <= free_energy T E.
Proof.
  intros B B' NN NZ TP. assert (HN : nrow H = nrow V /\ ncol H = nrow V) by (split; apply B). destruct HN as (H1 & H2).
  destruct (SymAverage.average_exists H V E T (msub H H) B ltac:(lia) ltac:(split; [exact H1 | exact H2]) ltac:(left; lra)) as (x & EX).
  assert (x = 0) as ->.
  { refine (thermal_null V (msub H H) E T x H1 H2 _ EX). intros k _. unfold expect, inner. rewrite ksum_zero; [reflexivity|]. intros i _. unfold apply. rewrite ksum_zero.
    - destruct (col V k i) as (u, v). apply injective_projections; cbn; ring.
    - intros j _. cbn [msub ent]. generalize (ent H i j), (col V k j). intros (u, v) (u', v'). apply injective_projections; cbn; ring. }
  pose proof (bogoliubov H V H V' E E' (nrow V) B B' eq_refl NN NZ T 0 TP EX). lra.
Qed.

Lemma pinned_basis H V E D : eigenbasis H V E -> nrow D = nrow V -> ncol D = nrow V -> diagonal_of (nrow V) H D -> eigenbasis D (meye (nrow V)) (map (fun a => fst (ent H a a)) (seq 0 (nrow V))).
Proof.
  intros B D1 D2 DI. apply diagonal_basis; [exact D1 | exact D2|]. intros a b Ha Hb. rewrite (DI a b Ha Hb). destruct (Nat.eqb_spec a b) as [<-|NE]; [|reflexivity].
  pose proof (SymAverage.eigenbasis_hermitian _ _ _ B a a Ha Ha) as HM. destruct (ent H a a) as (u, v). injection HM as HM. apply injective_projections; cbn; lra.
Qed.

Section Diagonal.
  Variables (H V : mat CR) (E : list R) (D W : mat CR) (F : list R).
  Hypothesis b1 : eigenbasis H V E.
  Hypothesis b2 : eigenbasis D W F.
  Hypothesis same : nrow W = nrow V.
  Hypothesis diag : diagonal_of (nrow V) H D.
  Notation n := (nrow V).
  Notation x a := (fst (ent H a a)).
  Lemma eye_D : eigenbasis D (meye n) (map (fun a => x a) (seq 0 n)).
  Proof using b1 b2 same diag.
    apply (pinned_basis H V E D b1); [rewrite <- same; apply b2 | rewrite <- same; apply b2 | exact diag].
  Qed.
  Theorem pinned_free T : n <> 0%nat -> 0 < T -> free_energy T E <= free_energy T F.
  Proof using b1 b2 same diag.
    intros NZ TP. apply Rle_trans with (free_energy T (map (fun a => x a) (seq 0 n))).
    - pose proof eye_D as BD. destruct (SymAverage.average_exists D (meye n) _ T (msub H D) BD ltac:(cbn; lia) ltac:(split; cbn; apply b1) ltac:(left; lra)) as (y & EX).
      assert (y = 0) as ->.
      { refine (thermal_null (meye n) (msub H D) _ T y _ _ _ EX); [apply b1 | apply b1|]. cbn [meye nrow ncol]. fold (meye (K:=CR) n). intros k Hk. unfold expect. rewrite (inner_eye n k _ Hk), (apply_eye n _ k k Hk). cbn [msub ent]. rewrite (diag k k Hk Hk), Nat.eqb_refl.
        destruct (ent H k k) as (u, v). cbn. ring. }
      pose proof (bogoliubov D (meye n) H V _ E n BD b1 eq_refl eq_refl NZ T 0 TP EX). lra.
    - refine (free_le D W F (meye n) _ T b2 eye_D _ _ TP); cbn; congruence.
  Qed.
  Theorem pinned_lowest e g : smallest e E -> smallest g F -> e <= g.
  Proof using b1 b2 same diag.
    intros SE (IG & _). assert (LE : forall a, (a < n)%nat -> e <= x a).
    { intros a Ha. pose proof (variational H V E n b1 eq_refl (col (meye n) a) e SE) as X. unfold norm2, expect in X. rewrite !(inner_eye n a _ Ha), (apply_eye n _ a a Ha) in X. unfold col in X. cbn [meye ent] in X. rewrite Nat.eqb_refl in X. cbn in X. lra. }
    apply (In_nth _ _ 0) in IG as (k & Hk & <-).
    pose proof (ev_H1 D W F b2 k Hk) as X1. rewrite same in X1. rewrite <- X1. pose proof (unit1 D W F n b2 same k Hk) as U.
    pose proof eye_D as BD. destruct n as [|n'] eqn:NV.
    - unfold norm2, inner in U. cbn in U. lra.
    - rewrite <- NV in *. rewrite (share_energy D (meye n) _ n BD eq_refl (col W k)). rewrite (share_sum D (meye n) _ n BD eq_refl (col W k)) in U.
      replace e with (e * 1) by ring. rewrite <- U, <- total_scale. apply total_le. intros a Ha. apply in_seq in Ha. rewrite map_length, seq_length in Ha. rewrite Rmult_comm. apply Rmult_le_compat_l; [apply share_pos|].
      rewrite (nth_indep _ 0 (x 0%nat)) by (rewrite map_length, seq_length; lia). rewrite (map_nth (fun a => x a)), seq_nth by lia. apply LE. lia.
  Qed.
End Diagonal.

Section Fermions.
  Variables (f : fermions CR) (P : mat CR) (idx : list nat) (H D : mat CR).
  Notation ns := (fg_nsites (f_geom f)).
  Notation m := (f_nspecies f).
  Notation nl := (ns * m)%nat.
  Notation dim := (2 ^ (ns * m))%nat.
  Notation N := (length idx).
  Notation at_ p := (nth p idx 0%nat).
  Hypothesis us : us_ok f.
  Hypothesis sec : rows_are (nstates (f_sys f)) P idx.
  Hypothesis once : NoDup idx.
  Hypothesis inside : forall a, In a idx -> (a < nstates (f_sys f))%nat.
  Hypothesis EH : createH f (Some P) = Ok H.
  Hypothesis ED : createH (without_hops f) (Some P) = Ok D.
  Lemma at_dim a : (a < N)%nat -> (at_ a < dim)%nat.
  Proof using inside. intros Ha. rewrite <- (states_D f). apply inside, nth_In, Ha. Qed.
  Lemma hops_diagonal : nrow H = N /\ nrow D = N /\ ncol D = N /\ diagonal_of N H D.
  Proof using us sec once inside EH ED.
    destruct (H_sec f us P idx H sec inside EH) as (H1 & H2 & HE). destruct (H_sec (without_hops f) us P idx D sec inside ED) as (D1 & D2 & DE). split; [exact H1|]. split; [exact D1|]. split; [exact D2|].
    assert (AZ : forall i j k, SpecShells.amplitude (without_hops f) i j k = c0) by (intros; unfold SpecShells.amplitude; apply injective_projections; cbn; ring).
    intros a b Ha Hb. destruct (Nat.eqb_spec a b) as [<-|NE].
    - rewrite (DE a a Ha Ha), (HE a a Ha Ha). unfold HamProofs.HS2. cbn [without_hops f_us f_same f_mus f_pot f_geom f_nspecies f_sys].
      rewrite (ksum_zero ns (fun i => ksum i (fun j => ksum m (fun k => kopp (kmul (SpecShells.amplitude (without_hops f) i j k) _))))).
      2:{ intros i Hi. apply ksum_zero. intros j Hj. apply ksum_zero. intros k Hk. rewrite AZ. ring. }
      rewrite (ksum_zero ns (fun i => ksum i (fun j => ksum m (fun k => kopp (kmul (SpecShells.amplitude f i j k) _))))); [reflexivity|].
      intros i Hi. apply ksum_zero. intros j Hj. apply ksum_zero. intros k Hk.
      change (HamProofs.hop f (lsite (f_sys f) i k) (lsite (f_sys f) j k) (at_ a) (at_ a)) with (smul (N:=dim) (Cd (K:=CR) nl (ns * k + i)) (Ca nl (ns * k + j)) (at_ a) (at_ a) +c smul (N:=dim) (Cd (K:=CR) nl (ns * k + j)) (Ca nl (ns * k + i)) (at_ a) (at_ a)).
      pose proof (at_dim a Ha) as LA. rewrite !(one_way f) by (assumption || lia || nia).
      destruct (digit 2 nl (ns * k + i) (at_ a) =? 1)%nat eqn:Q1, (digit 2 nl (ns * k + j) (at_ a) =? 1)%nat eqn:Q2; rewrite ?Q1, ?Q2, ?andb_false_r; cbn [andb];
        repeat match goal with Q : (_ =? 1)%nat = true |- _ => apply Nat.eqb_eq in Q; rewrite ?Q; cbn [Nat.eqb andb]; rewrite ?andb_false_r end; cbn [andb]; ring.
    - rewrite (DE a b Ha Hb). rewrite (off_diagonal (without_hops f) us (at_ a) (at_ b) (at_dim a Ha) (at_dim b Hb)) by (intros Q; apply NE; apply (proj1 (NoDup_nth idx 0%nat) once); assumption).
      apply ksum_zero. intros i _. apply ksum_zero. intros j _. apply ksum_zero. intros k _. rewrite AZ. ring.
  Qed.
  Theorem hops_basis V E : eigenbasis H V E -> eigenbasis D (meye N) (map (fun a => fst (ent H a a)) (seq 0 N)).
  Proof using us sec once inside EH ED.
    intros B1. destruct hops_diagonal as (H1 & D1 & D2 & DI). assert (HV : nrow H = nrow V) by apply B1. assert (VN : nrow V = N) by congruence. rewrite <- VN in D1, D2, DI |- *. apply (pinned_basis H V E D B1 D1 D2 DI).
  Qed.
  Theorem hops_lower V E W F : eigenbasis H V E -> eigenbasis D W F -> (forall T, idx <> [] -> 0 < T -> free_energy T E <= free_energy T F) /\ (forall e g, smallest e E -> smallest g F -> e <= g).
  Proof using us sec once inside EH ED.
    intros B1 B2. destruct hops_diagonal as (H1 & D1 & D2 & DI). assert (HV : nrow H = nrow V) by apply B1. assert (DW : nrow D = nrow W) by apply B2. assert (VN : nrow V = N) by congruence. assert (WV : nrow W = nrow V) by congruence. rewrite <- VN in DI. split.
    - intros T NE TP. apply (pinned_free H V E D W F B1 B2 WV DI T); [|exact TP]. rewrite VN. intros Z. apply NE, length_zero_iff_nil, Z.
    - apply (pinned_lowest H V E D W F B1 B2 WV DI).
  Qed.
End Fermions.

Section Spins.
  Variables (rt : nat -> CR) (s : spins CR) (P : mat CR) (idx : list nat) (H D : mat CR).
  Notation n := (sg_nsites (sp_geom s)).
  Notation N := (length idx).
  Notation at_ p := (nth p idx 0%nat).
  Hypothesis root : rt 1%nat = k1.
  Hypothesis half : sp_two s = 1%nat.
  Hypothesis sec : rows_are (2 ^ n) P idx.
  Hypothesis once : NoDup idx.
  Hypothesis inside : forall a, In a idx -> (a < 2 ^ n)%nat.
  Hypothesis EH : sp_createH rt s (Some P) = Ok H.
  Hypothesis ED : sp_createH rt (along_z s) (Some P) = Ok D.
  Lemma xy_zero p : (p < 2)%nat -> ent (sx_op rt 1) p p = c0 /\ ent (sy_op rt 1) p p = c0.
  Proof using root. intros Hp. rewrite (half_x rt root p p Hp Hp), (half_y rt root p p Hp Hp). unfold sigma_x, sigma_y. rewrite Nat.eqb_refl. split; apply injective_projections; cbn; ring. Qed.
  Lemma z_off p q : (p < 2)%nat -> (q < 2)%nat -> p <> q -> ent (sz_op (K:=CR) 1) p q = c0.
  Proof using. intros Hp Hq NE. rewrite (half_z p q Hp Hq). unfold sigma_z. rewrite (proj2 (Nat.eqb_neq p q) NE). apply injective_projections; cbn; ring. Qed.
  Lemma dg p a : (digit 2 n p a < 2)%nat. Proof using. clear. apply digit_lt. lia. Qed.
  Lemma rows_of s' H' : sp_geom s' = sp_geom s -> sp_two s' = 1%nat -> sp_createH rt s' (Some P) = Ok H' -> nrow H' = N /\ forall a b, (a < N)%nat -> (b < N)%nat -> ent H' a b = spin_elem 2 n (kofnat 2) k1 (ent (sx_op rt 1)) (ent (sy_op rt 1)) (ent (sz_op 1)) (sp_jx s') (sp_jy s') (sp_jz s') (sp_hx s') (sp_hy s') (sp_hz s') (at_ a) (at_ b).
  Proof using sec inside.
    intros G half' E'. pose proof (Bloch.spin_rows rt s' half' P idx H') as X. rewrite G in X. apply (X sec inside E').
  Qed.
  Lemma off_z a b : (a < 2 ^ n)%nat -> (b < 2 ^ n)%nat -> a <> b -> (forall i j, (j < i < n)%nat -> pair_elem (K:=CR) 2 n i j (ent (sz_op 1)) (ent (sz_op 1)) a b = c0) /\ (forall i, (i < n)%nat -> site_elem (K:=CR) 2 n i (ent (sz_op 1)) a b = c0).
  Proof using.
    clear. intros Ha Hb NE. assert (ALL : (forall p, (p < n)%nat -> digit 2 n p a = digit 2 n p b) -> False) by (intros X; apply NE; apply (digits_ext 2 ltac:(lia) n a b Ha Hb X)).
    split.
    - intros i j Hij. unfold pair_elem. destruct (agree_off 2 n [i; j] a b) eqn:AG; [|reflexivity]. rewrite agree_off_spec in AG.
      destruct (Nat.eq_dec (digit 2 n i a) (digit 2 n i b)) as [Q1|Q1]; [|rewrite (z_off _ _ (dg i a) (dg i b) Q1); ring].
      destruct (Nat.eq_dec (digit 2 n j a) (digit 2 n j b)) as [Q2|Q2]; [|rewrite (z_off _ _ (dg j a) (dg j b) Q2); ring].
      exfalso. apply ALL. intros p Hp. destruct (Nat.eq_dec p i) as [->|]; [exact Q1|]. destruct (Nat.eq_dec p j) as [->|]; [exact Q2|]. apply AG; [exact Hp|]. cbn. intuition congruence.
    - intros i Hi. unfold site_elem. destruct (agree_off 2 n [i] a b) eqn:AG; [|reflexivity]. rewrite agree_off_spec in AG.
      destruct (Nat.eq_dec (digit 2 n i a) (digit 2 n i b)) as [Q1|Q1]; [|apply (z_off _ _ (dg i a) (dg i b) Q1)].
      exfalso. apply ALL. intros p Hp. destruct (Nat.eq_dec p i) as [->|]; [exact Q1|]. apply AG; [exact Hp|]. cbn. intuition congruence.
  Qed.
  Lemma z_diagonal : nrow H = N /\ nrow D = N /\ ncol D = N /\ diagonal_of N H D.
  Proof using root half sec once inside EH ED.
    destruct (rows_of s H eq_refl half EH) as (H1 & HE). destruct (rows_of (along_z s) D eq_refl half ED) as (D1 & DE). split; [exact H1|]. split; [exact D1|]. split.
    { pose proof sec as (R1 & R2 & _). assert (R2' : ncol P = ((sp_two (along_z s) + 1) ^ n)%nat) by (cbn [along_z sp_two]; rewrite half; exact R2). destruct (createH_proj rt (along_z s) P R2' (half_fields (along_z s) half)) as (H' & E' & (S1 & S2) & _). rewrite ED in E'. injection E' as <-. congruence. }
    intros a b Ha Hb. assert (La : (at_ a < 2 ^ n)%nat) by (apply inside, nth_In, Ha). assert (Lb : (at_ b < 2 ^ n)%nat) by (apply inside, nth_In, Hb). rewrite (DE a b Ha Hb). destruct (Nat.eqb_spec a b) as [<-|NE].
    - rewrite (HE a a Ha Ha). unfold spin_elem. cbn [along_z sp_jx sp_jy sp_jz sp_hx sp_hy sp_hz].
      assert (PZ : forall i j A, (forall p, (p < 2)%nat -> A p p = c0) -> pair_elem (K:=CR) 2 n i j A A (at_ a) (at_ a) = c0) by (intros i j A X; unfold pair_elem; destruct (agree_off _ _ _ _ _); [rewrite (X _ (dg i _)); ring | reflexivity]).
      assert (SZ : forall i A, (forall p, (p < 2)%nat -> A p p = c0) -> site_elem (K:=CR) 2 n i A (at_ a) (at_ a) = c0) by (intros i A X; unfold site_elem; destruct (agree_off _ _ _ _ _); [apply X, dg | reflexivity]).
      f_equal; apply ksum_ext; intros i Hi; [apply ksum_ext; intros j Hj; rewrite !(PZ i j (ent (sx_op rt 1))), !(PZ i j (ent (sy_op rt 1))) by (intros p Hp; apply (xy_zero p Hp)); ring|].
      rewrite !(SZ i (ent (sx_op rt 1))), !(SZ i (ent (sy_op rt 1))) by (intros p Hp; apply (xy_zero p Hp)); ring.
    - destruct (off_z (at_ a) (at_ b) La Lb) as (Z1 & Z2); [intros Q; apply NE; apply (proj1 (NoDup_nth idx 0%nat) once); assumption|]. unfold spin_elem. cbn [along_z sp_jx sp_jy sp_jz sp_hx sp_hy sp_hz].
      rewrite ksum_zero, ksum_zero; [ring| |].
      + intros i Hi. rewrite (Z2 i Hi). ring.
      + intros i Hi. apply ksum_zero. intros j Hj. rewrite (Z1 i j) by lia. ring.
  Qed.
  Theorem z_basis V E : eigenbasis H V E -> eigenbasis D (meye N) (map (fun a => fst (ent H a a)) (seq 0 N)).
  Proof using root half sec once inside EH ED.
    intros B1. destruct z_diagonal as (H1 & D1 & D2 & DI). assert (HV : nrow H = nrow V) by apply B1. assert (VN : nrow V = N) by congruence. rewrite <- VN in D1, D2, DI |- *. apply (pinned_basis H V E D B1 D1 D2 DI).
  Qed.
  Theorem z_lower V E W F : eigenbasis H V E -> eigenbasis D W F -> (forall T, idx <> [] -> 0 < T -> free_energy T E <= free_energy T F) /\ (forall e g, smallest e E -> smallest g F -> e <= g).
  Proof using root half sec once inside EH ED.
    intros B1 B2. destruct z_diagonal as (H1 & D1 & D2 & DI). assert (HV : nrow H = nrow V) by apply B1. assert (DW : nrow D = nrow W) by apply B2. assert (VN : nrow V = N) by congruence. assert (WV : nrow W = nrow V) by congruence. rewrite <- VN in DI. split.
    - intros T NE TP. apply (pinned_free H V E D W F B1 B2 WV DI T); [|exact TP]. rewrite VN. intros Z. apply NE, length_zero_iff_nil, Z.
    - apply (pinned_lowest H V E D W F B1 B2 WV DI).
  Qed.
End Spins.
