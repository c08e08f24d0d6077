(** Ground states of spins 1/2 with a fixed number of flipped spins. *)
From Coq Require Import List Arith Lia Reals Lra ZArith QArith Bool Permutation.
From Verif Require Import Scalars Res Matrix Sums SqMat SpecMat ModelBase ModelSpins SpecSpins Digits SpinOps SpinAlg SpinHam SpinApi SpinSwap HamProofs SpecPerm
  ModelGeometry ModelPhase ModelSymmetry SymBase ModelThermal SpecThermal ThermalBase ThermalFacts ThermalBasis Spectral Thermo SpecHeat SpecConvex Convex SpecSigns Signs SignsHeat SignsSpins SpecSectors Perron Sectors.
From Verif Require SubspaceProofs.
Import ListNotations.
Local Open Scope R_scope.

Section Ground.
  Variables (rt : nat -> CR) (s : spins CR) (part : nat -> bool) (m : nat) (P : mat CR) (idx : list nat) (H V : mat CR) (E : list R).
  Hypothesis root : rt 1%nat = k1.
  Hypothesis half : sp_two s = 1%nat.
  Notation n := (sg_nsites (sp_geom s)).
  Notation N := (length idx).
  Notation eps := (fun p => state_sign part n (nth p idx 0%nat)).
  Hypothesis unf : unfrustrated part s.
  Hypothesis round : round_axis s.
  Hypothesis conn : connected_spins s.
  Hypothesis sec : flipped n m P idx.
  Hypothesis made : sp_createH rt s (Some P) = Ok H.
  Hypothesis basis : eigenbasis H V E.
  Lemma sector_rows : nrow V = N.
  Proof using half sec made basis. clear root unf round conn. destruct (sector_ent rt s m P idx H half sec made) as (S1 & _). destruct basis as ((_ & S & _) & _). congruence. Qed.
  Notation sgn := (sector_signs s part m P idx sec).
  Notation low := (sector_lowers rt s part m P idx H root half unf sec made).
  Notation all := (sector_joined rt s part m P idx H root half unf sec made round conn).
  Theorem sector_unique e k j : smallest e E -> (k < length E)%nat -> (j < length E)%nat -> nth k E 0 = e -> nth j E 0 = e -> k = j.
  Proof using All. exact (one_ground H V E N eps basis sector_rows sgn low all e k j). Qed.
  Theorem sector_state e psi : smallest e E -> state_of N H e psi -> (exists a, (a < N)%nat /\ psi a <> c0) ->
    exists z, abs2 z = 1 /\ forall a, (a < N)%nat -> psi a <> c0 /\ psi a = z *c real (eps a * sqrt (abs2 (psi a))).
  Proof using All.
    intros SM ST NZ. destruct (upright_phase H V E N eps basis sector_rows sgn low all psi e SM ST) as (z & Z1 & Z2). exists z. split; [exact Z1|]. intros a Ha. split; [|apply Z2, Ha].
    exact (nodeless H V E N eps basis sector_rows sgn low all psi e a SM ST NZ Ha).
  Qed.
End Ground.

(** Ground states of two such systems are not orthogonal. *)
Theorem sector_overlap rt s1 s2 part m P idx H1 V1 E1 H2 V2 E2 psi phi e1 e2 : rt 1%nat = k1 -> sp_two s1 = 1%nat -> sp_two s2 = 1%nat -> sg_nsites (sp_geom s2) = sg_nsites (sp_geom s1) ->
  unfrustrated part s1 -> unfrustrated part s2 -> round_axis s1 -> round_axis s2 -> connected_spins s1 -> connected_spins s2 -> flipped (sg_nsites (sp_geom s1)) m P idx ->
  sp_createH rt s1 (Some P) = Ok H1 -> sp_createH rt s2 (Some P) = Ok H2 -> eigenbasis H1 V1 E1 -> eigenbasis H2 V2 E2 -> smallest e1 E1 -> smallest e2 E2 ->
  state_of (length idx) H1 e1 psi -> state_of (length idx) H2 e2 phi -> (exists a, (a < length idx)%nat /\ psi a <> c0) -> (exists a, (a < length idx)%nat /\ phi a <> c0) -> inner (length idx) psi phi <> c0.
Proof.
  intros RT HF1 HF2 SZ U1 U2 O1 O2 C1 C2 SC M1 M2 B1 B2. pose proof SC as SC2. rewrite <- SZ in SC2.
  pose proof (sector_lowers rt s2 part m P idx H2 RT HF2 U2 SC2 M2) as L2. rewrite SZ in L2.
  exact (grounds_overlap H1 V1 H2 V2 E1 E2 (length idx) (fun p => state_sign part (sg_nsites (sp_geom s1)) (nth p idx 0%nat)) psi phi e1 e2 B1 B2
    (sector_rows rt s1 m P idx H1 V1 E1 HF1 SC M1 B1) (sector_rows rt s2 m P idx H2 V2 E2 HF2 SC2 M2 B2) (sector_signs s1 part m P idx SC) (sector_lowers rt s1 part m P idx H1 RT HF1 U1 SC M1) L2
    (sector_joined rt s1 part m P idx H1 RT HF1 U1 SC M1 O1 C1) (sector_joined rt s2 part m P idx H2 RT HF2 U2 SC2 M2 O2 C2)).
Qed.

Lemma sum_le n a : (digit_sum 2 n a <= n)%nat.
Proof.
  unfold digit_sum. assert (L : forall l, (fold_right Nat.add 0 (map (fun p => digit 2 n p a) l) <= length l)%nat) by (induction l as [|p l IH]; [cbn; lia | cbn [map fold_right length]; pose proof (bit n p a); lia]).
  pose proof (L (seq 0 n)) as X. rewrite seq_length in X. exact X.
Qed.
Lemma first_flipped n m : (m <= n)%nat -> exists a, (a < 2 ^ n)%nat /\ digit_sum 2 n a = m.
Proof.
  intros Hm. exists (of_digits 2 n (fun p => if (p <? m)%nat then 1%nat else 0%nat)). assert (B : forall p, (p < n)%nat -> ((if (p <? m)%nat then 1 else 0) < 2)%nat) by (intros p _; destruct (p <? m)%nat; lia).
  split; [apply of_digits_lt; [discriminate | exact B]|]. unfold digit_sum. rewrite (map_ext_in _ (fun p => if (p <? m)%nat then 1%nat else 0%nat)) by (intros p Hp; apply in_seq in Hp; apply digit_of_digits; [discriminate | exact B | lia]).
  replace n with (m + (n - m))%nat by lia. rewrite seq_app, map_app. assert (LA : forall x y : list nat, list_sum (x ++ y) = (list_sum x + list_sum y)%nat) by apply list_sum_app. rewrite LA. clear LA B.
  rewrite (map_ext_in _ (fun _ => 1%nat)) by (intros p Hp; apply in_seq in Hp; rewrite (proj2 (Nat.ltb_lt p m)) by lia; reflexivity).
  rewrite (map_ext_in (fun p => if (p <? m)%nat then 1%nat else 0%nat) (fun _ => 0%nat)) by (intros p Hp; apply in_seq in Hp; rewrite (proj2 (Nat.ltb_ge p m)) by lia; reflexivity).
  unfold list_sum. generalize (0 + m)%nat as st. intros st. assert (Z : forall l : list nat, fold_right Nat.add 0%nat (map (fun _ => 0%nat) l) = 0%nat) by (induction l; cbn; auto). assert (O : forall l : list nat, fold_right Nat.add 0%nat (map (fun _ => 1%nat) l) = length l) by (induction l as [|x l IH]; cbn; [reflexivity | f_equal; exact IH]).
  rewrite Z, O, seq_length. lia.
Qed.
Lemma ksum_reals n (f : nat -> R) : ksum n (fun i => real (f i)) = (real (total f (seq 0 n)) : CR).
Proof.
  rewrite <- rsum_total. apply injective_projections; [rewrite fst_ksum; reflexivity|]. cbn [real snd]. induction n as [|n IH]; [reflexivity|]. cbn in *. rewrite IH. ring.
Qed.
Section Aligned.
  Variables (rt : nat -> CR) (s : spins CR) (J : nat -> nat -> R) (m : nat) (P : mat CR) (idx : list nat) (H V : mat CR) (E : list R).
  Hypothesis root : rt 1%nat = k1.
  Hypothesis half : sp_two s = 1%nat.
  Notation n := (sg_nsites (sp_geom s)).
  Notation N := (length idx).
  Notation D := (2 ^ n)%nat.
  Notation dg p a := (digit 2 n p a).
  Notation at_ p := (nth p idx 0%nat).
  Notation swp i j a := (pull 2 n (exchange i j) a).
  Hypothesis al : aligning s J.
  Hypothesis sec : flipped n m P idx.
  Hypothesis made : sp_createH rt s (Some P) = Ok H.
  Hypothesis basis : eigenbasis H V E.
  Lemma al_unf : unfrustrated (fun _ => false) s.
  Proof using al.
    destruct al as (AJ & AH). split.
    - intros i j Hij. destruct (AJ i j Hij) as (J1 & J2 & J3 & LE). exists (J i j), (J i j), (J i j). unfold side. rewrite (Rabs_left1 _ LE). repeat split; try assumption. lra.
    - intros i Hi. destruct (AH i Hi) as (H1 & H2 & H3). exists 0, 0. unfold side. repeat split; try assumption. lra.
  Qed.
  (** A pair of spins exchanges, less one half. *)
  Lemma pair_exchange a b i j : (j < i < n)%nat -> (a < D)%nat -> (b < D)%nat -> pair_part rt s a b i j = real (J i j * ((if (b =? swp i j a)%nat then 1 else 0) - (if (b =? a)%nat then 1 / 2 else 0))).
  Proof using root al.
    clear made basis half sec. intros Hij Ha Hb. destruct al as (AJ & _). destruct (AJ i j Hij) as (J1 & J2 & J3 & _). set (c := swp i j a).
    assert (Di : dg i c = dg j a) by (unfold c; rewrite digit_pull by (discriminate || lia); rewrite exchange_l; reflexivity).
    assert (Dj : dg j c = dg i a) by (unfold c; rewrite digit_pull by (discriminate || lia); rewrite exchange_r; reflexivity).
    pose proof (swap_agrees s i j a ltac:(lia) ltac:(lia)) as AC. fold c in AC.
    destruct (agree_off 2 n [i; j] a b) eqn:AG.
    - assert (BC : b = c <-> dg i b = dg j a /\ dg j b = dg i a).
      { split; [intros ->; auto|]. intros (Q1 & Q2). apply (same_state n [i; j]); [exact Hb | apply pull_lt; discriminate | | intros k [<-|[<-|[]]]; congruence].
        rewrite agree_off_spec in *. intros p Hp NI. rewrite <- (AG p Hp NI). apply AC; assumption. }
      assert (BA : b = a <-> dg i b = dg i a /\ dg j b = dg j a).
      { split; [intros ->; auto|]. intros (Q1 & Q2). symmetry. apply (same_state n [i; j] a b Ha Hb AG). intros k [<-|[<-|[]]]; congruence. }
      assert (V2 : forall u v w x, (u < 2)%nat -> (v < 2)%nat -> (w < 2)%nat -> (x < 2)%nat ->
        kofnat 2 *c (((J i j, 0) : CR) *c (ent (sx_op rt 1) u v *c ent (sx_op rt 1) w x) +c ((J i j, 0) : CR) *c (ent (sy_op rt 1) u v *c ent (sy_op rt 1) w x) +c ((J i j, 0) : CR) *c (ent (sz_op 1) u v *c ent (sz_op 1) w x)) =
        real (J i j * ((if ((v =? w) && (x =? u))%nat then 1 else 0) - (if ((v =? u) && (x =? w))%nat then 1 / 2 else 0)))).
      { intros u v w x Hu Hv Hw Hx. rewrite !(sx_val rt root), !(sy_val rt root), !sz_val by assumption. rewrite !kofnat_S, kofnat_0.
        destruct u as [|[|u]]; [| |lia]; (destruct v as [|[|v]]; [| |lia]); (destruct w as [|[|w]]; [| |lia]); (destruct x as [|[|x]]; [| |lia]); apply injective_projections; cbn; field. }
      unfold pair_part, pair_elem. rewrite AG, J1, J2, J3, V2 by apply digit_two. f_equal. f_equal. f_equal.
      + destruct (Nat.eqb_spec b c) as [Q|Q]; [destruct (proj1 BC Q) as (-> & ->); rewrite !Nat.eqb_refl; reflexivity|]. destruct (Nat.eqb_spec (dg i b) (dg j a)), (Nat.eqb_spec (dg j b) (dg i a)); try reflexivity. exfalso. apply Q, BC. auto.
      + destruct (Nat.eqb_spec b a) as [Q|Q]; [destruct (proj1 BA Q) as (-> & ->); rewrite !Nat.eqb_refl; reflexivity|]. destruct (Nat.eqb_spec (dg i b) (dg i a)), (Nat.eqb_spec (dg j b) (dg j a)); try reflexivity. exfalso. apply Q, BA. auto.
    - rewrite pair_part_off by exact AG. assert (b <> c) by (intros ->; congruence). assert (b <> a).
      { intros ->. rewrite <- not_true_iff_false in AG. apply AG, agree_off_spec. reflexivity. }
      rewrite !(proj2 (Nat.eqb_neq _ _)) by assumption. apply injective_projections; cbn; ring.
  Qed.
  Lemma find_one c : (c < D)%nat -> digit_sum 2 n c = m -> total (fun q => if (at_ q =? c)%nat then 1 else 0) (seq 0 N) = 1.
  Proof using sec.
    intros Hc Sc. destruct (at_find s m P idx sec c Hc Sc) as (q & Hq & Eq). rewrite <- rsum_total. pose proof (ksum_single N q (fun q => real (if (at_ q =? c)%nat then 1 else 0)) Hq) as X.
    assert (Y : forall k, (k < N)%nat -> k <> q -> real (if (at_ k =? c)%nat then 1 else 0) = (k0 : CR)) by (intros k Hk Nk; rewrite (proj2 (Nat.eqb_neq _ _)); [reflexivity|]; intros Q; apply Nk, (at_inj s m P idx sec); congruence).
    specialize (X Y). apply (f_equal fst) in X. rewrite fst_ksum, Eq, Nat.eqb_refl in X. exact X.
  Qed.
  (** The sum of all configurations of the sector has that energy. *)
  Theorem aligned_state : state_of N H (aligned_energy n J) (fun _ => c1).
  Proof using root half al sec made.
    clear basis. intros p Hp. destruct (full_exists rt s half) as (F & EF). destruct (sector_ent rt s m P idx H half sec made) as (_ & _ & W). destruct (at_lt s m P idx sec p Hp) as (A1 & A2).
    unfold apply. rewrite (ksum_ext N _ (fun q => ksum n (fun i => ksum i (fun j => real (J i j * ((if (at_ q =? swp i j (at_ p))%nat then 1 else 0) - (if (at_ q =? at_ p)%nat then 1 / 2 else 0))))))).
    - rewrite (ksum_swap N n). rewrite (ksum_ext n _ (fun i => ksum i (fun j => real (J i j / 2)))).
      + transitivity (real (aligned_energy n J) : CR); [|apply injective_projections; cbn; ring]. unfold aligned_energy. rewrite <- ksum_reals. apply ksum_ext. intros i Hi. apply ksum_reals.
      + intros i Hi. rewrite (ksum_swap N i). apply ksum_ext. intros j Hj. rewrite ksum_reals. f_equal. rewrite total_scale.
        rewrite (total_ext _ (fun q => (if (at_ q =? swp i j (at_ p))%nat then 1 else 0) + - (1 / 2) * (if (at_ q =? at_ p)%nat then 1 else 0))) by (intros q _; destruct (at_ q =? at_ p)%nat; ring).
        rewrite total_add, total_scale, (find_one (at_ p) A1 A2), (find_one (swp i j (at_ p))); [field | apply pull_lt; discriminate |]. rewrite (swp_sum n i j _ A1) by lia. exact A2.
    - intros q Hq. destruct (at_lt s m P idx sec q Hq) as (B1 & B2). rewrite (W F p q EF Hp Hq), (spin_parts rt s F half EF _ _ A1 B1).
      assert (Z : ksum n (field_part rt s (at_ p) (at_ q)) = c0).
      { apply ksum_zero. intros k Hk. destruct al as (_ & AH). destruct (AH k Hk) as (H1 & H2 & H3). unfold field_part. rewrite H1, H2, H3. apply injective_projections; cbn; ring. }
      change k1 with c1. rewrite Z. transitivity (ksum n (fun i => ksum i (pair_part rt s (at_ p) (at_ q) i))); [apply injective_projections; cbn; ring|]. apply ksum_ext. intros i Hi. apply ksum_ext. intros j Hj. apply pair_exchange; auto; lia.
  Qed.
  (** It is the lowest energy, whatever the number of flipped spins. *)
  Theorem aligned_lowest : (m <= n)%nat -> smallest (aligned_energy n J) E.
  Proof using All.
    intros Hm. apply (signs_lowest H V E N (fun p => state_sign (fun _ => false) n (at_ p)) basis (sector_rows rt s m P idx H V E half sec made basis)) with (psi := fun _ => c1).
    - destruct (first_flipped n m Hm) as (a & Ha & Sa). destruct (at_find s m P idx sec a Ha Sa) as (p & Hp & _). lia.
    - apply (sector_signs s _ m P idx sec).
    - apply (sector_lowers rt s _ m P idx H root half al_unf sec made).
    - exact aligned_state.
    - intros a Ha. split; [reflexivity|]. unfold state_sign. rewrite product_ones by reflexivity. cbn. lra.
  Qed.
  Hypothesis conn : connected_spins s.
  Theorem aligned_only psi : state_of N H (aligned_energy n J) psi -> forall p q, (p < N)%nat -> (q < N)%nat -> psi p = psi q.
  Proof using All.
    intros ST p q Hp Hq. destruct (at_lt s m P idx sec p Hp) as (A1 & A2). assert (Hm : (m <= n)%nat) by (rewrite <- A2; apply sum_le).
    assert (RA : round_axis s) by (destruct al as (AJ & AH); split; [intros i j Hij; destruct (AJ i j Hij) as (-> & -> & _); reflexivity | intros i Hi; destruct (AH i Hi) as (-> & -> & _); auto]).
    pose proof (parallel H V E N _ basis (sector_rows rt s m P idx H V E half sec made basis) (sector_signs s (fun _ => false) m P idx sec) (sector_lowers rt s _ m P idx H root half al_unf sec made)
      (sector_joined rt s _ m P idx H root half al_unf sec made RA conn) psi (fun _ => c1) (aligned_energy n J) p q (aligned_lowest Hm) ST aligned_state Hp Hq) as X.
    transitivity (psi p *c c1); [apply injective_projections; cbn; ring|]. rewrite <- X. apply injective_projections; cbn; ring.
  Qed.
End Aligned.

(** The projectors of the total moment along z select these sectors. *)
Lemma kofnat_real k : kofnat k = (real (INR k) : CR).
Proof. induction k as [|k IH]; [rewrite kofnat_0; reflexivity|]. rewrite kofnat_S, IH, S_INR. apply injective_projections; cbn; ring. Qed.
Lemma moment_diagonal (s : spins CR) Sz : sp_two s = 1%nat -> sg_nsites (sp_geom s) <> 0%nat -> sum_op (sp_sys s) (sz_op 1) 0 Boson = Ok Sz ->
  let n := sg_nsites (sp_geom s) in diagonal_mat (2 ^ n) Sz /\ forall a, (a < 2 ^ n)%nat -> ent Sz a a = real (INR n / 2 - INR (digit_sum 2 n a)).
Proof.
  intros half NZ ES. cbn zeta. set (n := sg_nsites (sp_geom s)) in *. destruct (sum_op_half (K:=CR) n (sz_op 1) ltac:(split; reflexivity) NZ) as (T & ET & ST & VT).
  assert (Sz = T) as -> by (unfold sp_sys in ES; fold n in ES; rewrite half in ES; change (Sys n 1 (1 + 1)) with (dsys 2 n) in ES; congruence).
  split; [split; [exact ST|]|].
  - intros i j Hi Hj Nij. rewrite (VT i j Hi Hj). apply ksum_zero. intros p Hp. unfold site_elem. destruct (agree_off 2 n [p] i j) eqn:AG; [|reflexivity]. rewrite sz_val by (apply Nat.mod_upper_bound; discriminate).
    destruct (Nat.eqb_spec (digit 2 n p i) (digit 2 n p j)) as [Q|Q]; [|reflexivity]. exfalso. apply Nij, (same_state n [p] i j Hi Hj AG). intros k [<-|[]]. exact Q.
  - intros a Ha. rewrite (VT a a Ha Ha). rewrite (ksum_ext n _ (fun i => zval (K:=CR) 1 (digit 2 n i a))).
    + rewrite zsum, !kofnat_real. apply injective_projections; cbn; unfold Q2R; cbn; try lra; field.
    + intros i Hi. unfold site_elem. assert (AG : agree_off 2 n [i] a a = true) by (apply agree_off_spec; reflexivity). rewrite AG. rewrite (Z_ent (K:=CR) 1), Nat.eqb_refl. apply injective_projections; cbn; ring.
Qed.
Theorem moment_sectors (s : spins CR) Sz ev ps vs t m : sp_two s = 1%nat -> sg_nsites (sp_geom s) <> 0%nat -> sum_op (sp_sys s) (sz_op 1) 0 Boson = Ok Sz -> subspace_projs true Sz ev = Ok (ps, vs) -> (t < length vs)%nat ->
  nth t vs k0 = (INR (sg_nsites (sp_geom s)) / 2 - INR m, 0) -> exists idx, flipped (sg_nsites (sp_geom s)) m (nth t ps (mzero 0 0)) idx.
Proof.
  intros half NZ ES EP Ht Ev. destruct (moment_diagonal s Sz half NZ ES) as (DG & VL). destruct (SubspaceProofs.projs_spec _ Sz ev DG) as (ps' & vs' & E' & _ & _ & _ & X & _). rewrite EP in E'. injection E' as <- <-.
  destruct (X t Ht) as (idx & SS & IN & RW & _). exists idx. split; [exact RW|]. split.
  - clear - SS. induction SS as [|x l SS IH F]; constructor; [|exact IH]. intros I. rewrite Forall_forall in F. pose proof (F x I). lia.
  - intros k. rewrite IN, Ev. split; intros (Hk & Q); (split; [exact Hk|]).
    + pose proof (eq_trans (eq_sym (VL k Hk)) Q) as W. apply (f_equal fst) in W. cbn in W. apply INR_eq. lra.
    + apply (eq_trans (VL k Hk)). rewrite Q. reflexivity.
Qed.
Theorem moment_values (s : spins CR) Sz ps vs t : sp_two s = 1%nat -> sg_nsites (sp_geom s) <> 0%nat -> sum_op (sp_sys s) (sz_op 1) 0 Boson = Ok Sz -> subspace_projs true Sz None = Ok (ps, vs) -> (t < length vs)%nat ->
  exists m, (m <= sg_nsites (sp_geom s))%nat /\ nth t vs k0 = (INR (sg_nsites (sp_geom s)) / 2 - INR m, 0).
Proof.
  intros half NZ ES EP Ht. destruct (moment_diagonal s Sz half NZ ES) as (DG & VL). destruct (SubspaceProofs.projs_spec _ Sz None DG) as (ps' & vs' & E' & _ & _ & NO & _). rewrite EP in E'. injection E' as <- <-.
  destruct (proj1 (proj2 (NO eq_refl) _) (nth_In vs k0 Ht)) as (k & Hk & Q). exists (digit_sum 2 (sg_nsites (sp_geom s)) k). split; [apply sum_le|]. rewrite <- Q. apply VL, Hk.
Qed.
