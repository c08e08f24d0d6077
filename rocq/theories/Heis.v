(** Spins 1/2 with equal couplings along the three axes: the action of the Hamiltonian. *)
From Coq Require Import List Arith Lia Reals Lra ZArith QArith Bool Permutation.
From Verif Require Import Scalars Res Matrix Sums SqMat SpecMat ModelBase ModelSpins SpecSpins Digits SpinOps SpinAlg SpinHam SpinApi SpinSwap HamProofs SpecPerm
  ModelGeometry ModelPhase ModelSymmetry SymBase ModelThermal SpecThermal ThermalBase ThermalFacts ThermalBasis Spectral Thermo SpecHeat SpecConvex Convex SpecSigns Signs SignsHeat SignsSpins SpecSectors Perron Sectors SectorsRun Ladder SpecSinglet.
From Verif Require SpinSym SubspaceProofs.
Import ListNotations.
Local Open Scope R_scope.

Lemma CR_eq_dec (x y : CR) : {x = y} + {x <> y}.
Proof. destruct x as (a, b), y as (c, d). destruct (Req_EM_T a c) as [->|N]; [|right; congruence]. destruct (Req_EM_T b d) as [->|N]; [left; reflexivity | right; congruence]. Qed.
Section Heis.
  Variables (rt : nat -> CR) (s : spins CR) (J : nat -> nat -> R).
  Hypothesis root : rt 1%nat = k1.
  Hypothesis half : sp_two s = 1%nat.
  Notation n := (sg_nsites (sp_geom s)).
  Notation D := (2 ^ n)%nat.
  Notation dg p a := (digit 2 n p a).
  Notation swp i j a := (pull 2 n (exchange i j) a).
  Hypothesis iso : isotropic s J.
  (** A pair of spins exchanges, less one half. *)
  Lemma iso_exchange a b i j : (j < i < n)%nat -> (a < D)%nat -> (b < D)%nat -> pair_part rt s a b i j = real (J i j * ((if (b =? swp i j a)%nat then 1 else 0) - (if (b =? a)%nat then 1 / 2 else 0))).
  Proof using root iso.
    clear half. intros Hij Ha Hb. destruct iso as (AJ & _). destruct (AJ i j Hij) as (J1 & J2 & J3). set (c := swp i j a).
    assert (Di : dg i c = dg j a) by (unfold c; rewrite digit_pull by (discriminate || lia); rewrite exchange_l; reflexivity).
    assert (Dj : dg j c = dg i a) by (unfold c; rewrite digit_pull by (discriminate || lia); rewrite exchange_r; reflexivity).
    pose proof (swap_agrees s i j a ltac:(lia) ltac:(lia)) as AC. fold c in AC.
    destruct (agree_off 2 n [i; j] a b) eqn:AG.
    - assert (BC : b = c <-> dg i b = dg j a /\ dg j b = dg i a).
      { split; [intros ->; auto|]. intros (Q1 & Q2). apply (same_state n [i; j]); [exact Hb | apply pull_lt; discriminate | | intros k [<-|[<-|[]]]; congruence].
        rewrite agree_off_spec in *. intros p Hp NI. rewrite <- (AG p Hp NI). apply AC; assumption. }
      assert (BA : b = a <-> dg i b = dg i a /\ dg j b = dg j a).
      { split; [intros ->; auto|]. intros (Q1 & Q2). symmetry. apply (same_state n [i; j] a b Ha Hb AG). intros k [<-|[<-|[]]]; congruence. }
      assert (V2 : forall u v w x, (u < 2)%nat -> (v < 2)%nat -> (w < 2)%nat -> (x < 2)%nat ->
        kofnat 2 *c (((J i j, 0) : CR) *c (ent (sx_op rt 1) u v *c ent (sx_op rt 1) w x) +c ((J i j, 0) : CR) *c (ent (sy_op rt 1) u v *c ent (sy_op rt 1) w x) +c ((J i j, 0) : CR) *c (ent (sz_op 1) u v *c ent (sz_op 1) w x)) =
        real (J i j * ((if ((v =? w) && (x =? u))%nat then 1 else 0) - (if ((v =? u) && (x =? w))%nat then 1 / 2 else 0)))).
      { intros u v w x Hu Hv Hw Hx. rewrite !(sx_val rt root), !(sy_val rt root), !sz_val by assumption. rewrite !kofnat_S, kofnat_0.
        destruct u as [|[|u]]; [| |lia]; (destruct v as [|[|v]]; [| |lia]); (destruct w as [|[|w]]; [| |lia]); (destruct x as [|[|x]]; [| |lia]); apply injective_projections; cbn; field. }
      unfold pair_part, pair_elem. rewrite AG, J1, J2, J3, V2 by apply digit_two. f_equal. f_equal. f_equal.
      + destruct (Nat.eqb_spec b c) as [Q|Q]; [destruct (proj1 BC Q) as (-> & ->); rewrite !Nat.eqb_refl; reflexivity|]. destruct (Nat.eqb_spec (dg i b) (dg j a)), (Nat.eqb_spec (dg j b) (dg i a)); try reflexivity. exfalso. apply Q, BC. auto.
      + destruct (Nat.eqb_spec b a) as [Q|Q]; [destruct (proj1 BA Q) as (-> & ->); rewrite !Nat.eqb_refl; reflexivity|]. destruct (Nat.eqb_spec (dg i b) (dg i a)), (Nat.eqb_spec (dg j b) (dg j a)); try reflexivity. exfalso. apply Q, BA. auto.
    - rewrite pair_part_off by exact AG. assert (b <> c) by (intros ->; congruence). assert (b <> a).
      { intros ->. rewrite <- not_true_iff_false in AG. apply AG, agree_off_spec. reflexivity. }
      rewrite !(proj2 (Nat.eqb_neq _ _)) by assumption. apply injective_projections; cbn; ring.
  Qed.
  Definition act (psi : nat -> CR) (a : nat) : CR := ksum n (fun i => ksum i (fun j => real (J i j) *c (psi (swp i j a) -c real (1 / 2) *c psi a))).
  Lemma full_ent F a b : sp_createH rt s None = Ok F -> (a < D)%nat -> (b < D)%nat -> ent F a b = ksum n (fun i => ksum i (fun j => real (J i j * ((if (b =? swp i j a)%nat then 1 else 0) - (if (b =? a)%nat then 1 / 2 else 0))))).
  Proof using root half iso.
    intros EF Ha Hb. rewrite (spin_parts rt s F half EF _ _ Ha Hb).
    assert (Z : ksum n (field_part rt s a b) = c0).
    { apply ksum_zero. intros k Hk. destruct iso as (_ & AH). destruct (AH k Hk) as (H1 & H2 & H3). unfold field_part. rewrite H1, H2, H3. apply injective_projections; cbn; ring. }
    rewrite Z. transitivity (ksum n (fun i => ksum i (pair_part rt s a b i))); [apply injective_projections; cbn; ring|]. apply ksum_ext. intros i Hi. apply ksum_ext. intros j Hj. apply iso_exchange; auto; lia.
  Qed.
  Lemma full_act F psi a : sp_createH rt s None = Ok F -> (a < D)%nat -> apply D F psi a = act psi a.
  Proof using root half iso.
    intros EF Ha. unfold apply, act. rewrite (ksum_ext D _ (fun b => ksum n (fun i => ksum i (fun j => real (J i j) *c ((if (b =? swp i j a)%nat then psi b else c0) -c (if (b =? a)%nat then real (1 / 2) *c psi b else c0)))))).
    - rewrite (ksum_swap D n). apply ksum_ext. intros i Hi. rewrite (ksum_swap D i). apply ksum_ext. intros j Hj. rewrite ksum_mul_l, ksum_minus. f_equal. f_equal.
      + assert (B : (swp i j a < D)%nat) by (apply pull_lt; discriminate). rewrite (ksum_single D (swp i j a)); [rewrite Nat.eqb_refl; reflexivity | exact B |]. intros b Hb N. rewrite (proj2 (Nat.eqb_neq _ _) N). reflexivity.
      + rewrite (ksum_single D a); [rewrite Nat.eqb_refl; reflexivity | exact Ha |]. intros b Hb N. rewrite (proj2 (Nat.eqb_neq _ _) N). reflexivity.
    - intros b Hb. rewrite (full_ent F a b EF Ha Hb), <- ksum_mul_r. apply ksum_ext. intros i Hi. rewrite <- ksum_mul_r. apply ksum_ext. intros j Hj. destruct (b =? swp i j a)%nat, (b =? a)%nat; apply injective_projections; cbn; ring.
  Qed.
  Lemma act_ext psi phi a : (a < D)%nat -> (forall b, (b < D)%nat -> psi b = phi b) -> act psi a = act phi a.
  Proof using. clear root half iso. intros Ha X. apply ksum_ext. intros i _. apply ksum_ext. intros j _. rewrite (X a Ha), (X (swp i j a)) by (apply pull_lt; discriminate). reflexivity. Qed.
  Lemma act_mv v psi a : (a < D)%nat -> act (mv n v psi) a = mv n v (act psi) a.
  Proof using. clear root half iso.
    intros Ha. unfold act at 2. rewrite mv_sum. apply ksum_ext. intros i Hi. rewrite mv_sum. apply ksum_ext. intros j Hj. rewrite mv_scale, mv_minus, mv_scale, mv_swp by lia. reflexivity.
  Qed.
  Lemma act_lives m psi : lives n m psi -> lives n m (act psi).
  Proof using. clear root half iso.
    intros L a Ha N. apply ksum_zero. intros i Hi. apply ksum_zero. intros j Hj. rewrite (L a Ha N), (L (swp i j a)); [apply injective_projections; cbn; ring | apply pull_lt; discriminate |]. rewrite swp_sum by (exact Ha || lia). exact N.
  Qed.
  Definition eig (e : R) (psi : nat -> CR) : Prop := forall a, (a < D)%nat -> act psi a = real e *c psi a.
  Lemma eig_mv v e psi : eig e psi -> eig e (mv n v psi).
  Proof using. clear root half iso. intros X a Ha. rewrite (act_mv v psi a Ha), (mv_ext n v (act psi) (fun b => real e *c psi b) a X). apply mv_scale. Qed.
  (** The part with [m] flipped spins. *)
  Definition part_of (m : nat) (psi : nat -> CR) (a : nat) : CR := if (digit_sum 2 n a =? m)%nat then psi a else c0.
  Lemma part_lives m psi : lives n m (part_of m psi).
  Proof using. clear root half iso. intros a _ N. unfold part_of. rewrite (proj2 (Nat.eqb_neq _ _) N). reflexivity. Qed.
  Lemma part_eig m e psi : eig e psi -> eig e (part_of m psi).
  Proof using. clear root half iso.
    intros X a Ha. unfold part_of at 2. destruct (Nat.eqb_spec (digit_sum 2 n a) m) as [Q|Q].
    - rewrite <- (X a Ha). apply ksum_ext. intros i Hi. apply ksum_ext. intros j Hj. unfold part_of. rewrite swp_sum by (exact Ha || lia). rewrite Q, Nat.eqb_refl. reflexivity.
    - rewrite (act_lives m (part_of m psi) (part_lives m psi) a Ha Q). apply injective_projections; cbn; ring.
  Qed.
  Lemma part_nonzero m psi a : digit_sum 2 n a = m -> part_of m psi a = psi a.
  Proof using. clear root half iso. intros <-. unfold part_of. rewrite Nat.eqb_refl. reflexivity. Qed.

  (** ** One sector *)
  Section Sector.
    Variables (m : nat) (P : mat CR) (idx : list nat) (H : mat CR).
    Notation N := (length idx).
    Notation at_ p := (nth p idx 0%nat).
    Hypothesis sec : flipped n m P idx.
    Hypothesis made : sp_createH rt s (Some P) = Ok H.
    Lemma spread_at psi p : (p < N)%nat -> spread idx psi (at_ p) = psi p.
    Proof using sec. clear root half iso.
      clear made. intros Hp. unfold spread. rewrite (ksum_single N p); [rewrite Nat.eqb_refl; reflexivity | exact Hp|]. intros q Hq Nq. rewrite (proj2 (Nat.eqb_neq _ _)); [reflexivity|]. intros X. apply Nq, (at_inj s m P idx sec); assumption.
    Qed.
    Lemma spread_lives psi : lives n m (spread idx psi).
    Proof using sec. clear root half iso.
      clear made. intros a Ha Nm. apply ksum_zero. intros q Hq. rewrite (proj2 (Nat.eqb_neq _ _)); [reflexivity|]. intros <-. apply Nm, (at_lt s m P idx sec q Hq).
    Qed.
    Lemma spread_gather phi a : lives n m phi -> (a < D)%nat -> spread idx (fun p => phi (at_ p)) a = phi a.
    Proof using sec. clear root half iso.
      clear made. intros L Ha. destruct (Nat.eq_dec (digit_sum 2 n a) m) as [Q|Q]; [|rewrite (spread_lives _ a Ha Q), (L a Ha Q); reflexivity].
      destruct (at_find s m P idx sec a Ha Q) as (p & Hp & <-). exact (spread_at (fun p => phi (at_ p)) p Hp).
    Qed.
    Lemma sector_act psi p : (p < N)%nat -> apply N H psi p = act (spread idx psi) (at_ p).
    Proof using root half iso sec made.
      intros Hp. destruct (full_exists rt s half) as (F & EF). destruct (at_lt s m P idx sec p Hp) as (A1 & A2). rewrite <- (full_act F _ _ EF A1). destruct (sector_ent rt s m P idx H half sec made) as (_ & _ & W).
      unfold apply, spread. rewrite (ksum_ext D _ (fun b => ksum N (fun q => if (at_ q =? b)%nat then ent F (at_ p) b *c psi q else c0))).
      - rewrite (ksum_swap D N). apply ksum_ext. intros q Hq. destruct (at_lt s m P idx sec q Hq) as (B1 & _). rewrite (ksum_single D (at_ q)); [rewrite Nat.eqb_refl, (W F p q EF Hp Hq); reflexivity | exact B1 |].
        intros b Hb Nb. rewrite (proj2 (Nat.eqb_neq _ _)) by congruence. reflexivity.
      - intros b Hb. rewrite <- ksum_mul_l. apply ksum_ext. intros q Hq. destruct (at_ q =? b)%nat; [reflexivity | apply injective_projections; cbn; ring].
    Qed.
    Lemma state_eig e psi : state_of N H e psi -> eig e (spread idx psi).
    Proof using root half iso sec made.
      intros ST a Ha. destruct (Nat.eq_dec (digit_sum 2 n a) m) as [Q|Q].
      - destruct (at_find s m P idx sec a Ha Q) as (p & Hp & <-). rewrite <- (sector_act psi p Hp), (ST p Hp), (spread_at psi p Hp). reflexivity.
      - rewrite (act_lives m _ (spread_lives psi) a Ha Q), (spread_lives psi a Ha Q). apply injective_projections; cbn; ring.
    Qed.
    Lemma eig_state e phi : lives n m phi -> eig e phi -> state_of N H e (fun p => phi (at_ p)).
    Proof using root half iso sec made.
      intros L X p Hp. rewrite sector_act by exact Hp. destruct (at_lt s m P idx sec p Hp) as (A1 & _). rewrite (act_ext _ phi _ A1); [apply X, A1|]. intros b Hb. apply spread_gather; assumption.
    Qed.
  End Sector.
  Lemma root_ok : roots_ok (K:=CR) rt 1.
  Proof using root. clear - root. intros i Hi. replace i with 0%nat by lia. change ((0 + 1) * (1 - 0))%nat with 1%nat. rewrite root, kofnat_S, kofnat_0. split; apply injective_projections; cbn; ring. Qed.
  Definition sector_list (m : nat) : list nat := filter (fun a => digit_sum 2 n a =? m)%nat (seq 0 D).
  Lemma sector_solved m : exists P idx H V E, flipped n m P idx /\ sp_createH rt s (Some P) = Ok H /\ eigenbasis H V E.
  Proof using root half iso.
    set (idx := sector_list m). set (P := Mat (length idx) D (fun i j => if (nth i idx 0%nat =? j)%nat then k1 else k0) : mat CR). exists P, idx.
    assert (SF : flipped n m P idx).
    { split; [split; [reflexivity|]; split; reflexivity|]. split; [apply NoDup_filter, seq_NoDup|]. intros k. unfold idx, sector_list. rewrite filter_In, in_seq, Nat.eqb_eq. split; intros (X & Y); split; try exact Y; lia. }
    destruct (spin_hermitian rt s (Some P)) as (H & EH & (S1 & S2) & HM).
    - rewrite half. reflexivity.
    - rewrite half. exact root_ok.
    - intros i j Hi Hj. destruct iso as (AJ & _). destruct (AJ i j ltac:(lia)) as (-> & -> & ->). repeat split; apply injective_projections; cbn; ring.
    - intros i Hi. destruct iso as (_ & AH). destruct (AH i Hi) as (-> & -> & ->). repeat split; apply injective_projections; cbn; ring.
    - left. exact half.
    - assert (HH : hermitian (nrow H) H) by (intros i j Hi Hj; destruct HM as (_ & _ & M); rewrite <- (M i j) by (cbn [madj nrow ncol]; congruence || lia); reflexivity).
      destruct (spectral (nrow H) H HH eq_refl ltac:(congruence)) as (V & E & B). exists H, V, E. auto.
  Qed.
  (** ** Lowest energies *)
  Definition present (psi : nat -> CR) : Prop := exists a, (a < D)%nat /\ psi a <> c0.
  Definition lowest (m : nat) (e : R) : Prop := (exists psi, lives n m psi /\ eig e psi /\ present psi) /\ forall e' psi, lives n m psi -> eig e' psi -> present psi -> e <= e'.
  Lemma above_lowest N0 H V E e e' psi : eigenbasis H V E -> nrow V = N0 -> smallest e E -> state_of N0 H e' psi -> (exists a, (a < N0)%nat /\ psi a <> c0) -> e <= e'.
  Proof using. clear root half iso.
    clear. intros B R SM ST (a & Ha & NA). pose proof (variational H V E N0 B R psi e SM) as X.
    assert (Q : expect N0 H psi = e' * norm2 N0 psi).
    { unfold expect, norm2, inner. rewrite (ksum_ext N0 _ (fun i => real e' *c (conj (psi i) *c psi i))); [rewrite ksum_mul_l; cbn; ring|]. intros i Hi. rewrite (ST i Hi). change (real e') with ((e', 0) : CR). ring. }
    assert (PN : 0 < norm2 N0 psi).
    { unfold norm2, inner. rewrite fst_ksum, rsum_total. apply (total_positive _ _ a); [intros i _; cbn; nra | apply in_seq; lia |]. cbn. destruct (psi a) as (x, y) eqn:P. cbn. destruct (Req_dec x 0) as [->|NX]; [|nra]. destruct (Req_dec y 0) as [->|NY]; [exfalso; apply NA; reflexivity | nra]. }
    rewrite Q in X. nra.
  Qed.
  Lemma sector_lowest m P idx H V E e : flipped n m P idx -> sp_createH rt s (Some P) = Ok H -> eigenbasis H V E -> smallest e E -> lowest m e.
  Proof using root half iso.
    intros SF EH B SM. pose proof (sector_rows rt s m P idx H V E half SF EH B) as RW. split.
    - destruct SM as (IN & _). destruct (In_nth E e 0 IN) as (k & Hk & <-). pose proof (col_state H V E _ B RW k Hk) as ST. exists (spread idx (col V k)). split; [apply (spread_lives m P idx SF)|]. split; [exact (state_eig m P idx H SF EH _ _ ST)|].
      pose proof (unit1 H V E _ B RW k Hk) as U. assert (NZ : exists a, (a < length idx)%nat /\ col V k a <> c0).
      { assert (AL : forall t, (exists a, (a < t)%nat /\ col V k a <> c0) \/ forall a, (a < t)%nat -> col V k a = c0).
        { induction t as [|t IH]; [right; intros; lia|]. destruct IH as [(a & Ha & NA)|IH]; [left; exists a; split; [lia | exact NA]|]. destruct (CR_eq_dec (col V k t) c0) as [Z|Z]; [right | left; exists t; split; [lia | exact Z]].
          intros a Ha. destruct (Nat.eq_dec a t) as [->|]; [exact Z | apply IH; lia]. }
        destruct (AL (length idx)) as [X|Z]; [exact X|]. exfalso. unfold norm2, inner in U. rewrite ksum_zero in U; [cbn in U; lra|]. intros i Hi. rewrite (Z i Hi). apply injective_projections; cbn; ring. }
      destruct NZ as (a & Ha & NA). exists (nth a idx 0%nat). split; [apply (at_lt s m P idx SF a Ha)|]. rewrite (spread_at m P idx SF) by exact Ha. exact NA.
    - intros e' psi L X (a & Ha & NA). apply (above_lowest (length idx) H V E e e' (fun p => psi (nth p idx 0%nat)) B RW SM); [apply (eig_state m P idx H SF EH e' psi L X)|].
      destruct (Nat.eq_dec (digit_sum 2 n a) m) as [Q|Q]; [|exfalso; apply NA, L; assumption]. destruct (at_find s m P idx SF a Ha Q) as (p & Hp & <-). exists p. auto.
  Qed.
  Lemma lowest_unique m e e' : lowest m e -> lowest m e' -> e = e'.
  Proof using. clear root half iso. intros ((psi & L & X & Pp) & M) ((psi' & L' & X' & Pp') & M'). pose proof (M e' psi' L' X' Pp'). pose proof (M' e psi L X Pp). lra. Qed.
  Lemma lowest_exists m : (m <= n)%nat -> exists e, lowest m e.
  Proof using root half iso.
    intros Hm. destruct (sector_solved m) as (P & idx & H & V & E & SF & EH & B). pose proof (sector_rows rt s m P idx H V E half SF EH B) as RW.
    destruct (first_flipped n m Hm) as (a & Ha & Sa). destruct (at_find s m P idx SF a Ha Sa) as (p & Hp & _).
    destruct (smallest_exists H V E (length idx) B RW ltac:(lia)) as (k & Hk & SM). exists (nth k E 0). exact (sector_lowest m P idx H V E _ SF EH B SM).
  Qed.
  Lemma lowest_smallest m P idx H V E e : flipped n m P idx -> sp_createH rt s (Some P) = Ok H -> eigenbasis H V E -> (m <= n)%nat -> lowest m e -> smallest e E.
  Proof using root half iso.
    intros SF EH B Hm LW. pose proof (sector_rows rt s m P idx H V E half SF EH B) as RW. destruct (first_flipped n m Hm) as (a & Ha & Sa). destruct (at_find s m P idx SF a Ha Sa) as (p & Hp & _).
    destruct (smallest_exists H V E (length idx) B RW ltac:(lia)) as (k & Hk & SM). rewrite (lowest_unique m e _ LW (sector_lowest m P idx H V E _ SF EH B SM)). exact SM.
  Qed.
  (** ** Order of the sectors *)
  Lemma not_present psi : (~ present psi) -> vanishes n psi.
  Proof using. clear root half iso. intros X a Ha. destruct (CR_eq_dec (psi a) c0) as [Q|Q]; [exact Q|]. exfalso. apply X. exists a. auto. Qed.
  Fixpoint lower (k : nat) (psi : nat -> CR) : nat -> CR := match k with O => psi | S k => mv n 1 (lower k psi) end.
  Lemma present_dec psi : present psi \/ vanishes n psi.
  Proof using. clear root half iso.
    assert (AL : forall t, (exists a, (a < t)%nat /\ psi a <> c0) \/ forall a, (a < t)%nat -> psi a = c0).
    { induction t as [|t IH]; [right; intros; lia|]. destruct IH as [(a & Ha & NA)|IH]; [left; exists a; split; [lia | exact NA]|]. destruct (CR_eq_dec (psi t) c0) as [Z|Z]; [right | left; exists t; split; [lia | exact Z]].
      intros a Ha. destruct (Nat.eq_dec a t) as [->|]; [exact Z | apply IH; lia]. }
    destruct (AL D) as [X|X]; [left; exact X | right; exact X].
  Qed.
  Lemma lower_all m e psi k : lives n m psi -> eig e psi -> present psi -> (2 * (m + k) < n + 2)%nat -> lives n (m + k) (lower k psi) /\ eig e (lower k psi) /\ present (lower k psi).
  Proof using. clear root half iso.
    intros L X Pp. induction k as [|k IH]; intros Hk; [rewrite Nat.add_0_r; auto|]. destruct IH as (L1 & X1 & P1); [lia|]. cbn [lower]. rewrite Nat.add_succ_r. split; [apply lower_lives, L1|]. split; [apply eig_mv, X1|].
    destruct (present_dec (mv n 1 (lower k psi))) as [Y|Y]; [exact Y|]. exfalso. destruct P1 as (a & Ha & NA). apply NA. exact (lower_keeps n (m + k) (lower k psi) L1 ltac:(lia) Y a Ha).
  Qed.
  Theorem order m m' e e' : lowest m e -> lowest m' e' -> (m <= m')%nat -> (2 * m' <= n)%nat -> e' <= e.
  Proof using. clear root half iso.
    intros ((psi & L & X & Pp) & _) (_ & M) Hm Hn. destruct (lower_all m e psi (m' - m) L X Pp ltac:(lia)) as (L1 & X1 & P1). replace (m + (m' - m))%nat with m' in L1 by lia. exact (M e _ L1 X1 P1).
  Qed.
  (** Turning all spins over. *)
  Definition over (a : nat) : nat := (D - 1 - a)%nat.
  Lemma over_lt a : (a < D)%nat -> (over a < D)%nat. Proof using. clear root half iso. unfold over. lia. Qed.
  Lemma over_over a : (a < D)%nat -> over (over a) = a. Proof using. clear root half iso. unfold over. lia. Qed.
  Lemma dg_over p a : (a < D)%nat -> (p < n)%nat -> dg p (over a) = (1 - dg p a)%nat. Proof using. clear root half iso. intros Ha Hp. apply (SpinSym.digit_flip 2 ltac:(discriminate) n p a Ha Hp). Qed.
  Lemma sum_over a : (a < D)%nat -> (digit_sum 2 n (over a) + digit_sum 2 n a = n)%nat.
  Proof using. clear root half iso.
    intros Ha. unfold digit_sum. assert (X : forall k, (k <= n)%nat -> (list_sum (map (fun p => dg p (over a)) (seq 0 k)) + list_sum (map (fun p => dg p a) (seq 0 k)) = k)%nat); [|apply X; lia].
    induction k as [|k IH]; intros Hk; [reflexivity|]. rewrite !seq_S, !map_app, !list_sum_app. specialize (IH ltac:(lia)). cbn [map plus]. rewrite dg_over by (exact Ha || lia). pose proof (bit n k a). unfold list_sum at 2 4. cbn [fold_right]. lia.
  Qed.
  Lemma over_swp i j a : (a < D)%nat -> (i < n)%nat -> (j < n)%nat -> over (swp i j a) = swp i j (over a).
  Proof using. clear root half iso.
    intros Ha Hi Hj. assert (B : (swp i j a < D)%nat) by (apply pull_lt; discriminate). apply (ext n); [apply over_lt, B | apply pull_lt; discriminate|]. intros p Hp. rewrite dg_over, !(digit_pull 2 n ltac:(discriminate)), dg_over by (assumption || apply exchange_lt; assumption). reflexivity.
  Qed.
  Lemma over_eig e psi : eig e psi -> eig e (fun a => psi (over a)).
  Proof using. clear root half iso.
    intros X a Ha. rewrite <- (X (over a) (over_lt a Ha)). apply ksum_ext. intros i Hi. apply ksum_ext. intros j Hj. rewrite over_swp by (assumption || lia). reflexivity.
  Qed.
  Lemma over_lives m psi : (m <= n)%nat -> lives n m psi -> lives n (n - m) (fun a => psi (over a)).
  Proof using. clear root half iso. intros Hm L a Ha N. apply L; [apply over_lt, Ha|]. pose proof (sum_over a Ha). lia. Qed.
  Lemma over_present psi : present psi -> present (fun a => psi (over a)).
  Proof using. clear root half iso. intros (a & Ha & NA). exists (over a). split; [apply over_lt, Ha|]. rewrite over_over by exact Ha. exact NA. Qed.
  Theorem mirror m e : (m <= n)%nat -> lowest m e -> lowest (n - m) e.
  Proof using. clear root half iso.
    intros Hm ((psi & L & X & Pp) & M). split.
    - exists (fun a => psi (over a)). split; [apply over_lives; assumption|]. split; [apply over_eig, X | apply over_present, Pp].
    - intros e' phi L' X' P'. apply (M e' (fun a => phi (over a))); [|apply over_eig, X' | apply over_present, P']. pose proof (over_lives (n - m) phi ltac:(lia) L') as Y. replace (n - (n - m))%nat with m in Y by lia. exact Y.
  Qed.
End Heis.
