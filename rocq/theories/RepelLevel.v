(** Fermions that repel each other, as many particles as sites: order of the sectors and
    their total spin. *)
From Coq Require Import List Arith Lia Reals Lra ZArith QArith Qabs Bool Permutation Classical.
From Verif Require Import Scalars Res Matrix Sums SqMat SpecMat SpecFock OpsProofs FockProofs FermiOps ModelBase ModelFermions ModelSpins SpecSpins Digits SpinOps SpinAlg SpinSwap SpinJordan HamProofs FermiApi SpecPerm
  ModelGeometry ModelPhase ModelSymmetry SymBase ModelThermal SpecThermal ThermalBase ThermalFacts ThermalBasis Spectral Thermo SpecHeat SpecConvex Convex SpecSigns Signs SignsHeat SignsSpins SpecSectors Perron Sectors SectorsRun HopSigns SpecShells Shells ShellsRun SpecLieb Halves LiebRun LiebSpin LiebCorr SpecHalf SpecRepel Repel RepelRun RepelCorr RepelMove RepelSpin RepelSector SpecRepelSpin.
From Verif Require Import FreeThermal.
From Verif Require SpinRotate Ladder Chain FreeFermi SpecSinglet Heis Singlet Dimers SingletApi SingletRun.
Import ListNotations.
Local Open Scope R_scope.

Section Level.
  Variables (part : nat -> bool) (g : fgeom CR) (ts : nat -> nat -> nat -> CR) (us : nat -> CR) (same : nat -> nat -> nat -> CR) (mus : nat -> CR) (pot : nat -> nat -> CR) (pr : mat CR).
  Notation f := (pairsys g ts us same mus pot pr).
  Notation ns := (fg_nsites g).
  Notation nl := (ns * 2)%nat.
  Notation B := (2 ^ ns)%nat.
  Notation D := (2 ^ (ns * 2))%nat.
  Notation gl x y := (glue ns x y).
  Notation cm y := (holes ns y).
  Notation SP := (SpinRotate.SP f).
  Notation SM := (fun a b : nat => conj (SpinRotate.SP f b a)).
  Notation lives := (lives g).
  Notation eig := (eig g ts us same mus pot pr).
  Notation some := (Chain.some nl).
  Notation up := (Chain.up nl SP).
  Notation dn := (Chain.dn nl SP).
  Notation vanishes := (Ladder.vanishes nl).
  Notation least := (Chain.least nl lives eig).
  Notation ground := (Chain.ground nl lives eig).
  Notation of_kind := SpecSinglet.of_kind.
  Notation kmin := (Nat.min (of_kind part ns true) (of_kind part ns false)).
  Hypothesis sym : spin_symmetric f.
  Hypothesis rep : repelling part f.
  Hypothesis conn : connected_hops f.
  (** ** Sectors seen from the other end *)
  Definition lives' (m : nat) (X : nat -> CR) : Prop := forall a, (a < D)%nat -> ~ ((m <= ns)%nat /\ in_sector g (ns - m) a) -> X a = c0.
  Notation least' := (Chain.least nl lives' eig).
  Notation ground' := (Chain.ground nl lives' eig).
  Notation up' := (Chain.up nl SM).
  Notation dn' := (Chain.dn nl SM).
  Lemma lives_other m X : (m <= ns)%nat -> lives' m X <-> lives (ns - m) X.
  Proof using. clear. intros Hm. split; intros L a Ha NI; apply L; try assumption; tauto. Qed.
  Lemma up_other X a : up' X a = dn X a.
  Proof using. clear. unfold Chain.up, Chain.dn. apply ksum_ext. intros b _. rewrite kconj_inv. reflexivity. Qed.
  Lemma dn_other X a : dn' X a = up X a.
  Proof using. clear. reflexivity. Qed.
  Lemma eig_ext e X Y : (forall a, (a < D)%nat -> X a = Y a) -> eig e X -> eig e Y.
  Proof using. clear. intros Q EX a Ha. rewrite <- (Q a Ha), <- (EX a Ha). apply ksum_ext. intros b Hb. rewrite (Q b Hb). reflexivity. Qed.
  Lemma lives_ext m X Y : (forall a, (a < D)%nat -> X a = Y a) -> lives m X -> lives m Y.
  Proof using. clear. intros Q L a Ha NI. rewrite <- (Q a Ha). apply L; assumption. Qed.
  Lemma least_other m e : (m <= ns)%nat -> least' m e <-> least (ns - m) e.
  Proof using.
    clear. intros Hm. split; intros ((psi & L & X & Pp) & M); (split; [exists psi; split; [apply (lives_other m psi Hm), L | auto] | intros e' psi' L' X' P'; apply (M e' psi'); [apply (lives_other m psi' Hm), L' | exact X' | exact P']]).
  Qed.
  Lemma ground_other m e psi : (m <= ns)%nat -> ground' m e psi <-> ground (ns - m) e psi.
  Proof using. clear. intros Hm. unfold Chain.ground. rewrite (least_other m e Hm), (lives_other m psi Hm). tauto. Qed.
  Lemma lives_top X : lives (S ns) X -> vanishes X. Proof using. clear. intros L a Ha. apply L; [exact Ha|]. intros (_ & I). lia. Qed.
  Lemma up_lives' m X : lives' (S m) X -> lives' m (up' X).
  Proof using.
    clear. intros L. destruct (Nat.le_gt_cases (S m) ns) as [Hm|Hm].
    - rewrite (lives_other m _ ltac:(lia)). apply (lives_ext _ (dn X)); [intros; symmetry; apply up_other|]. replace (ns - m)%nat with (S (ns - S m)) by lia. apply dn_lives. apply (lives_other (S m) X Hm), L.
    - intros a Ha _. rewrite up_other. apply Chain.dn_zero. intros b Hb. apply L; [exact Hb | lia].
  Qed.
  Lemma up_top' X : lives' 0 X -> vanishes (up' X).
  Proof using. clear. intros L a Ha. rewrite up_other. apply lives_top; [|exact Ha]. apply dn_lives. pose proof (proj1 (lives_other 0 X ltac:(lia)) L) as Q. rewrite Nat.sub_0_r in Q. exact Q. Qed.
  Lemma dn_lives' m X : lives' m X -> lives' (S m) (dn' X).
  Proof using.
    clear. intros L. destruct (Nat.le_gt_cases m ns) as [Hm|Hm].
    - apply (lives_other m X Hm) in L. destruct (Nat.eq_dec m ns) as [->|NE].
      + intros a Ha _. rewrite Nat.sub_diag in L. exact (up_top g ts us same mus pot pr X L a Ha).
      + rewrite (lives_other (S m) _ ltac:(lia)). apply (up_lives g ts us same mus pot pr). replace (S (ns - S m)) with (ns - m)%nat by lia. exact L.
    - intros a Ha _. apply Chain.dn_zero. intros b Hb. apply L; [exact Hb | lia].
  Qed.
  Lemma up_eig' e X : eig e X -> eig e (up' X).
  Proof using sym. intros EX. apply (eig_ext e (dn X)); [intros; symmetry; apply up_other | apply (dn_eig g ts us same mus pot pr sym), EX]. Qed.
  Lemma dn_eig' e X : eig e X -> eig e (dn' X).
  Proof using sym rep. apply (up_eig part g ts us same mus pot pr sym rep). Qed.
  Lemma comm' m X a : (m <= ns)%nat -> lives' m X -> (a < D)%nat -> up' (dn' X) a = dn' (up' X) a +c real (INR ns - 2 * INR m) *c X a.
  Proof using sym.
    clear rep conn. intros Hm L Ha. apply (lives_other m X Hm) in L. pose proof (comm g ts us same mus pot pr sym (ns - m) X a ltac:(lia) L Ha) as Q. rewrite up_other. change (Chain.dn nl SM) with (Chain.up nl SP).
    rewrite (Chain.up_ext nl SP (up' X) (dn X) a) by (intros; apply up_other). rewrite Q, minus_INR by exact Hm. apply injective_projections; cbn; ring.
  Qed.
  Lemma lives_le' m X : lives' m X -> some X -> (m <= ns)%nat.
  Proof using. clear. intros L (a & Ha & NA). destruct (Nat.le_gt_cases m ns) as [Q|Q]; [exact Q|]. exfalso. apply NA, L; [exact Ha|]. lia. Qed.
  Lemma mult' m e psi X : ground' m e psi -> lives' m X -> eig e X -> exists z, forall a, (a < D)%nat -> X a = z *c psi a.
  Proof using rep conn.
    clear sym. intros G L EX. assert (Hm : (m <= ns)%nat) by (destruct G as (_ & L0 & _ & SO); exact (lives_le' m psi L0 SO)). apply (ground_other m e psi Hm) in G. apply (lives_other m X Hm) in L.
    exact (mult part g ts us same mus pot pr rep conn (ns - m) e psi X G L EX).
  Qed.
  Notation blocked := (Chain.blocked nl SP lives eig).
  Notation blocked' := (Chain.blocked nl SM lives' eig).
  Lemma ones (q : list nat) : list_sum (map (fun _ => 1%nat) q) = length q. Proof using. clear. induction q as [|x q IH]; [reflexivity|]. change (1 + list_sum (map (fun _ => 1%nat) q) = S (length q))%nat. rewrite IH. reflexivity. Qed.
  Lemma blocked_other m : (m <= of_kind part ns true)%nat -> (m <= of_kind part ns false)%nat -> blocked' m.
  Proof using rep conn.
    clear sym. intros Ha Hb. destruct (SingletApi.pairing_exists part ns m Ha Hb) as (l & r & PR & LL & _). pose proof (pair_count part g l r PR) as PC. set (phi := Dimers.phi ns l r (fun _ => 1%nat)). exists (singly g phi). split.
    - intros a HA. rewrite up_other. destruct (glue_split ns a HA) as (L1 & L2 & <-). rewrite dn_singly by assumption. destruct (a mod B =? cm (a / B))%nat; [|reflexivity]. unfold phi. rewrite (Dimers.phi_still part ns l r PR 1 ltac:(lia)). apply injective_projections; cbn; ring.
    - intros e psi GR. assert (Hm : (m <= ns)%nat) by lia. apply (ground_other m e psi Hm) in GR.
      pose proof (Dimers.shown_lt ns l (fun _ => 1%nat) ltac:(intros; cbn beta; lia)) as SL. pose proof (Dimers.shown_phi part ns l r PR (fun _ => 1%nat) ltac:(intros; cbn beta; lia)) as SQ.
      apply (ground_meets part g ts us same mus pot pr rep conn (ns - m) e psi (singly g phi) phi (Dimers.rest_sign part r (fun _ => 1%nat)) (Dimers.shown ns l (fun _ => 1%nat)) GR).
      + intros x y Hx Hy. apply singly_glue, Hy.
      + intros x Hx _. apply (Dimers.phi_sign part ns l r PR).
      + exact SL.
      + rewrite (Dimers.phi_lives part ns l r PR (fun _ => 1%nat) _ SL) by (rewrite SQ; lra). rewrite LL, ones. lia.
      + pose proof (Dimers.phi_sign part ns l r PR (fun _ => 1%nat) (Dimers.shown ns l (fun _ => 1%nat))) as Y. unfold phi. rewrite SQ in *. destruct (Dimers.rest_square part r (fun _ => 1%nat)) as [Q|Q]; rewrite Q in *; destruct (state_signs part ns _ SL) as [Q2|Q2]; rewrite Q2 in *; lra.
  Qed.
  (** ** The two chains *)
  Notation upl := (up_lives g ts us same mus pot pr).
  Notation upt := (up_top g ts us same mus pot pr).
  Notation dnl := (dn_lives g ts us same mus pot pr).
  Notation upe := (up_eig part g ts us same mus pot pr sym rep).
  Notation dne := (dn_eig g ts us same mus pot pr sym).
  Notation cmm := (comm g ts us same mus pot pr sym).
  Notation mlt := (mult part g ts us same mus pot pr rep conn).
  Notation lex := (low_ex part g ts us same mus pot pr rep).
  Lemma kinds_sum : (of_kind part ns true + of_kind part ns false = ns)%nat. Proof using. clear. apply SingletApi.kinds_all. Qed.
  Lemma blocked_min m : (m <= kmin)%nat -> blocked m. Proof using rep conn. clear sym. intros Hm. apply (blocked_sector part g ts us same mus pot pr rep conn); lia. Qed.
  Lemma blocked_min' m : (m <= kmin)%nat -> blocked' m. Proof using rep conn. clear sym. intros Hm. apply blocked_other; lia. Qed.
  Lemma top_kills m e psi : (m <= kmin)%nat -> ground m e psi -> vanishes (up psi).
  Proof using sym rep conn. intros Hm G. exact (Chain.highest nl SP lives eig upl upt dnl upe dne mlt m e psi (blocked_min m Hm) G). Qed.
  Lemma bottom_kills m e psi : (m <= kmin)%nat -> ground (ns - m) e psi -> vanishes (dn psi).
  Proof using sym rep conn.
    intros Hm G. pose proof kinds_sum. apply (ground_other m e psi ltac:(lia)) in G. intros a Ha. rewrite <- up_other. exact (Chain.highest nl SM lives' eig up_lives' up_top' dn_lives' up_eig' dn_eig' mult' m e psi (blocked_min' m Hm) G a Ha).
  Qed.
  Lemma sector_strict m m' e e' : (m < m')%nat -> (m' <= kmin)%nat -> least m e -> least m' e' -> e' < e.
  Proof using sym rep conn. intros H1 H2 L1 L2. pose proof kinds_sum. exact (Chain.strict nl ns SP lives eig upl upt dnl upe dne cmm mlt m m' e e' (blocked_min m' H2) H1 ltac:(lia) L1 L2). Qed.
  Lemma sector_level e j : least kmin e -> (2 * kmin + j <= ns)%nat -> least (kmin + j) e.
  Proof using sym rep conn.
    intros LS Hj. pose proof kinds_sum. destruct (SingletApi.pairing_exists part ns kmin ltac:(lia) ltac:(lia)) as (l & r & PR & LL & ONE & _). specialize (ONE ltac:(lia)).
    refine (Chain.level nl ns SP lives eig upl upt dnl upe dne cmm mlt lex (lives_le g) kmin ltac:(lia) (blocked_min kmin (le_n _)) _ e j LS Hj).
    intros m M1 M2. rewrite <- LL in M1, M2. exact (reached_sector part g ts us same mus pot pr rep conn l r PR ONE m M1 M2).
  Qed.
  Lemma sector_moves e j psi : (2 * kmin + j <= ns)%nat -> ground (kmin + j) e psi -> forall a, (a < D)%nat -> dn (up psi) a = real (INR j * (INR ns - 2 * INR kmin - INR j + 1)) *c psi a.
  Proof using sym rep conn.
    intros Hj G. pose proof kinds_sum. destruct (SingletApi.pairing_exists part ns kmin ltac:(lia) ltac:(lia)) as (l & r & PR & LL & ONE & _). specialize (ONE ltac:(lia)).
    refine (Chain.level_moves nl ns SP lives eig upl upt dnl upe dne cmm mlt lex (lives_le g) kmin ltac:(lia) (blocked_min kmin (le_n _)) _ e j psi Hj G).
    intros m M1 M2. rewrite <- LL in M1, M2. exact (reached_sector part g ts us same mus pot pr rep conn l r PR ONE m M1 M2).
  Qed.
  Lemma mirror_le m e e' : (m <= kmin)%nat -> least m e -> least (ns - m) e' -> e' <= e.
  Proof using sym rep conn.
    intros Hm L1 L2. pose proof kinds_sum. destruct L1 as ((psi & L & X & Pp) & M) eqn:EQ. clear EQ. pose proof (top_kills m e psi Hm ltac:(split; [exact L1 | auto])) as Z.
    destruct (Chain.lowered nl ns SP lives eig dnl dne cmm m ltac:(lia) e psi (ns - 2 * m) L X Pp Z ltac:(lia)) as (L3 & X3 & P3). replace (m + (ns - 2 * m))%nat with (ns - m)%nat in L3 by lia. exact (proj2 L2 e _ L3 X3 P3).
  Qed.
  Lemma mirror_ge m e e' : (m <= kmin)%nat -> least m e -> least (ns - m) e' -> e <= e'.
  Proof using sym rep conn.
    intros Hm L1 L2. pose proof kinds_sum. assert (HM : (m <= ns)%nat) by lia. apply (least_other m e' HM) in L2. destruct L2 as ((psi & L & X & Pp) & M) eqn:EQ. clear EQ.
    pose proof (Chain.highest nl SM lives' eig up_lives' up_top' dn_lives' up_eig' dn_eig' mult' m e' psi (blocked_min' m Hm) ltac:(split; [exact L2 | auto])) as Z.
    destruct (Chain.lowered nl ns SM lives' eig dn_lives' dn_eig' comm' m ltac:(lia) e' psi (ns - 2 * m) L X Pp Z ltac:(lia)) as (L3 & X3 & P3). replace (m + (ns - 2 * m))%nat with (ns - m)%nat in L3 by lia.
    apply (lives_other (ns - m) _ ltac:(lia)) in L3. replace (ns - (ns - m))%nat with m in L3 by lia. exact (proj2 L1 e' _ L3 X3 P3).
  Qed.
  Lemma mirror m e : (m <= kmin)%nat -> least m e -> least (ns - m) e.
  Proof using sym rep conn.
    intros Hm L. pose proof kinds_sum. destruct (lex (ns - m)%nat ltac:(lia)) as (e' & L'). assert (e' = e) as <-; [|exact L']. apply Rle_antisym; [exact (mirror_le m e e' Hm L L') | exact (mirror_ge m e e' Hm L L')].
  Qed.
  (** The sector with few particles of the first species to which a sector corresponds. *)
  Definition canon (m : nat) : nat := Nat.min (Nat.min m (ns - m)) kmin.
  Lemma canon_least m e : (m <= ns)%nat -> least m e -> least (canon m) e.
  Proof using sym rep conn.
    intros Hm L. pose proof kinds_sum. destruct (lex (canon m) ltac:(unfold canon; lia)) as (e' & L'). assert (LM : least m e').
    { destruct (Nat.le_gt_cases m kmin) as [C1|C1]; [replace (canon m) with m in L' by (unfold canon; lia); exact L'|]. destruct (Nat.le_gt_cases m (ns - kmin)) as [C2|C2].
      - replace (canon m) with kmin in L' by (unfold canon; lia). pose proof (sector_level e' (m - kmin) L' ltac:(lia)) as Q. replace (kmin + (m - kmin))%nat with m in Q by lia. exact Q.
      - replace (canon m) with (ns - m)%nat in L' by (unfold canon; lia). pose proof (mirror (ns - m) e' ltac:(lia) L') as Q. replace (ns - (ns - m))%nat with m in Q by lia. exact Q. }
    rewrite (least_unique g ts us same mus pot pr m e e' L LM). exact L'.
  Qed.
  Lemma canon_spin m : (m <= ns)%nat -> sector_spin part ns m = INR ns / 2 - INR (canon m).
  Proof using.
    clear. intros Hm. pose proof kinds_sum as KS. unfold sector_spin, canon. set (A := of_kind part ns true) in *. set (C := of_kind part ns false) in *. clearbody A C.
    assert (E1 : Rabs (INR m - INR ns / 2) = INR ns / 2 - INR (Nat.min m (ns - m))).
    { destruct (Nat.le_gt_cases (2 * m) ns) as [Q|Q].
      - rewrite Nat.min_l by lia. apply le_INR in Q. rewrite mult_INR in Q. cbn [INR] in Q. rewrite Rabs_left1 by lra. lra.
      - rewrite Nat.min_r by lia. rewrite minus_INR by exact Hm. apply lt_INR in Q. rewrite mult_INR in Q. cbn [INR] in Q. rewrite Rabs_right by lra. lra. }
    assert (E2 : Rabs (INR A - INR C) / 2 = INR ns / 2 - INR (Nat.min A C)).
    { assert (NS : INR ns = INR A + INR C) by (rewrite <- plus_INR, KS; reflexivity). rewrite NS. destruct (Nat.le_gt_cases A C) as [Q|Q].
      - rewrite Nat.min_l by lia. apply le_INR in Q. rewrite Rabs_left1 by lra. lra.
      - rewrite Nat.min_r by lia. apply lt_INR in Q. rewrite Rabs_right by lra. lra. }
    rewrite E1, E2. generalize (Nat.min m (ns - m)) (Nat.min A C). intros u v. destruct (Nat.le_gt_cases u v) as [Q|Q]; [rewrite Nat.min_l by exact Q; apply le_INR in Q; rewrite Rmax_left by lra | rewrite Nat.min_r by lia; apply lt_INR in Q; rewrite Rmax_right by lra]; reflexivity.
  Qed.
  Theorem sectors_order m m' e e' : (m <= ns)%nat -> (m' <= ns)%nat -> least m e -> least m' e' -> sector_spin part ns m < sector_spin part ns m' -> e < e'.
  Proof using sym rep conn.
    intros Hm Hm' L L' Q. rewrite !canon_spin in Q by assumption. assert (Q2 : INR (canon m') < INR (canon m)) by lra. apply INR_lt in Q2. apply (sector_strict (canon m') (canon m) e' e Q2); [unfold canon; lia | apply canon_least; assumption | apply canon_least; assumption].
  Qed.
  Theorem sectors_same m m' e e' : (m <= ns)%nat -> (m' <= ns)%nat -> least m e -> least m' e' -> sector_spin part ns m = sector_spin part ns m' -> e = e'.
  Proof using sym rep conn.
    intros Hm Hm' L L' Q. rewrite !canon_spin in Q by assumption. assert (Q2 : INR (canon m) = INR (canon m')) by lra. apply INR_eq in Q2. pose proof (canon_least m e Hm L) as C. pose proof (canon_least m' e' Hm' L') as C'. rewrite Q2 in C. exact (least_unique g ts us same mus pot pr _ e e' C C').
  Qed.
  (** ** Total spin *)
  Section Total.
    Variables X Y Z : mat CR.
    Hypothesis comps : fermi_spin f X Y Z.
    Lemma plus_apply psi a : (a < D)%nat -> apply D X psi a = ((1 / 2, 0) : CR) *c (dn psi a +c up psi a) /\ apply D Y psi a = ((0, - (1 / 2)) : CR) *c (dn psi a -c up psi a).
    Proof using comps.
      clear sym rep conn. intros Ha. destruct comps as (A & C & N0 & N1 & AC & _ & _ & W). cbn [f_geom pairsys] in *.
      assert (AV : forall i b, (i < ns)%nat -> (b < D)%nat -> ent (A i) a b = SpinRotate.raise f i a b /\ ent (C i) a b = SpinRotate.lower f i a b).
      { intros i b Hi Hb. destruct (AC i Hi) as (EA & EC).
        destruct (two_ok (f_sys f) i 0 i 1 cdag_op c_op Fermion (f_two f) ltac:(discriminate) Hi ltac:(cbn; lia) Hi ltac:(cbn; lia) (sq2 _ _ _ _) (sq2 _ _ _ _)) as (A' & E' & _ & VA). rewrite EA in E'. injection E' as <-.
        destruct (two_ok (f_sys f) i 1 i 0 cdag_op c_op Fermion (f_two f) ltac:(discriminate) Hi ltac:(cbn; lia) Hi ltac:(cbn; lia) (sq2 _ _ _ _) (sq2 _ _ _ _)) as (A' & E' & _ & VC). rewrite EC in E'. injection E' as <-.
        split; [exact (VA a b Ha Hb) | exact (VC a b Ha Hb)]. }
      assert (SU : forall b, (b < D)%nat -> ksum ns (fun i => ent (A i) a b) = SP a b) by (intros b Hb; apply ksum_ext; intros i Hi; apply (AV i b Hi Hb)).
      assert (SD : forall b, (b < D)%nat -> ksum ns (fun i => ent (C i) a b) = conj (SP b a)) by (intros b Hb; rewrite down_val by assumption; apply ksum_ext; intros i Hi; apply (AV i b Hi Hb)).
      unfold apply, Chain.dn, Chain.up. split.
      - rewrite <- ksum_add, <- ksum_mul_l. apply ksum_ext. intros b Hb. destruct (W a b Ha Hb) as (-> & _). rewrite ksum_add, SU, SD by exact Hb. change (@kmul CR CR_StarRing) with (fun x y : CR => x *c y). cbn beta. ring.
      - rewrite <- ksum_minus, <- ksum_mul_l. apply ksum_ext. intros b Hb. destruct (W a b Ha Hb) as (_ & -> & _). pose proof (ksum_minus ns (fun i => ent (A i) a b) (fun i => ent (C i) a b)) as Q. etransitivity; [apply f_equal2; [apply f_equal2; [reflexivity | exact Q] | reflexivity]|]. rewrite SU, SD by exact Hb. apply injective_projections; cbn; ring.
    Qed.
    Lemma z_apply m psi a : lives m psi -> (a < D)%nat -> apply D Z psi a = real (INR m - INR ns / 2) *c psi a.
    Proof using comps.
      clear sym rep conn. intros L Ha. destruct comps as (A & C & N0 & N1 & _ & E0 & E1 & W). cbn [f_geom pairsys] in *.
      assert (NZ : ns <> 0%nat) by (intros Q; unfold sum_op in E0; change (s_nsites (f_sys f)) with ns in E0; rewrite Q in E0; cbn in E0; discriminate).
      destruct (sum_op_number (f_sys f) 0 (f_two f) NZ ltac:(cbn; lia)) as (N' & EN & (R0 & C0 & V0)). rewrite E0 in EN. injection EN as <-.
      destruct (sum_op_number (f_sys f) 1 (f_two f) NZ ltac:(cbn; lia)) as (N' & EN & (R1 & C1 & V1)). rewrite E1 in EN. injection EN as <-. cbn [number_spec nrow ncol] in R0, R1, C0, C1. change (nlog (f_sys f)) with (ns * 2)%nat in *. change (s_nsites (f_sys f)) with ns in *.
      unfold apply. rewrite (ksum_single D a _ Ha).
      - destruct (W a a Ha Ha) as (_ & _ & ->). destruct (classic (in_sector g m a)) as [(I1 & I2)|NI]; [|rewrite (L a Ha NI); apply injective_projections; cbn; ring]. f_equal.
        assert (CD : forall x, length (filter (occ ns x) (seq 0 ns)) = digit_sum 2 ns x) by (intros x; apply count_digits; intros q Hq; apply in_seq in Hq; lia).
        assert (O : occ_species nl ns a 0 = m /\ occ_species nl ns a 1 = (ns - m)%nat).
        { destruct (glue_split ns a Ha) as (L1 & L2 & Q). pose proof (species_hi g _ _ L1 L2) as S0. pose proof (species_lo g _ _ L1 L2) as S1. rewrite Q, CD in S0, S1. split; [congruence | lia]. }
        destruct O as (O0 & O1). assert (Hm : (m <= ns)%nat) by lia.
        pose proof (V0 a a ltac:(lia) ltac:(lia)) as W0. pose proof (V1 a a ltac:(lia) ltac:(lia)) as W1. unfold number_spec in W0, W1. cbn [ent] in W0, W1. rewrite Nat.eqb_refl in W0, W1.
        rewrite W0, W1, O0, O1, !kofnat_real, minus_INR by assumption. apply injective_projections; cbn; field.
      - intros b Hb NE. destruct (W a b Ha Hb) as (_ & _ & ->).
        pose proof (V0 a b ltac:(lia) ltac:(lia)) as W0. pose proof (V1 a b ltac:(lia) ltac:(lia)) as W1. unfold number_spec in W0, W1. cbn [ent] in W0, W1. rewrite (proj2 (Nat.eqb_neq a b)) in W0, W1 by auto. rewrite W0, W1. apply injective_projections; cbn; ring.
    Qed.
    Lemma squares m psi a : (m <= ns)%nat -> lives m psi -> (a < D)%nat -> apply D X (apply D X psi) a +c apply D Y (apply D Y psi) a +c apply D Z (apply D Z psi) a = dn (up psi) a +c real ((INR ns / 2 - INR m) * (INR ns / 2 - INR m + 1)) *c psi a.
    Proof using comps sym.
      clear rep conn. intros Hm L Ha.
      assert (AE : forall (T : mat CR) u v, (forall b, (b < D)%nat -> u b = v b) -> apply D T u a = apply D T v a) by (intros T u v Q; apply ksum_ext; intros b Hb; rewrite (Q b Hb); reflexivity).
      rewrite (AE X (apply D X psi) (fun b => ((1 / 2, 0) : CR) *c (dn psi b +c up psi b))) by (intros b Hb; apply plus_apply; exact Hb).
      rewrite (AE Y (apply D Y psi) (fun b => ((0, - (1 / 2)) : CR) *c (dn psi b -c up psi b))) by (intros b Hb; apply plus_apply; exact Hb).
      rewrite (AE Z (apply D Z psi) (fun b => real (INR m - INR ns / 2) *c psi b)) by (intros b Hb; apply z_apply; assumption).
      destruct (plus_apply (fun b => ((1 / 2, 0) : CR) *c (dn psi b +c up psi b)) a Ha) as (-> & _). destruct (plus_apply (fun b => ((0, - (1 / 2)) : CR) *c (dn psi b -c up psi b)) a Ha) as (_ & ->).
      rewrite !Chain.dn_scale, !Chain.up_scale. rewrite (z_apply m (fun b => real (INR m - INR ns / 2) *c psi b) a) by (try exact Ha; intros b Hb NI; rewrite (L b Hb NI); apply injective_projections; cbn; ring).
      assert (DA : forall u v : nat -> CR, dn (fun b => u b +c v b) a = dn u a +c dn v a) by (intros u v; unfold Chain.dn; rewrite <- ksum_add; apply ksum_ext; intros; ring).
      assert (UA : forall u v : nat -> CR, up (fun b => u b +c v b) a = up u a +c up v a) by (intros u v; unfold Chain.up; rewrite <- ksum_add; apply ksum_ext; intros; ring).
      assert (DS : forall u v : nat -> CR, dn (fun b => u b -c v b) a = dn u a -c dn v a) by (intros u v; unfold Chain.dn; rewrite <- ksum_minus; apply ksum_ext; intros; ring).
      assert (US : forall u v : nat -> CR, up (fun b => u b -c v b) a = up u a -c up v a) by (intros u v; unfold Chain.up; rewrite <- ksum_minus; apply ksum_ext; intros; ring).
      rewrite DA, UA, DS, US. rewrite (comm g ts us same mus pot pr sym m psi a Hm L Ha). generalize (dn (dn psi) a) (up (up psi) a) (dn (up psi) a) (psi a). intros u v w z. apply injective_projections; cbn; field.
    Qed.
    Theorem ground_spin m e psi : ground m e psi -> SpecSinglet.has_spin D X Y Z (sector_spin part ns m) psi.
    Proof using All.
      intros G. pose proof kinds_sum as KS. destruct G as (LS & L & EP & SO) eqn:EG. clear EG. pose proof (lives_le g m psi L SO) as Hm. intros a Ha. etransitivity; [exact (squares m psi a Hm L Ha)|]. rewrite canon_spin by exact Hm.
      destruct (Nat.le_gt_cases m kmin) as [C1|C1]; [|destruct (Nat.le_gt_cases m (ns - kmin)) as [C2|C2]].
      - replace (canon m) with m by (unfold canon; lia). rewrite Chain.dn_zero by exact (top_kills m e psi C1 G). apply injective_projections; cbn; ring.
      - replace (canon m) with kmin by (unfold canon; lia). replace m with (kmin + (m - kmin))%nat in G by lia. rewrite (sector_moves e (m - kmin) psi ltac:(lia) G a Ha). rewrite minus_INR by lia. apply injective_projections; cbn; field.
      - replace (canon m) with (ns - m)%nat by (unfold canon; lia). assert (G' : ground (ns - (ns - m))%nat e psi) by (replace (ns - (ns - m))%nat with m by lia; exact G). pose proof (bottom_kills (ns - m) e psi ltac:(lia) G') as VN.
        pose proof (comm g ts us same mus pot pr sym m psi a Hm L Ha) as Q. rewrite Chain.up_zero in Q by exact VN. rewrite minus_INR by exact Hm.
        assert (Q2 : dn (up psi) a = real (2 * INR m - INR ns) *c psi a).
        { transitivity ((dn (up psi) a +c real (INR ns - 2 * INR m) *c psi a) +c real (2 * INR m - INR ns) *c psi a); [apply injective_projections; cbn; ring|]. rewrite <- Q. apply injective_projections; cbn; ring. }
        rewrite Q2. apply injective_projections; cbn; field.
    Qed.
  End Total.
End Level.
