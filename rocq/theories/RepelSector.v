(** Fermions that repel each other, as many particles as sites: eigenstates of the sectors
    and of the whole system. *)
From Coq Require Import List Arith Lia Reals Lra ZArith QArith Qabs Bool Permutation Classical.
From Verif Require Import Scalars Res Matrix Sums SqMat SpecMat SpecFock OpsProofs FockProofs FermiOps ModelBase ModelFermions ModelSpins SpecSpins Digits SpinOps SpinAlg SpinSwap SpinJordan HamProofs FermiApi SpecPerm
  ModelGeometry ModelPhase ModelSymmetry SymBase ModelThermal SpecThermal ThermalBase ThermalFacts ThermalBasis Spectral Thermo SpecHeat SpecConvex Convex SpecSigns Signs SignsHeat SignsSpins SpecSectors Perron Sectors SectorsRun HopSigns SpecShells Shells ShellsRun SpecLieb Halves LiebRun LiebSpin LiebCorr SpecHalf SpecRepel Repel RepelRun RepelCorr RepelMove RepelSpin.
From Verif Require SpinRotate Ladder Chain FreeFermi SpecSinglet Heis Singlet Dimers SingletApi SingletRun.
Import ListNotations.
Local Open Scope R_scope.

Section Sector.
  Variables (part : nat -> bool) (g : fgeom CR) (ts : nat -> nat -> nat -> CR) (us : nat -> CR) (same : nat -> nat -> nat -> CR) (mus : nat -> CR) (pot : nat -> nat -> CR) (pr : mat CR).
  Notation f := (pairsys g ts us same mus pot pr).
  Notation ns := (fg_nsites g).
  Notation nl := (ns * 2)%nat.
  Notation B := (2 ^ ns)%nat.
  Notation D := (2 ^ (ns * 2))%nat.
  Notation gl x y := (glue ns x y).
  Notation cm y := (holes ns y).
  Notation dg i x := (digit 2 ns i x).
  Notation eta := (state_sign Nat.odd ns).
  Notation eps := (state_sign part ns).
  Notation SP := (SpinRotate.SP f).
  Notation F := (HS2 f (amplitude f)).
  Notation lives := (lives g).
  Notation eig := (eig g ts us same mus pot pr).
  Notation some := (Chain.some nl).
  Notation least := (Chain.least nl lives eig).
  Notation ground := (Chain.ground nl lives eig).
  Notation spread := SpecSinglet.spread.
  Hypothesis rep : repelling part f.
  Hypothesis conn : connected_hops f.
  Lemma holes_total x : (x < B)%nat -> (digit_sum 2 ns (cm x) + digit_sum 2 ns x = ns)%nat.
  Proof using. clear. intros Hx. unfold digit_sum. rewrite (holes_sum ns (seq 0 ns) x Hx) by (intros i Hi; apply in_seq in Hi; lia). apply seq_length. Qed.
  Section Shell.
    Variables (m : nat) (P : mat CR) (idx : list nat) (H : mat CR).
    Hypothesis mn : (m <= ns)%nat.
    Hypothesis sec : shell ns 2 [m; ns - m]%nat P idx.
    Hypothesis made : createH f (Some P) = Ok H.
    Notation N := (length idx).
    Notation at_ p := (nth p idx 0%nat).
    Notation ent_F := (shell_ent f [m; ns - m]%nat P idx H sec (us_fine g ts us same mus pot pr) made).
    Lemma in_shell a : In a idx <-> (a < D)%nat /\ in_sector g m a.
    Proof using sec mn.
      clear made rep conn. assert (CD : forall x, length (filter (occ ns x) (seq 0 ns)) = digit_sum 2 ns x) by (intros x; apply count_digits; intros q Hq; apply in_seq in Hq; lia).
      destruct sec as (_ & _ & I). rewrite I. split; intros (Ha & C); (split; [exact Ha|]); destruct (glue_split ns a Ha) as (L1 & L2 & Q).
      - pose proof (C 0%nat ltac:(lia)) as C0. pose proof (C 1%nat ltac:(lia)) as C1. cbn [nth] in C0, C1. rewrite <- Q in C0, C1. rewrite (species_hi g _ _ L1 L2), CD in C0. rewrite (species_lo g _ _ L1 L2), CD in C1. split; [exact C0 | lia].
      - destruct C as (C0 & C1). intros s Hs. rewrite <- Q. destruct s as [|[|s]]; [| |lia]; cbn [nth].
        + rewrite (species_hi g _ _ L1 L2), CD. exact C0.
        + rewrite (species_lo g _ _ L1 L2), CD. lia.
    Qed.
    Lemma at_D p : (p < N)%nat -> (at_ p < D)%nat. Proof using sec mn. intros Hp. apply (in_shell (at_ p)), nth_In, Hp. Qed.
    Lemma act_spread (X : nat -> nat -> CR) psi a : ksum D (fun b => X a b *c spread idx psi b) = ksum N (fun q => X a (at_ q) *c psi q).
    Proof using sec mn.
      unfold SpecSinglet.spread. rewrite (ksum_ext D _ (fun b => ksum N (fun q => if (at_ q =? b)%nat then X a b *c psi q else c0))).
      - rewrite ksum_swap. apply ksum_ext. intros q Hq. rewrite (ksum_single D (at_ q) _ (at_D q Hq)); [rewrite Nat.eqb_refl; reflexivity|]. intros b Hb Nb. rewrite (proj2 (Nat.eqb_neq _ _)) by congruence. reflexivity.
      - intros b Hb. rewrite <- ksum_mul_l. apply ksum_ext. intros q Hq. destruct (at_ q =? b)%nat; [reflexivity | apply injective_projections; cbn; ring].
    Qed.
    Lemma spread_pos psi p : (p < N)%nat -> spread idx psi (at_ p) = psi p.
    Proof using sec.
      clear mn rep conn made. intros Hp. unfold SpecSinglet.spread. rewrite (ksum_single N p); [rewrite Nat.eqb_refl; reflexivity | exact Hp|]. intros q Hq Nq. rewrite (proj2 (Nat.eqb_neq _ _)); [reflexivity|]. intros X. apply Nq, (proj1 (NoDup_nth idx 0%nat) (proj1 (proj2 sec))); assumption.
    Qed.
    Lemma spread_out psi a : ~ In a idx -> spread idx psi a = c0.
    Proof using. clear. intros NI. unfold SpecSinglet.spread. apply ksum_zero. intros q Hq. rewrite (proj2 (Nat.eqb_neq _ _)); [reflexivity|]. intros <-. apply NI, nth_In, Hq. Qed.
    Lemma spread_lives psi : lives m (spread idx psi).
    Proof using sec mn. intros a Ha NI. apply spread_out. rewrite in_shell. tauto. Qed.
    Lemma spread_gather X a : lives m X -> (a < D)%nat -> spread idx (fun p => X (at_ p)) a = X a.
    Proof using sec mn.
      intros L Ha. destruct (in_dec Nat.eq_dec a idx) as [I|NI].
      - destruct (In_nth idx a 0%nat I) as (p & Hp & <-). rewrite spread_pos by exact Hp. reflexivity.
      - rewrite spread_out by exact NI. symmetry. apply L; [exact Ha|]. intros C. apply NI, in_shell. auto.
    Qed.
    Lemma off_shell a q : (a < D)%nat -> ~ In a idx -> (q < N)%nat -> F a (at_ q) = c0.
    Proof using sec mn.
      intros Ha NI Hq. apply NNPP. intros NZ. apply NI. rewrite F_sym in NZ by (assumption || apply at_D, Hq).
      pose proof (F_keeps g ts us same mus pot pr [m; ns - m]%nat (at_ q) a (at_full f [m; ns - m]%nat P idx sec q Hq) Ha NZ) as FA. destruct (full_at f [m; ns - m]%nat P idx sec a FA) as (p & Hp & <-). apply nth_In, Hp.
    Qed.
    Lemma spread_eig e psi : state_of N H e psi -> eig e (spread idx psi).
    Proof using sec made mn.
      intros ST a Ha. rewrite act_spread. destruct (in_dec Nat.eq_dec a idx) as [I|NI].
      - destruct (In_nth idx a 0%nat I) as (p & Hp & <-). rewrite spread_pos by exact Hp. etransitivity; [|exact (ST p Hp)]. unfold apply. apply ksum_ext. intros q Hq. destruct ent_F as (_ & _ & W). rewrite W by assumption. reflexivity.
      - rewrite ksum_zero by (intros q Hq; rewrite off_shell by assumption; ring). rewrite spread_out by exact NI. ring.
    Qed.
    Lemma eig_shell e X : eig e X -> state_of N H e (fun p => X (at_ p)).
    Proof using sec made mn.
      intros EX p Hp. etransitivity; [|exact (EX (at_ p) (at_D p Hp))]. unfold apply. destruct ent_F as (_ & _ & W).
      transitivity (ksum D (fun b => F (at_ p) b *c spread idx (fun q => X (at_ q)) b)).
      - rewrite act_spread. apply ksum_ext. intros q Hq. rewrite W by assumption. reflexivity.
      - apply ksum_ext. intros b Hb. destruct (in_dec Nat.eq_dec b idx) as [I|NI].
        + destruct (In_nth idx b 0%nat I) as (q & Hq & <-). rewrite spread_pos by exact Hq. reflexivity.
        + rewrite F_sym, off_shell by (assumption || apply at_D, Hp). ring.
    Qed.
    Variables (V : mat CR) (E : list R) (e : R).
    Hypothesis basis : eigenbasis H V E.
    Lemma rows_V : nrow V = N.
    Proof using sec made basis. exact (shell_rows f [m; ns - m]%nat P idx H V E (or_introl (le_n 2)) sec made basis). Qed.
    Lemma smallest_least : smallest e E -> least m e.
    Proof using sec made basis mn.
      clear rep conn. intros SM. pose proof rows_V as RW. split.
      - destruct SM as (IN & _). destruct (In_nth E e 0 IN) as (k & Hk & <-). pose proof (col_state H V E _ basis RW k Hk) as ST. exists (spread idx (col V k)). split; [apply spread_lives|]. split; [apply spread_eig, ST|].
        pose proof (unit1 H V E _ basis RW k Hk) as U. assert (NZ : exists a, (a < N)%nat /\ col V k a <> c0).
        { apply NNPP. intros Z. unfold norm2, inner in U. rewrite ksum_zero in U; [cbn in U; lra|]. intros i Hi. assert (Zi : col V k i = c0) by (apply NNPP; intros Y; apply Z; exists i; auto). rewrite Zi. apply injective_projections; cbn; ring. }
        destruct NZ as (a & Ha & NA). exists (at_ a). split; [apply at_D, Ha|]. rewrite spread_pos by exact Ha. exact NA.
      - intros e' psi L X (a & Ha & NA). apply (Heis.above_lowest N H V E e e' (fun p => psi (at_ p)) basis RW SM); [apply eig_shell, X|].
        destruct (classic (in_sector g m a)) as [I|I]; [|exfalso; apply NA, L; assumption]. destruct (In_nth idx a 0%nat (proj2 (in_shell a) (ltac:(split; assumption)))) as (p & Hp & <-). exists p. auto.
    Qed.
    Lemma low_config : exists x, (x < B)%nat /\ digit_sum 2 ns x = m. Proof using mn. clear - mn. exact (first_flipped ns m mn). Qed.
    Lemma holes_in x : (x < B)%nat -> digit_sum 2 ns x = m -> in_sector g m (gl x (cm x)).
    Proof using. clear. intros Hx C. apply in_glue; [apply holes_lt|]. split; [exact C|]. pose proof (holes_total x Hx). lia. Qed.
    Lemma some_rows : (0 < N)%nat.
    Proof using sec mn. destruct low_config as (x & Hx & C). pose proof (proj2 (in_shell (gl x (cm x))) (ltac:(split; [apply glue_lt; [exact Hx | apply holes_lt] | apply holes_in; assumption]))) as I. destruct idx; [destruct I | cbn; lia]. Qed.
  End Shell.
  Lemma least_unique m e e' : least m e -> least m e' -> e = e'.
  Proof using. clear rep conn. intros ((psi & L & X & Pp) & M) ((psi' & L' & X' & Pp') & M'). pose proof (M e' psi' L' X' Pp'). pose proof (M' e psi L X Pp). lra. Qed.
  Definition rows_of (m : nat) : list nat := filter (fun a => (digit_sum 2 ns (a / B) =? m) && (digit_sum 2 ns (a mod B) + m =? ns))%nat (seq 0 D).
  Lemma sector_solved m : (m <= ns)%nat -> exists P idx H V E, shell ns 2 [m; ns - m]%nat P idx /\ createH f (Some P) = Ok H /\ eigenbasis H V E.
  Proof using rep.
    clear conn. intros mn. set (idx := rows_of m). set (P := Mat (length idx) D (fun i j => if (nth i idx 0%nat =? j)%nat then k1 else k0) : mat CR). exists P, idx.
    assert (CD : forall x, length (filter (occ ns x) (seq 0 ns)) = digit_sum 2 ns x) by (intros x; apply count_digits; intros q Hq; apply in_seq in Hq; lia).
    assert (SH : shell ns 2 [m; ns - m]%nat P idx).
    { split; [split; [reflexivity|]; split; reflexivity|]. split; [apply NoDup_filter, seq_NoDup|]. intros a. unfold idx, rows_of. rewrite filter_In, in_seq, andb_true_iff, !Nat.eqb_eq. split.
      - intros (Ha & C0 & C1). assert (Ha' : (a < D)%nat) by lia. split; [exact Ha'|]. destruct (glue_split ns a Ha') as (L1 & L2 & Q). intros s Hs. rewrite <- Q. destruct s as [|[|s]]; [| |lia]; cbn [nth]; [rewrite (species_hi g _ _ L1 L2), CD; exact C0 | rewrite (species_lo g _ _ L1 L2), CD; lia].
      - intros (Ha & C). split; [lia|]. destruct (glue_split ns a Ha) as (L1 & L2 & Q). pose proof (C 0%nat ltac:(lia)) as C0. pose proof (C 1%nat ltac:(lia)) as C1. cbn [nth] in C0, C1. rewrite <- Q in C0, C1. rewrite (species_hi g _ _ L1 L2), CD in C0. rewrite (species_lo g _ _ L1 L2), CD in C1. split; [exact C0 | lia]. }
    destruct (createH_ok f (Some P) eq_refl (or_introl (le_n 2))) as (H & EH & _). destruct (shell_ent f [m; ns - m]%nat P idx H SH (us_fine g ts us same mus pot pr) EH) as (R1 & R2 & W).
    assert (HH : hermitian (nrow H) H).
    { intros i j Hi Hj. rewrite R1 in Hi, Hj. rewrite !W by assumption. symmetry. apply (F_conj part g ts us same mus pot pr rep); apply (at_D m P idx mn SH); assumption. }
    destruct (spectral (nrow H) H HH eq_refl ltac:(congruence)) as (V & E & BS). exists H, V, E. auto.
  Qed.
  Lemma low_ex m : (m <= ns)%nat -> exists e, least m e.
  Proof using rep.
    clear conn. intros mn. destruct (sector_solved m mn) as (P & idx & H & V & E & SH & EH & BS). pose proof (rows_V m P idx H SH EH V E BS) as RW.
    destruct (smallest_exists H V E (length idx) BS RW (not_eq_sym (Nat.lt_neq _ _ (some_rows m P idx mn SH)))) as (k & Hk & SM). exists (nth k E 0). exact (smallest_least m P idx H mn SH EH V E _ BS SM).
  Qed.
  Lemma least_smallest m P idx H V E e : (m <= ns)%nat -> shell ns 2 [m; ns - m]%nat P idx -> createH f (Some P) = Ok H -> eigenbasis H V E -> least m e -> smallest e E.
  Proof using.
    clear rep conn. intros mn SH EH BS LS. pose proof (rows_V m P idx H SH EH V E BS) as RW. destruct (smallest_exists H V E (length idx) BS RW (not_eq_sym (Nat.lt_neq _ _ (some_rows m P idx mn SH)))) as (k & Hk & SM).
    rewrite (least_unique m e _ LS (smallest_least m P idx H mn SH EH V E _ BS SM)). exact SM.
  Qed.
  (** States of the lowest energy are multiples of one, with known signs where every site is
      taken once. *)
  Lemma ground_form m e : (m <= ns)%nat -> least m e -> exists Y : nat -> R, (forall x, (x < B)%nat -> digit_sum 2 ns x = m -> 0 < eps x * eta x * Y (gl x (cm x))) /\
    (forall a, (a < D)%nat -> ~ in_sector g m a -> Y a = 0) /\ forall X, lives m X -> eig e X -> exists z, forall a, (a < D)%nat -> X a = z *c real (Y a).
  Proof using rep conn.
    intros mn LS. destruct (sector_solved m mn) as (P & idx & H & V & E & SH & EH & BS). pose proof (least_smallest m P idx H V E e mn SH EH BS LS) as SM.
    destruct (half_state part g ts us same mus pot pr rep conn m P idx H V E e mn SH EH BS SM) as (G & GS & GP & GU).
    exists (fun a => if in_dec Nat.eq_dec a idx then hole_sign part ns (cm (a mod B)) * G (a / B)%nat (cm (a mod B)) else 0). split; [|split].
    - intros x Hx C. destruct (in_dec Nat.eq_dec (gl x (cm x)) idx) as [I|NI]; [|exfalso; apply NI, (in_shell m P idx mn SH); split; [apply glue_lt; [exact Hx | apply holes_lt] | apply holes_in; assumption]].
      rewrite glue_hi, glue_lo by apply holes_lt. rewrite holes_holes by exact Hx. unfold hole_sign.
      assert (GX : 0 < G x x).
      { pose proof (GP (fun v => if (v =? x)%nat then c1 else c0)) as Q. rewrite (ksum_single B x _ Hx), (ksum_single B x _ Hx) in Q.
        - rewrite Nat.eqb_refl in Q. cbn in Q. apply Rlt_le_trans with (1 := Q ltac:(exists x; split; [split; [exact Hx | rewrite <- C; apply count_digits; intros q Hq; apply in_seq in Hq; lia] | rewrite Nat.eqb_refl; intros Z; apply pair_equal_spec in Z as (Z & _); cbn in Z; lra])). lra.
        - intros v Hv NE. rewrite (proj2 (Nat.eqb_neq v x)) by exact NE. ring.
        - intros v Hv NE. rewrite (proj2 (Nat.eqb_neq v x)) by exact NE. apply ksum_zero. intros v' _. rewrite kconj_0. ring. }
      destruct (state_signs part ns x Hx) as [-> | ->], (state_signs Nat.odd ns x Hx) as [-> | ->]; lra.
    - intros a Ha NS. destruct (in_dec Nat.eq_dec a idx) as [I|NI]; [|reflexivity]. exfalso. apply NS. apply (in_shell m P idx mn SH), I.
    - intros X L EX. destruct (proj1 (GU _) (eig_shell m P idx H mn SH EH e X EX)) as (z & Q). exists z. intros a Ha. destruct (in_dec Nat.eq_dec a idx) as [I|NI].
      + destruct (In_nth idx a 0%nat I) as (p & Hp & <-). exact (Q p Hp).
      + rewrite (L a Ha); [apply injective_projections; cbn; ring|]. intros C. apply NI, (in_shell m P idx mn SH). auto.
  Qed.
  Lemma some_factor X z (Y : nat -> R) : (forall a, (a < D)%nat -> X a = z *c real (Y a)) -> some X -> z <> c0.
  Proof using. clear. intros Q (a & Ha & NA) Z. apply NA. rewrite (Q a Ha), Z. apply injective_projections; cbn; ring. Qed.
  Lemma mult m e psi X : ground m e psi -> lives m X -> eig e X -> exists z, forall a, (a < D)%nat -> X a = z *c psi a.
  Proof using rep conn.
    intros (LS & L & EP & SO) LX EX. destruct (ground_form m e (lives_le g m psi L SO) LS) as (Y & _ & _ & W). destruct (W psi L EP) as (z & Q). destruct (W X LX EX) as (w & Q'). pose proof (some_factor psi z Y Q SO) as NZ.
    exists (w *c (fst z / (fst z * fst z + snd z * snd z), - (snd z / (fst z * fst z + snd z * snd z)))). intros a Ha. rewrite (Q a Ha), (Q' a Ha). destruct z as (u, v). cbn [fst snd].
    assert (NN : u * u + v * v <> 0) by (intros NN; apply NZ; apply injective_projections; cbn; nra). apply injective_projections; cbn; field; exact NN.
  Qed.
  Lemma sum_glued (h : nat -> CR) : ksum D h = ksum B (fun x => ksum B (fun y => h (gl x y))).
  Proof using. clear. apply sum_glue. Qed.
  (** Ground states are not orthogonal to functions with the signs. *)
  Lemma ground_meets m e psi (T : nat -> CR) (phi : nat -> R) (w : R) a0 : ground m e psi -> (forall x y, (x < B)%nat -> (y < B)%nat -> T (gl x y) = if (y =? cm x)%nat then real (eta x * phi x) else c0) ->
    (forall x, (x < B)%nat -> digit_sum 2 ns x = m -> 0 <= w * (eps x * phi x)) -> (a0 < B)%nat -> digit_sum 2 ns a0 = m -> 0 < w * (eps a0 * phi a0) -> inner D T psi <> c0.
  Proof using rep conn.
    intros (LS & L & EP & SO) TV PG H0 S0 P0. destruct (ground_form m e (lives_le g m psi L SO) LS) as (Y & YP & YZ & W). destruct (W psi L EP) as (z & Q). pose proof (some_factor psi z Y Q SO) as NZ.
    assert (I : inner D T psi = z *c real (total (fun x => eta x * phi x * Y (gl x (cm x))) (seq 0 B))).
    { unfold inner. rewrite sum_glued, <- ksum_reals, <- ksum_mul_l. apply ksum_ext. intros x Hx. rewrite (ksum_single B (cm x) _ (holes_lt ns x)).
      - rewrite (TV x (cm x) Hx (holes_lt ns x)), Nat.eqb_refl, (Q (gl x (cm x))) by (apply glue_lt; [exact Hx | apply holes_lt]). apply injective_projections; cbn; ring.
      - intros y Hy NE. rewrite (TV x y Hx Hy), (proj2 (Nat.eqb_neq y (cm x))) by exact NE. rewrite kconj_0. ring. }
    rewrite I. intros Z. assert (T0 : 0 < w * total (fun x => eta x * phi x * Y (gl x (cm x))) (seq 0 B)).
    { assert (TE : forall x, (x < B)%nat -> digit_sum 2 ns x = m -> w * (eta x * phi x * Y (gl x (cm x))) = w * (eps x * phi x) * (eps x * eta x * Y (gl x (cm x)))).
      { intros x Hx C. destruct (state_signs part ns x Hx) as [-> | ->]; ring. }
      rewrite <- total_scale. apply (total_positive _ _ a0); [|apply in_seq; lia|].
      - intros x Hx. apply in_seq in Hx. destruct (Nat.eq_dec (digit_sum 2 ns x) m) as [C|C].
        + rewrite TE by (exact C || lia). apply Rmult_le_pos; [apply PG; [lia | exact C] | apply Rlt_le, YP; [lia | exact C]].
        + rewrite (YZ (gl x (cm x))); [lra | apply glue_lt; [lia | apply holes_lt]|]. rewrite in_glue by apply holes_lt. tauto.
      - rewrite TE by assumption. apply Rmult_lt_0_compat; [exact P0 | apply YP; assumption]. }
    set (t := total _ _) in *. apply NZ. apply (Chain.zero_product z (real t) Z). intros Q0. apply pair_equal_spec in Q0 as (Q0 & _). rewrite Q0 in T0. lra.
  Qed.
  (** ** Trial states *)
  Notation blocked := (Chain.blocked nl SP lives eig).
  Notation reached := (Chain.reached nl SP lives eig).
  Notation of_kind := SpecSinglet.of_kind.
  Lemma zeros (q : list nat) : list_sum (map (fun _ => 0%nat) q) = 0%nat. Proof using. clear. induction q as [|x q IH]; [reflexivity | exact IH]. Qed.
  Lemma blocked_sector m : (m <= of_kind part ns true)%nat -> (m <= of_kind part ns false)%nat -> blocked m.
  Proof using rep conn.
    intros Ha Hb. destruct (SingletApi.pairing_exists part ns m Ha Hb) as (l & r & PR & LL & _). set (phi := Dimers.phi ns l r (fun _ => 0%nat)). exists (singly g phi). split.
    - intros a HA. destruct (glue_split ns a HA) as (L1 & L2 & <-). rewrite up_singly by assumption. destruct (a mod B =? cm (a / B))%nat; [|reflexivity]. unfold phi. rewrite (Dimers.phi_still part ns l r PR 0 ltac:(lia)). apply injective_projections; cbn; ring.
    - intros e psi GR. pose proof (Dimers.shown_lt ns l (fun _ => 0%nat) ltac:(intros; cbn beta; auto with arith)) as SL. pose proof (Dimers.shown_phi part ns l r PR (fun _ => 0%nat) ltac:(intros; cbn beta; auto with arith)) as SQ.
      apply (ground_meets m e psi (singly g phi) phi (Dimers.rest_sign part r (fun _ => 0%nat)) (Dimers.shown ns l (fun _ => 0%nat)) GR).
      + intros x y Hx Hy. apply singly_glue, Hy.
      + intros x Hx _. apply (Dimers.phi_sign part ns l r PR).
      + exact SL.
      + rewrite (Dimers.phi_lives part ns l r PR (fun _ => 0%nat) _ SL) by (rewrite SQ; lra). rewrite LL, zeros. lia.
      + pose proof (Dimers.phi_sign part ns l r PR (fun _ => 0%nat) (Dimers.shown ns l (fun _ => 0%nat))) as Y. unfold phi. rewrite SQ in *. destruct (Dimers.rest_square part r (fun _ => 0%nat)) as [Q|Q]; rewrite Q in *; destruct (state_signs part ns _ SL) as [Q2|Q2]; rewrite Q2 in *; lra.
  Qed.
  Section One.
    Variables (l : list (nat * nat)) (r : list nat).
    Hypothesis pair : Dimers.pairing part ns l r.
    Hypothesis one : forall p q, In p r -> In q r -> part p = part q.
    Notation k := (length l).
    Notation fl := (Ladder.fl ns).
    Lemma pair_count : (2 * k + length r = ns)%nat.
    Proof using pair.
      clear rep conn one. destruct pair as (_ & PM). apply Permutation_length in PM. rewrite app_length, seq_length in PM. assert (Q : length (Dimers.flat_pairs l) = (2 * length l)%nat) by (clear; unfold Dimers.flat_pairs; induction l as [|p q IH]; [reflexivity | cbn [flat_map app length] in *; lia]). lia.
    Qed.
    Lemma rest_lt p : In p r -> (p < ns)%nat.
    Proof using pair. clear rep conn one. destruct pair as (_ & PM). intros Hp. assert (I : In p (seq 0 ns)) by (apply (Permutation_in _ PM), in_or_app; right; exact Hp). apply in_seq in I. lia. Qed.
    Notation filled := (SingletRun.filled r).
    Lemma rest_NoDup : NoDup r.
    Proof using pair. clear rep conn one. destruct pair as (_ & PM). assert (ND : NoDup (Dimers.flat_pairs l ++ r)) by (apply (Permutation_NoDup (Permutation_sym PM)), seq_NoDup). apply SwapProofs.NoDup_app_r in ND. exact ND. Qed.
    Lemma filled_out t p : In p (skipn t r) -> filled t p = 0%nat.
    Proof using pair.
      clear rep conn one. intros I. unfold SingletRun.filled. assert (X : existsb (Nat.eqb p) (firstn t r) = false).
      { apply not_true_iff_false. intros X. apply existsb_exists in X as (q & Q1 & Q2). apply Nat.eqb_eq in Q2. subst q. pose proof rest_NoDup as ND. rewrite <- (firstn_skipn t r) in ND. exact (SwapProofs.NoDup_app_disj _ _ p ND Q1 I). }
      rewrite X. reflexivity.
    Qed.
    Lemma filled_sum t : (t <= length r)%nat -> list_sum (map (filled t) r) = t.
    Proof using pair.
      clear rep conn one. intros Ht. rewrite <- (firstn_skipn t r) at 2. rewrite map_app, list_sum_app.
      assert (A : forall q, (forall p, In p q -> filled t p = 1%nat) -> list_sum (map (filled t) q) = length q) by (induction q as [|p q IH]; intros W; [reflexivity|]; change (filled t p + list_sum (map (filled t) q) = S (length q))%nat; rewrite (W p (or_introl eq_refl)), IH by (intros; apply W; right; assumption); reflexivity).
      assert (A0 : forall q, (forall p, In p q -> filled t p = 0%nat) -> list_sum (map (filled t) q) = 0%nat) by (induction q as [|p q IH]; intros W; [reflexivity|]; change (filled t p + list_sum (map (filled t) q) = 0)%nat; rewrite (W p (or_introl eq_refl)), IH by (intros; apply W; right; assumption); reflexivity).
      rewrite A by apply SingletRun.filled_in. rewrite A0 by apply filled_out. rewrite firstn_length. lia.
    Qed.
    Lemma flip_agrees p a : agree_off 2 ns [p] a (fl p a) = true.
    Proof using. clear. apply agree_off_spec. intros q Hq NI. symmetry. apply Ladder.dg_other; [exact Hq | intros ->; apply NI; left; reflexivity]. Qed.
    Lemma reached_sector m : (k < m)%nat -> (m + k <= ns)%nat -> reached m.
    Proof using All.
      intros K1 K2. pose proof pair_count as PC. set (t := (m - 1 - k)%nat). assert (Ht : (t < length r)%nat) by (unfold t; lia). set (p0 := nth t r 0%nat).
      assert (I0 : In p0 r) by (apply nth_In; exact Ht). assert (J0 : In p0 (skipn t r)).
      { unfold p0. replace t with (t + 0)%nat at 1 by lia. rewrite <- (firstn_skipn t r) at 1. rewrite app_nth2 by (rewrite firstn_length; lia). apply nth_In. rewrite skipn_length, firstn_length. lia. }
      set (cf := SingletRun.filled r t). assert (CL : forall p, (p < ns)%nat -> (cf p < 2)%nat) by (intros; apply SingletRun.filled_lt). set (Q := Dimers.phi ns l r cf). set (G := fun a => total (fun p => if (dg p a =? 1)%nat then Q (fl p a) else 0) (seq 0 ns)).
      pose proof (Dimers.shown_lt ns l cf CL) as SL. pose proof (Dimers.shown_phi part ns l r pair cf CL) as SQ. fold Q in SQ. set (b0 := Dimers.shown ns l cf) in *.
      assert (D0 : dg p0 b0 = 0%nat).
      { assert (W : Q b0 <> 0) by (rewrite SQ; lra). unfold Q, Dimers.phi in W. destruct (forallb (fun p => dg p b0 =? cf p)%nat r) eqn:FB; [|exfalso; apply W; reflexivity]. rewrite forallb_forall in FB. specialize (FB p0 I0). apply Nat.eqb_eq in FB. rewrite FB. apply filled_out. exact J0. }
      pose proof (rest_lt p0 I0) as H0. set (a0 := fl p0 b0). set (w := Dimers.rest_sign part r cf * side part p0).
      assert (TM : forall a, (a < B)%nat -> forall p, In p r -> 0 <= w * eps a * (if (dg p a =? 1)%nat then Q (fl p a) else 0)).
      { intros a Ha p Hp. destruct (Nat.eqb_spec (dg p a) 1) as [E1|E1]; [|lra]. pose proof (rest_lt p Hp) as Hq. pose proof (sign_flip part ns p a (fl p a) Hq (flip_agrees p a) ltac:(rewrite Ladder.dg_same by exact Hq; lia)) as SF.
        pose proof (Dimers.phi_sign part ns l r pair cf (fl p a)) as PS. fold Q in PS. assert (SS : side part p = side part p0) by (unfold side; rewrite (one p p0 Hp I0); reflexivity). rewrite SS in SF. unfold w. rewrite <- SF. destruct (state_signs part ns a Ha) as [S1|S1]; rewrite S1; [replace (Dimers.rest_sign part r cf * (1 * eps (fl p a)) * 1 * Q (fl p a)) with (Dimers.rest_sign part r cf * (eps (fl p a) * Q (fl p a))) by ring; exact PS|].
        replace (Dimers.rest_sign part r cf * (-1 * eps (fl p a)) * -1 * Q (fl p a)) with (Dimers.rest_sign part r cf * (eps (fl p a) * Q (fl p a))) by ring. exact PS. }
      assert (GV : forall a, w * (eps a * G a) = total (fun p => w * eps a * (if (dg p a =? 1)%nat then Q (fl p a) else 0)) r).
      { intros a. unfold G. pose proof (Dimers.phi_moves part ns l r pair 1 cf a ltac:(lia)) as W. fold Q in W. rewrite W, total_scale. ring. }
      assert (A1 : dg p0 a0 = 1%nat) by (unfold a0; rewrite Ladder.dg_same by exact H0; lia). assert (A2 : fl p0 a0 = b0) by (unfold a0; apply Ladder.fl_fl; assumption).
      assert (SA : digit_sum 2 ns a0 = m).
      { pose proof (Ladder.fl_sum ns p0 b0 H0) as FS. fold a0 in FS. rewrite D0 in FS. assert (SB : digit_sum 2 ns b0 = (k + t)%nat) by (rewrite (Dimers.phi_lives part ns l r pair cf b0 SL) by (fold Q; rewrite SQ; lra); unfold cf; rewrite filled_sum by lia; reflexivity). unfold t in SB. lia. }
      set (sn := fun c => if Nat.even c then -1 else 1). assert (SN : forall c, kopp (ksign c) = real (sn c) :> CR).
      { induction c as [|c IH]; [apply injective_projections; cbn; ring|]. change (ksign (K:=CR) (S c)) with (kopp (ksign (K:=CR) c)). rewrite IH. unfold sn. rewrite Nat.even_succ, <- Nat.negb_even. destruct (Nat.even c); apply injective_projections; cbn; ring. }
      assert (S2 : sn m * sn m = 1) by (unfold sn; destruct (Nat.even m); ring).
      exists (singly g Q). intros e psi GR. apply (ground_meets m e psi _ (fun x => sn (digit_sum 2 ns x) * G x) (w * sn m) a0 GR).
      - intros x y Hx Hy. rewrite dn_singly by assumption. destruct (y =? cm x)%nat; [|reflexivity]. rewrite SN. fold (G x). apply injective_projections; cbn; ring.
      - intros x Hx C. rewrite C. replace (w * sn m * (eps x * (sn m * G x))) with (sn m * sn m * (w * (eps x * G x))) by ring. rewrite S2, Rmult_1_l, GV. apply total_ge0. intros p Hp. apply TM; assumption.
      - apply Ladder.fl_lt.
      - exact SA.
      - rewrite SA. replace (w * sn m * (eps a0 * (sn m * G a0))) with (sn m * sn m * (w * (eps a0 * G a0))) by ring. rewrite S2, Rmult_1_l, GV. apply (total_positive _ _ p0); [intros p Hp; apply TM; [apply Ladder.fl_lt | exact Hp] | exact I0 |]. pose proof (TM a0 (Ladder.fl_lt ns p0 b0) p0 I0) as W. rewrite A1, Nat.eqb_refl, A2, SQ in *. unfold w in *. destruct (Dimers.rest_square part r cf) as [S1|S1], (SingletRun.side_square part p0) as [S3|S3], (state_signs part ns a0 (Ladder.fl_lt ns p0 b0)) as [S4|S4]; rewrite S1, S3, S4 in *; lra.
    Qed.
  End One.
End Sector.
