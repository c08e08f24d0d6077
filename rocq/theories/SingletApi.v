(** Antiferromagnets on two kinds of sites, by the numbers of sites of each kind. *)
From Coq Require Import List Arith Lia Reals Lra ZArith QArith Bool Permutation.
From Verif Require Import Scalars Res Matrix Sums SqMat SpecMat ModelBase ModelSpins SpecSpins Digits SpinOps SpinAlg SpinHam SpinApi SpinSwap HamProofs SpecPerm
  ModelGeometry ModelPhase ModelSymmetry SymBase ModelThermal SpecThermal ThermalBase ThermalFacts ThermalBasis Spectral Thermo SpecHeat SpecConvex Convex SpecSigns Signs SignsHeat SignsSpins SpecSectors Perron Sectors SectorsRun Ladder SpecSinglet Dimers Heis Singlet SingletRun SingletCount.
Import ListNotations.
Local Open Scope R_scope.

Lemma flat_combine (A B : list nat) : length A = length B -> Permutation (flat_pairs (combine A B)) (A ++ B).
Proof.
  revert B. induction A as [|x A IH]; intros [|y B] L; cbn [length] in L; try discriminate; [constructor|]. change (flat_pairs (combine (x :: A) (y :: B))) with (x :: y :: flat_pairs (combine A B)). cbn [app]. constructor.
  rewrite (IH B) by lia. apply Permutation_middle.
Qed.
Lemma filter_split (f : nat -> bool) l : Permutation (filter (fun i => Bool.eqb (f i) true) l ++ filter (fun i => Bool.eqb (f i) false) l) l.
Proof.
  induction l as [|x l IH]; [constructor|]. cbn [filter]. destruct (f x); cbn [Bool.eqb app]; [constructor; exact IH|]. rewrite <- Permutation_middle. constructor. exact IH.
Qed.
Lemma in_firstn {A} (x : A) m l : In x (firstn m l) -> In x l.
Proof. intros I. rewrite <- (firstn_skipn m l). apply in_or_app. left. exact I. Qed.
Lemma in_skipn {A} (x : A) m l : In x (skipn m l) -> In x l.
Proof. intros I. rewrite <- (firstn_skipn m l). apply in_or_app. right. exact I. Qed.
Lemma pairing_exists part n m : (m <= of_kind part n true)%nat -> (m <= of_kind part n false)%nat ->
  exists l r, pairing part n l r /\ length l = m /\ ((m = of_kind part n true \/ m = of_kind part n false) -> forall p q, In p r -> In q r -> part p = part q) /\ (m = of_kind part n true -> m = of_kind part n false -> r = []).
Proof.
  unfold of_kind. set (A := filter (fun i => Bool.eqb (part i) true) (seq 0 n)). set (B := filter (fun i => Bool.eqb (part i) false) (seq 0 n)). intros HA HB.
  assert (KA : forall p, In p A -> part p = true) by (intros p I; apply filter_In in I as (_ & Q); apply eqb_prop in Q; exact Q). assert (KB : forall p, In p B -> part p = false) by (intros p I; apply filter_In in I as (_ & Q); apply eqb_prop in Q; exact Q).
  exists (combine (firstn m A) (firstn m B)), (skipn m A ++ skipn m B). split; [split|split; [|split]].
  - intros i j I. split; [apply in_combine_l in I; apply KA, (in_firstn i m A I) | apply in_combine_r in I; apply KB, (in_firstn j m B I)].
  - rewrite flat_combine by (rewrite !firstn_length; lia). rewrite <- (filter_split part (seq 0 n)). fold A B. rewrite <- (firstn_skipn m A) at 3. rewrite <- (firstn_skipn m B) at 3. rewrite <- !app_assoc. apply Permutation_app_head. rewrite !app_assoc. apply Permutation_app_tail. apply Permutation_app_comm.
  - rewrite combine_length, !firstn_length. lia.
  - intros [Q|Q] p q Ip Iq.
    + rewrite (skipn_all2 A) in Ip, Iq by lia. cbn [app] in Ip, Iq. rewrite (KB p (in_skipn p m B Ip)), (KB q (in_skipn q m B Iq)). reflexivity.
    + rewrite (skipn_all2 B), app_nil_r in Ip, Iq by lia. rewrite (KA p (in_skipn p m A Ip)), (KA q (in_skipn q m A Iq)). reflexivity.
  - intros Q1 Q2. rewrite !skipn_all2 by lia. reflexivity.
Qed.
Lemma kinds_all part n : (of_kind part n true + of_kind part n false = n)%nat.
Proof. unfold of_kind. pose proof (Permutation_length (filter_split part (seq 0 n))) as L. rewrite app_length, seq_length in L. exact L. Qed.

Section Api.
  Variables (rt : nat -> CR) (s : spins CR) (J : nat -> nat -> R).
  Hypothesis root : rt 1%nat = k1.
  Hypothesis half : sp_two s = 1%nat.
  Notation n := (sg_nsites (sp_geom s)).
  Notation D := (2 ^ n)%nat.
  Hypothesis iso : isotropic s J.
  Notation sl := (sector_lowest rt s J root half iso).
  Theorem sectors_order m m' P P' idx idx' H H' V V' E E' e e' : flipped n m P idx -> flipped n m' P' idx' -> sp_createH rt s (Some P) = Ok H -> sp_createH rt s (Some P') = Ok H' -> eigenbasis H V E -> eigenbasis H' V' E' ->
    smallest e E -> smallest e' E' -> (m <= m')%nat -> (2 * m' <= n)%nat -> e' <= e.
  Proof using root half iso. intros S1 S2 H1 H2 B1 B2 L1 L2. exact (order s J m m' e e' (sl m P idx H V E e S1 H1 B1 L1) (sl m' P' idx' H' V' E' e' S2 H2 B2 L2)). Qed.
  Theorem sectors_mirror m P P' idx idx' H H' V V' E E' e e' : flipped n m P idx -> flipped n (n - m) P' idx' -> sp_createH rt s (Some P) = Ok H -> sp_createH rt s (Some P') = Ok H' -> eigenbasis H V E -> eigenbasis H' V' E' ->
    smallest e E -> smallest e' E' -> (m <= n)%nat -> e' = e.
  Proof using root half iso. intros S1 S2 H1 H2 B1 B2 L1 L2 Hm. exact (lowest_unique s J (n - m) e' e (sl (n - m)%nat P' idx' H' V' E' e' S2 H2 B2 L2) (mirror s J m e Hm (sl m P idx H V E e S1 H1 B1 L1))). Qed.
  Variable part : nat -> bool.
  Hypothesis kinds : two_kinds part n J.
  Hypothesis conn : connected_spins s.
  Notation a := (of_kind part n true).
  Notation b := (of_kind part n false).
  Lemma state_lives m P idx H V E e psi : flipped n m P idx -> sp_createH rt s (Some P) = Ok H -> eigenbasis H V E -> smallest e E -> state_of (length idx) H e psi -> (exists p, (p < length idx)%nat /\ psi p <> k0) ->
    lowest s J m e /\ lives n m (spread idx psi) /\ eig s J e (spread idx psi) /\ present s (spread idx psi).
  Proof using root half iso.
    intros S1 H1 B1 L1 ST (p & Hp & NP). split; [exact (sl m P idx H V E e S1 H1 B1 L1)|]. split; [apply (spread_lives s m P idx S1)|]. split; [exact (state_eig rt s J root half iso m P idx H S1 H1 e psi ST)|].
    exists (nth p idx 0%nat). split; [apply (at_lt s m P idx S1 p Hp)|]. rewrite (spread_at s m P idx S1 psi p Hp). exact NP.
  Qed.
  Theorem sectors_strict m m' P P' idx idx' H H' V V' E E' e e' : flipped n m P idx -> flipped n m' P' idx' -> sp_createH rt s (Some P) = Ok H -> sp_createH rt s (Some P') = Ok H' -> eigenbasis H V E -> eigenbasis H' V' E' ->
    smallest e E -> smallest e' E' -> (m < m')%nat -> (m' <= a)%nat -> (m' <= b)%nat -> e' < e.
  Proof using All.
    intros S1 S2 H1 H2 B1 B2 L1 L2 Hm Ha Hb. destruct (pairing_exists part n m' Ha Hb) as (l & r & PR & LL & _). destruct (sl m P idx H V E e S1 H1 B1 L1) as ((psi & L & X & Pp) & _).
    exact (strict rt s J part root half iso kinds conn m m' e e' psi l r PR LL Hm L X Pp (sl m' P' idx' H' V' E' e' S2 H2 B2 L2)).
  Qed.
  Theorem sectors_spin m P idx H V E e psi X Y Z : flipped n m P idx -> sp_createH rt s (Some P) = Ok H -> eigenbasis H V E -> smallest e E -> state_of (length idx) H e psi -> (exists p, (p < length idx)%nat /\ psi p <> k0) -> total_spin rt s X Y Z ->
    (m <= a)%nat -> (m <= b)%nat -> has_spin D X Y Z (INR n / 2 - INR m) (spread idx psi).
  Proof using All.
    intros S1 H1 B1 L1 ST NZ T Ha Hb. destruct (pairing_exists part n m Ha Hb) as (l & r & PR & LL & _). destruct (state_lives m P idx H V E e psi S1 H1 B1 L1 ST NZ) as (LW & L & W & Pp).
    apply (top_spin rt s X Y Z root half T m _ L). exact (highest rt s J part root half iso kinds conn m e _ l r PR LL LW L W Pp).
  Qed.
  Lemma full_pairing : exists l r, pairing part n l r /\ length l = Nat.min a b /\ (forall p q, In p r -> In q r -> part p = part q) /\ (a = b -> r = []).
  Proof using.
    clear. destruct (pairing_exists part n (Nat.min a b) ltac:(lia) ltac:(lia)) as (l & r & PR & LL & ON & EM). exists l, r. split; [exact PR|]. split; [exact LL|]. split; [apply ON; lia | intros Q; apply EM; lia].
  Qed.
  Theorem sectors_level m P P' idx idx' H H' V V' E E' e e' : let k := Nat.min a b in flipped n k P idx -> flipped n m P' idx' -> sp_createH rt s (Some P) = Ok H -> sp_createH rt s (Some P') = Ok H' -> eigenbasis H V E -> eigenbasis H' V' E' ->
    smallest e E -> smallest e' E' -> (k <= m)%nat -> (m + k <= n)%nat -> e' = e.
  Proof using All.
    cbn zeta. intros S1 S2 H1 H2 B1 B2 L1 L2 K1 K2. destruct full_pairing as (l & r & PR & LL & ON & _). rewrite <- LL in *.
    pose proof (level rt s J part root half iso kinds conn l r PR ON e (m - length l) (sl _ P idx H V E e S1 H1 B1 L1) ltac:(lia)) as LM. replace (length l + (m - length l))%nat with m in LM by lia. exact (lowest_unique s J m e' e (sl m P' idx' H' V' E' e' S2 H2 B2 L2) LM).
  Qed.
  Theorem sectors_level_spin m P idx H V E e psi X Y Z : let k := Nat.min a b in flipped n m P idx -> sp_createH rt s (Some P) = Ok H -> eigenbasis H V E -> smallest e E -> state_of (length idx) H e psi -> (exists p, (p < length idx)%nat /\ psi p <> k0) ->
    total_spin rt s X Y Z -> (k <= m)%nat -> (m + k <= n)%nat -> has_spin D X Y Z (INR n / 2 - INR k) (spread idx psi).
  Proof using All.
    cbn zeta. intros S1 H1 B1 L1 ST NZ T K1 K2. destruct full_pairing as (l & r & PR & LL & ON & _). rewrite <- LL in *. destruct (state_lives m P idx H V E e psi S1 H1 B1 L1 ST NZ) as (LW & L & W & Pp).
    destruct (lowest_exists rt s J root half iso (length l) ltac:(lia)) as (ek & LK). pose proof (level rt s J part root half iso kinds conn l r PR ON ek (m - length l) LK ltac:(lia)) as LM. replace (length l + (m - length l))%nat with m in LM by lia.
    pose proof (lowest_unique s J m e ek LW LM) as ->. apply (level_spin rt s J part root half iso kinds conn l r PR ON X Y Z ek (m - length l) _ T LK ltac:(lia)); [replace (length l + (m - length l))%nat with m by lia; exact L | exact W | exact Pp].
  Qed.
  Theorem ground_spin F V E e psi X Y Z : sp_createH rt s None = Ok F -> eigenbasis F V E -> smallest e E -> state_of D F e psi -> total_spin rt s X Y Z -> has_spin D X Y Z (Rabs (INR a - INR b) / 2) psi.
  Proof using All.
    intros EF B SM ST T. destruct full_pairing as (l & r & PR & LL & ON & _). pose proof (full_spin rt s J part root half iso kinds conn l r PR ON F V E e EF B SM X Y Z psi T ST) as Q. rewrite LL in Q.
    replace (Rabs (INR a - INR b) / 2) with (INR n / 2 - INR (Nat.min a b)); [exact Q|]. rewrite <- (kinds_all part n) at 1. rewrite plus_INR. destruct (Nat.le_ge_cases a b) as [W|W]; [rewrite Nat.min_l by exact W | rewrite Nat.min_r by exact W]; apply le_INR in W; unfold Rabs; destruct (Rcase_abs _); lra.
  Qed.
  Theorem ground_count F V E e : sp_createH rt s None = Ok F -> eigenbasis F V E -> smallest e E -> count_occ Req_EM_T E e = ((a - b) + (b - a) + 1)%nat.
  Proof using All.
    intros EF B SM. destruct full_pairing as (l & r & PR & LL & ON & _). rewrite (levels_equal rt s J part root half iso kinds conn l r PR ON F V E e EF B SM). pose proof (kinds_all part n). lia.
  Qed.
  Theorem ground_singlet F V E e psi X Y Z c : sp_createH rt s None = Ok F -> eigenbasis F V E -> smallest e E -> state_of D F e psi -> total_spin rt s X Y Z -> a = b -> (c < D)%nat -> apply D X psi c = k0 /\ apply D Y psi c = k0 /\ apply D Z psi c = k0.
  Proof using All.
    intros EF B SM ST T AB Hc. destruct full_pairing as (l & r & PR & LL & ON & EM). exact (singlet rt s J part root half iso kinds conn l r PR ON F V E e EF B SM X Y Z psi c (EM AB) T ST Hc).
  Qed.
  Theorem ground_same F V E e psi phi c d : sp_createH rt s None = Ok F -> eigenbasis F V E -> smallest e E -> state_of D F e psi -> state_of D F e phi -> (c < D)%nat -> (d < D)%nat -> digit_sum 2 n c = digit_sum 2 n d -> kmul (phi c) (psi d) = kmul (psi c) (phi d).
  Proof using All.
    intros EF B SM S1 S2. destruct full_pairing as (l & r & PR & LL & ON & _). exact (full_parallel rt s J part root half iso kinds conn l r PR ON F V E e EF B SM psi phi c d S1 S2).
  Qed.
End Api.

Lemma sectors_mirror' : forall (rt : nat -> CR) (s : spins CR) (J : nat -> nat -> R), let n := sg_nsites (sp_geom s) in let D := (2 ^ n)%nat in
  rt 1%nat = k1 -> sp_two s = 1%nat -> isotropic s J ->
  forall m m' P P' idx idx' H H' V V' E E' e e', flipped n m P idx -> flipped n m' P' idx' -> sp_createH rt s (Some P) = Ok H -> sp_createH rt s (Some P') = Ok H' -> eigenbasis H V E -> eigenbasis H' V' E' ->
  smallest e E -> smallest e' E' -> m' = (n - m)%nat -> (m <= n)%nat -> e' = e.
Proof. intros rt s J n D R H0 I. cbv zeta. intros m m' P P' idx idx' H H' V V' E E' e e' S1 S2 H1 H2 B1 B2 L1 L2 ->. exact (sectors_mirror rt s J R H0 I m P P' idx idx' H H' V V' E E' e e' S1 S2 H1 H2 B1 B2 L1 L2). Qed.
Lemma strict' : forall (rt : nat -> CR) (s : spins CR) (J : nat -> nat -> R) (part : nat -> bool), let n := sg_nsites (sp_geom s) in let D := (2 ^ n)%nat in let a := of_kind part n true in let b := of_kind part n false in
  rt 1%nat = k1 -> sp_two s = 1%nat -> isotropic s J -> two_kinds part n J -> connected_spins s ->
  forall m m' P P' idx idx' H H' V V' E E' e e', flipped n m P idx -> flipped n m' P' idx' -> sp_createH rt s (Some P) = Ok H -> sp_createH rt s (Some P') = Ok H' -> eigenbasis H V E -> eigenbasis H' V' E' ->
  smallest e E -> smallest e' E' -> (m < m')%nat -> (m' <= a)%nat -> (m' <= b)%nat -> e' < e.
Proof. intros rt s J part n D a b R H0 I K C. exact (sectors_strict rt s J R H0 I part K C). Qed.
Lemma spin' : forall (rt : nat -> CR) (s : spins CR) (J : nat -> nat -> R) (part : nat -> bool), let n := sg_nsites (sp_geom s) in let D := (2 ^ n)%nat in let a := of_kind part n true in let b := of_kind part n false in
  rt 1%nat = k1 -> sp_two s = 1%nat -> isotropic s J -> two_kinds part n J -> connected_spins s ->
  forall m P idx H V E e psi X Y Z, flipped n m P idx -> sp_createH rt s (Some P) = Ok H -> eigenbasis H V E -> smallest e E -> state_of (length idx) H e psi -> (exists p, (p < length idx)%nat /\ psi p <> k0) ->
  total_spin rt s X Y Z -> (m <= a)%nat -> (m <= b)%nat -> has_spin D X Y Z (INR n / 2 - INR m) (spread idx psi).
Proof. intros rt s J part n D a b R H0 I K C. exact (sectors_spin rt s J R H0 I part K C). Qed.
Lemma level' : forall (rt : nat -> CR) (s : spins CR) (J : nat -> nat -> R) (part : nat -> bool), let n := sg_nsites (sp_geom s) in let D := (2 ^ n)%nat in let a := of_kind part n true in let b := of_kind part n false in
  rt 1%nat = k1 -> sp_two s = 1%nat -> isotropic s J -> two_kinds part n J -> connected_spins s ->
  forall m m' P P' idx idx' H H' V V' E E' e e', flipped n m P idx -> flipped n m' P' idx' -> sp_createH rt s (Some P) = Ok H -> sp_createH rt s (Some P') = Ok H' -> eigenbasis H V E -> eigenbasis H' V' E' ->
  smallest e E -> smallest e' E' -> m = Nat.min a b -> (m <= m')%nat -> (m' + m <= n)%nat -> e' = e.
Proof. intros rt s J part n D a b R H0 I K C. cbv zeta. intros m m' P P' idx idx' H H' V V' E E' e e' S1 S2 H1 H2 B1 B2 L1 L2 ->. exact (sectors_level rt s J R H0 I part K C m' P P' idx idx' H H' V V' E E' e e' S1 S2 H1 H2 B1 B2 L1 L2). Qed.
Lemma level_spin' : forall (rt : nat -> CR) (s : spins CR) (J : nat -> nat -> R) (part : nat -> bool), let n := sg_nsites (sp_geom s) in let D := (2 ^ n)%nat in let a := of_kind part n true in let b := of_kind part n false in
  rt 1%nat = k1 -> sp_two s = 1%nat -> isotropic s J -> two_kinds part n J -> connected_spins s ->
  forall m P idx H V E e psi X Y Z, flipped n m P idx -> sp_createH rt s (Some P) = Ok H -> eigenbasis H V E -> smallest e E -> state_of (length idx) H e psi -> (exists p, (p < length idx)%nat /\ psi p <> k0) ->
  total_spin rt s X Y Z -> (Nat.min a b <= m)%nat -> (m + Nat.min a b <= n)%nat -> has_spin D X Y Z (INR n / 2 - INR (Nat.min a b)) (spread idx psi).
Proof. intros rt s J part n D a b R H0 I K C. exact (sectors_level_spin rt s J R H0 I part K C). Qed.
Lemma ground_spin' : forall (rt : nat -> CR) (s : spins CR) (J : nat -> nat -> R) (part : nat -> bool), let n := sg_nsites (sp_geom s) in let D := (2 ^ n)%nat in let a := of_kind part n true in let b := of_kind part n false in
  rt 1%nat = k1 -> sp_two s = 1%nat -> isotropic s J -> two_kinds part n J -> connected_spins s ->
  forall F V E e, sp_createH rt s None = Ok F -> eigenbasis F V E -> smallest e E -> forall psi X Y Z, state_of D F e psi -> total_spin rt s X Y Z -> has_spin D X Y Z (Rabs (INR a - INR b) / 2) psi.
Proof. intros rt s J part n D a b R H0 I K C F V E e EF B SM psi X Y Z ST T. exact (ground_spin rt s J R H0 I part K C F V E e psi X Y Z EF B SM ST T). Qed.
Lemma ground_count' : forall (rt : nat -> CR) (s : spins CR) (J : nat -> nat -> R) (part : nat -> bool), let n := sg_nsites (sp_geom s) in let D := (2 ^ n)%nat in let a := of_kind part n true in let b := of_kind part n false in
  rt 1%nat = k1 -> sp_two s = 1%nat -> isotropic s J -> two_kinds part n J -> connected_spins s ->
  forall F V E e, sp_createH rt s None = Ok F -> eigenbasis F V E -> smallest e E -> count_occ Req_EM_T E e = ((a - b) + (b - a) + 1)%nat.
Proof. intros rt s J part n D a b R H0 I K C. exact (ground_count rt s J R H0 I part K C). Qed.
Lemma ground_same' : forall (rt : nat -> CR) (s : spins CR) (J : nat -> nat -> R) (part : nat -> bool), let n := sg_nsites (sp_geom s) in let D := (2 ^ n)%nat in let a := of_kind part n true in let b := of_kind part n false in
  rt 1%nat = k1 -> sp_two s = 1%nat -> isotropic s J -> two_kinds part n J -> connected_spins s ->
  forall F V E e, sp_createH rt s None = Ok F -> eigenbasis F V E -> smallest e E -> forall psi phi c d, state_of D F e psi -> state_of D F e phi -> (c < D)%nat -> (d < D)%nat -> digit_sum 2 n c = digit_sum 2 n d -> kmul (phi c) (psi d) = kmul (psi c) (phi d).
Proof. intros rt s J part n D a b R H0 I K C F V E e EF B SM psi phi c d S1 S2. exact (ground_same rt s J R H0 I part K C F V E e psi phi c d EF B SM S1 S2). Qed.
Lemma ground_singlet' : forall (rt : nat -> CR) (s : spins CR) (J : nat -> nat -> R) (part : nat -> bool), let n := sg_nsites (sp_geom s) in let D := (2 ^ n)%nat in let a := of_kind part n true in let b := of_kind part n false in
  rt 1%nat = k1 -> sp_two s = 1%nat -> isotropic s J -> two_kinds part n J -> connected_spins s ->
  forall F V E e, sp_createH rt s None = Ok F -> eigenbasis F V E -> smallest e E -> forall psi X Y Z c, state_of D F e psi -> total_spin rt s X Y Z -> a = b -> (c < D)%nat -> apply D X psi c = k0 /\ apply D Y psi c = k0 /\ apply D Z psi c = k0.
Proof. intros rt s J part n D a b R H0 I K C F V E e EF B SM psi X Y Z c ST T. exact (ground_singlet rt s J R H0 I part K C F V E e psi X Y Z c EF B SM ST T). Qed.
