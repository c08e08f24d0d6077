(** Parts of a spin system without couplings between them. *)
From Coq Require Import List Arith Lia Reals Lra ZArith QArith Bool.
From Verif Require Import Scalars Res Matrix Sums SqMat SpecMat ModelBase ModelFermions ModelSpins SpecSpins Digits SpinAlg SpinOps HamProofs SpinHam SpinSym SpinApi ModelGeometry ModelPhase
  SpecPrecess Precess SpecLongtime Longtime SpecRates Rates Spectral
  ModelSymmetry SymBase ModelThermal SpecThermal ThermalBase ThermalBasis SpecBloch Split SpecParts.
Import ListNotations.
Local Open Scope R_scope.

Section Acts.
  Variables (n : nat) (part : nat -> bool).
  Notation D := (2 ^ n)%nat.
  Notation dg := (digit 2 n).
  Lemma acts_zero M : (forall a b, (a < D)%nat -> (b < D)%nat -> M a b = c0) -> acts_on n part M.
  Proof. intros Z. split; [intros a b p Ha Hb _ _ _; apply Z; assumption|]. intros a b a' b' Ha Hb Ha' Hb' _ _. rewrite !Z by assumption. reflexivity. Qed.
  Lemma acts_add M M' : acts_on n part M -> acts_on n part M' -> acts_on n part (fun a b => M a b +c M' a b).
  Proof.
    intros (X1 & X2) (Y1 & Y2). split.
    - intros a b p Ha Hb Hp Q NE. rewrite (X1 a b p), (Y1 a b p) by assumption. apply injective_projections; cbn; ring.
    - intros a b a' b' Ha Hb Ha' Hb' I O. rewrite (X2 a b a' b'), (Y2 a b a' b') by assumption. reflexivity.
  Qed.
  Lemma acts_scale c M : acts_on n part M -> acts_on n part (fun a b => c *c M a b).
  Proof.
    intros (X1 & X2). split.
    - intros a b p Ha Hb Hp Q NE. rewrite (X1 a b p) by assumption. apply injective_projections; cbn; ring.
    - intros a b a' b' Ha Hb Ha' Hb' I O. rewrite (X2 a b a' b') by assumption. reflexivity.
  Qed.
  Lemma acts_ksum m (M : nat -> nat -> nat -> CR) : (forall k, (k < m)%nat -> acts_on n part (M k)) -> acts_on n part (fun a b => ksum m (fun k => M k a b)).
  Proof. induction m as [|m IH]; intros X; cbn [ksum]; [apply acts_zero; reflexivity|]. apply acts_add; [apply IH; intros k Hk; apply X; lia | apply X; lia]. Qed.
  Lemma acts_off (L : list nat) (f : nat -> nat -> CR) : (forall i, In i L -> (i < n)%nat /\ part i = true) ->
    (forall a b a' b', (forall i, In i L -> dg i a = dg i a' /\ dg i b = dg i b') -> f a b = f a' b') -> acts_on n part (fun a b => if agree_off 2 n L a b then f a b else c0).
  Proof.
    intros IL EX. split.
    - intros a b p Ha Hb Hp Q NE. destruct (agree_off 2 n L a b) eqn:G; [|reflexivity]. rewrite agree_off_spec in G. exfalso. apply NE, G; [exact Hp|]. intros I. destruct (IL p I). congruence.
    - intros a b a' b' Ha Hb Ha' Hb' I O. assert (EQ : agree_off 2 n L a b = agree_off 2 n L a' b').
      { apply eq_true_iff_eq. rewrite !agree_off_spec. split; intros G p Hp NI; destruct (part p) eqn:Q; try (apply (O p Hp Q)); destruct (I p Hp Q) as (I1 & I2); specialize (G p Hp NI); congruence. }
      rewrite EQ. destruct (agree_off 2 n L a' b'); [|reflexivity]. apply EX. intros i Hi. destruct (IL i Hi). apply I; assumption.
  Qed.
  Lemma acts_site i A : (i < n)%nat -> part i = true -> acts_on n part (site_elem 2 n i A).
  Proof. intros Hi Q. apply (acts_off [i] (fun a b => A (dg i a) (dg i b))); [intros q [<-|[]]; auto|]. intros a b a' b' X. destruct (X i (or_introl eq_refl)) as (-> & ->). reflexivity. Qed.
  Lemma acts_pair i j A B : (i < n)%nat -> (j < n)%nat -> part i = true -> part j = true -> acts_on n part (pair_elem 2 n i j A B).
  Proof.
    intros Hi Hj Qi Qj. apply (acts_off [i; j] (fun a b => A (dg i a) (dg i b) *c B (dg j a) (dg j b))); [intros q [<-|[<-|[]]]; auto|]. intros a b a' b' X. destruct (X i (or_introl eq_refl)) as (-> & ->). destruct (X j (or_intror (or_introl eq_refl))) as (-> & ->). reflexivity.
  Qed.
  Lemma acts_when (q : bool) c M : (q = true -> acts_on n part M) -> (q = false -> c = c0) -> acts_on n part (fun a b => c *c M a b).
  Proof. intros X Y. destruct q; [apply acts_scale, X; reflexivity|]. rewrite (Y eq_refl). apply acts_zero. intros a b _ _. ring. Qed.
  Lemma acts_spin c c' Ax Ay Az Jx Jy Jz hx hy hz :
    (forall i j, (j < i < n)%nat -> part i && part j = false -> Jx i j = c0 /\ Jy i j = c0 /\ Jz i j = c0) -> (forall i, (i < n)%nat -> part i = false -> hx i = c0 /\ hy i = c0 /\ hz i = c0) ->
    acts_on n part (spin_elem 2 n c c' Ax Ay Az Jx Jy Jz hx hy hz).
  Proof.
    intros HJ Hh.
    assert (P : acts_on n part (fun a b => ksum n (fun i => ksum i (fun j => c *c (Jx i j *c pair_elem 2 n i j Ax Ax a b +c Jy i j *c pair_elem 2 n i j Ay Ay a b +c Jz i j *c pair_elem 2 n i j Az Az a b))))).
    { apply (acts_ksum n (fun i a b => ksum i (fun j => c *c (Jx i j *c pair_elem 2 n i j Ax Ax a b +c Jy i j *c pair_elem 2 n i j Ay Ay a b +c Jz i j *c pair_elem 2 n i j Az Az a b)))). intros i Hi.
      apply (acts_ksum i (fun j a b => c *c (Jx i j *c pair_elem 2 n i j Ax Ax a b +c Jy i j *c pair_elem 2 n i j Ay Ay a b +c Jz i j *c pair_elem 2 n i j Az Az a b))). intros j Hj.
      apply acts_scale. repeat apply acts_add; apply (acts_when (part i && part j)); try (intros Q; apply andb_true_iff in Q as (Q1 & Q2); apply acts_pair; (assumption || lia)); intros Q; apply (HJ i j ltac:(lia) Q). }
    assert (S1 : acts_on n part (fun a b => ksum n (fun i => c' *c (hx i *c site_elem 2 n i Ax a b +c hy i *c site_elem 2 n i Ay a b +c hz i *c site_elem 2 n i Az a b)))).
    { apply (acts_ksum n (fun i a b => c' *c (hx i *c site_elem 2 n i Ax a b +c hy i *c site_elem 2 n i Ay a b +c hz i *c site_elem 2 n i Az a b))). intros i Hi.
      apply acts_scale. repeat apply acts_add; apply (acts_when (part i)); try (intros Q; apply acts_site; assumption); intros Q; apply (Hh i Hi Q). }
    pose proof (acts_add _ _ P (acts_scale (kopp c1) _ S1)) as (X1 & X2). cbv beta in X1, X2.
    assert (E : forall a b, spin_elem 2 n c c' Ax Ay Az Jx Jy Jz hx hy hz a b = ksum n (fun i => ksum i (fun j => c *c (Jx i j *c pair_elem 2 n i j Ax Ax a b +c Jy i j *c pair_elem 2 n i j Ay Ay a b +c Jz i j *c pair_elem 2 n i j Az Az a b))) +c
      kopp c1 *c ksum n (fun i => c' *c (hx i *c site_elem 2 n i Ax a b +c hy i *c site_elem 2 n i Ay a b +c hz i *c site_elem 2 n i Az a b))) by (intros a b; unfold spin_elem; ring).
    split; [intros a b p Ha Hb Hp Q NE; rewrite E; apply (X1 a b p); assumption | intros a b a' b' Ha Hb Ha' Hb' I O; rewrite !E; apply X2; assumption].
  Qed.
End Acts.

(** Matrices on complementary parts commute. *)
Lemma parts_commute n part (X Y : mat CR) : acts_on n part (ent X) -> acts_on n (fun p => negb (part p)) (ent Y) -> commute_on (2 ^ n) Y X.
Proof.
  intros (X1 & X2) (Y1 & Y2) a b Ha Hb. assert (T2 : 2%nat <> 0%nat) by lia.
  assert (DL : forall p k, (digit 2 n p k < 2)%nat) by (intros p k; apply digit_lt; exact T2).
  set (f1 := fun p => if part p then digit 2 n p b else digit 2 n p a). set (f2 := fun p => if part p then digit 2 n p a else digit 2 n p b).
  assert (B1 : forall p, (p < n)%nat -> (f1 p < 2)%nat) by (intros p _; unfold f1; destruct (part p); apply DL). assert (B2 : forall p, (p < n)%nat -> (f2 p < 2)%nat) by (intros p _; unfold f2; destruct (part p); apply DL).
  set (u := of_digits 2 n f1). set (w := of_digits 2 n f2).
  assert (Hu : (u < 2 ^ n)%nat) by (apply of_digits_lt; assumption). assert (Hw : (w < 2 ^ n)%nat) by (apply of_digits_lt; assumption).
  assert (du : forall p, (p < n)%nat -> digit 2 n p u = f1 p) by (intros p Hp; apply digit_of_digits; assumption). assert (dw : forall p, (p < n)%nat -> digit 2 n p w = f2 p) by (intros p Hp; apply digit_of_digits; assumption).
  assert (NEX : forall k v (f : nat -> nat), (k < 2 ^ n)%nat -> (v < 2 ^ n)%nat -> (forall p, (p < n)%nat -> digit 2 n p v = f p) -> k <> v -> exists p, (p < n)%nat /\ digit 2 n p k <> f p).
  { intros k v f Hk Hv dv NE. destruct (forallb (fun p => digit 2 n p k =? f p)%nat (seq 0 n)) eqn:G.
    - exfalso. apply NE, (digits_ext 2 T2 n); [assumption | assumption|]. intros p Hp. rewrite dv by exact Hp. rewrite forallb_forall in G. apply Nat.eqb_eq, G, in_seq. lia.
    - destruct (existsb (fun p => negb (digit 2 n p k =? f p)%nat) (seq 0 n)) eqn:G'.
      + apply existsb_exists in G' as (p & I & Q). exists p. apply in_seq in I. split; [lia|]. apply negb_true_iff, Nat.eqb_neq in Q. exact Q.
      + exfalso. assert (forallb (fun p => digit 2 n p k =? f p)%nat (seq 0 n) = true); [|congruence]. apply forallb_forall. intros p I. destruct (digit 2 n p k =? f p)%nat eqn:Q; [reflexivity|]. assert (existsb (fun p => negb (digit 2 n p k =? f p)%nat) (seq 0 n) = true) by (apply existsb_exists; exists p; rewrite Q; auto). congruence. }
  rewrite (ksum_single (2 ^ n) w), (ksum_single (2 ^ n) u); try assumption.
  - rewrite (X2 w b a u), (Y2 a w u b); try assumption; [ring| | | |].
    + intros p Hp Q. apply negb_true_iff in Q. rewrite (du p Hp), (dw p Hp). unfold f1, f2. rewrite Q. auto.
    + intros p Hp Q. apply negb_false_iff in Q. rewrite (du p Hp), (dw p Hp). unfold f1, f2. rewrite Q. auto.
    + intros p Hp Q. rewrite (du p Hp), (dw p Hp). unfold f1, f2. rewrite Q. auto.
    + intros p Hp Q. rewrite (du p Hp), (dw p Hp). unfold f1, f2. rewrite Q. auto.
  - intros k Hk NE. destruct (NEX k u f1 Hk Hu du NE) as (p & Hp & Q). unfold f1 in Q. destruct (part p) eqn:G.
    + rewrite (Y1 k b p Hk Hb Hp ltac:(cbv beta; rewrite G; reflexivity) Q). apply injective_projections; cbn; ring.
    + rewrite (X1 a k p Ha Hk Hp G ltac:(congruence)). apply injective_projections; cbn; ring.
  - intros k Hk NE. destruct (NEX k w f2 Hk Hw dw NE) as (p & Hp & Q). unfold f2 in Q. destruct (part p) eqn:G.
    + rewrite (Y1 a k p Ha Hk Hp ltac:(cbv beta; rewrite G; reflexivity) ltac:(congruence)). apply injective_projections; cbn; ring.
    + rewrite (X1 k b p Hk Hb Hp G Q). apply injective_projections; cbn; ring.
Qed.

(** The spins with the couplings and fields of one part only. *)
Definition within (part : nat -> bool) (s : spins CR) : spins CR :=
  let J (f : nat -> nat -> CR) i j := if part i && part j then f i j else c0 in
  let h (f : nat -> CR) i := if part i then f i else c0 in
  Spins (sp_geom s) (sp_two s) (J (sp_jx s)) (J (sp_jy s)) (J (sp_jz s)) (h (sp_hx s)) (h (sp_hy s)) (h (sp_hz s)).

Section Parts.
  Variables (rt : nat -> CR) (s : spins CR) (part : nat -> bool).
  Notation n := (sg_nsites (sp_geom s)).
  Notation D := (2 ^ n)%nat.
  Hypothesis root : rt 1%nat = k1.
  Hypothesis half : sp_two s = 1%nat.
  Hypothesis reals : real_terms s.
  Notation HE x := (H_elem rt x).
  Lemma within_acts q : acts_on n q (HE (within q s)).
  Proof using half.
    unfold H_elem. cbn [within sp_two sp_geom sp_jx sp_jy sp_jz sp_hx sp_hy sp_hz]. rewrite half. cbn [Nat.add]. apply acts_spin.
    - intros i j _ Q. rewrite Q. auto.
    - intros i _ Q. rewrite Q. auto.
  Qed.
  Lemma within_solved q : exists H V E, nrow H = D /\ eigenbasis H V E /\ nrow V = D /\ acts_on n q (ent H) /\ forall a b, (a < D)%nat -> (b < D)%nat -> ent H a b = HE (within q s) a b.
  Proof using root half reals.
    destruct reals as (RJ & Rh).
    assert (R1 : roots_ok rt (sp_two (within q s))). { cbn [within sp_two]. rewrite half. intros i Hi. replace ((i + 1) * (1 - i))%nat with 1%nat by nia. rewrite root, kofnat_S, kofnat_0. split; apply injective_projections; cbn; ring. }
    assert (RC : forall x : CR, snd x = 0 -> kconj x = x) by (intros (x, y) Q; cbn in Q; subst y; apply injective_projections; cbn; ring).
    assert (R0 : kconj c0 = c0) by (apply injective_projections; cbn; ring).
    destruct (spin_hermitian rt (within q s) None eq_refl R1) as (H & EH & (S1 & S2) & HM).
    { intros i j Hi Hj. destruct (RJ i j ltac:(cbn in Hi; lia)) as (A1 & A2 & A3). cbn [within sp_jx sp_jy sp_jz]. destruct (q i && q j); repeat split; (exact R0 || apply RC; assumption). }
    { intros i Hi. destruct (Rh i Hi) as (A1 & A2 & A3). cbn [within sp_hx sp_hy sp_hz]. destruct (q i); repeat split; (exact R0 || apply RC; assumption). }
    { left. exact half. }
    assert (NH : nrow H = D) by (rewrite S1; cbn [within sp_two sp_geom nrow meye]; rewrite half; reflexivity).
    assert (CH : ncol H = D) by (rewrite S2; cbn [within sp_two sp_geom nrow meye]; rewrite half; reflexivity).
    assert (HH : hermitian D H). { intros i j Hi Hj. destruct HM as (_ & _ & HM). rewrite <- (HM i j); [reflexivity | cbn; lia | cbn; lia]. }
    destruct (spectral D H HH NH CH) as (V & E & B). exists H, V, E. split; [exact NH|]. split; [exact B|].
    assert (NV : nrow V = D) by (assert (nrow H = nrow V) by apply B; congruence). split; [exact NV|].
    assert (W : forall a b, (a < D)%nat -> (b < D)%nat -> ent H a b = HE (within q s) a b).
    { destruct (createH_full rt (within q s) (half_fields (within q s) half)) as (H' & EH' & _ & W). rewrite EH in EH'. injection EH' as <-. cbn [within sp_two sp_geom] in W. rewrite half in W. exact W. }
    split; [|exact W]. destruct (within_acts q) as (X1 & X2). split; [intros a b p Ha Hb Hp Q NE; rewrite W by assumption; apply (X1 a b p); assumption | intros a b a' b' Ha Hb Ha' Hb' I O; rewrite !W by assumption; apply X2; assumption].
  Qed.
  Lemma two_parts a b : uncoupled s part -> HE s a b = HE (within part s) a b +c HE (within (fun p => negb (part p)) s) a b.
  Proof using half.
    intros U. unfold H_elem. cbn [within sp_two sp_geom sp_jx sp_jy sp_jz sp_hx sp_hy sp_hz]. rewrite half. cbn [Nat.add]. unfold spin_elem.
    match goal with |- (ksub ?p ?f = ksub ?p1 ?f1 +c ksub ?p2 ?f2) => assert (EP : p = p1 +c p2); [|assert (EF : f = f1 +c f2); [|rewrite EP, EF; generalize p1, p2, f1, f2; intros; ring]] end.
    - rewrite <- ksum_add. apply ksum_ext. intros i Hi. rewrite <- ksum_add. apply ksum_ext. intros j Hj. pose proof (U i j ltac:(lia)) as Q. destruct (part i), (part j); cbn [andb negb]; try ring; destruct (Q ltac:(discriminate)) as (-> & -> & ->); change ((0, 0) : CR) with c0; ring.
    - rewrite <- ksum_add. apply ksum_ext. intros i Hi. destruct (part i); cbn [negb]; ring.
  Qed.
End Parts.

Theorem parts_move rt (s s' : spins CR) part : rt 1%nat = k1 -> sp_two s = 1%nat -> sp_two s' = 1%nat -> sg_nsites (sp_geom s') = sg_nsites (sp_geom s) -> real_terms s -> real_terms s' ->
  uncoupled s part -> uncoupled s' part -> same_inside s s' part ->
  forall H V E H' V' E' O st k times Ms Ms' v v', sp_createH rt s None = Ok H -> eigenbasis H V E -> sp_createH rt s' None = Ok H' -> eigenbasis H' V' E' ->
  nrow O = (2 ^ sg_nsites (sp_geom s))%nat -> ncol O = (2 ^ sg_nsites (sp_geom s))%nat -> acts_on (sg_nsites (sp_geom s)) part (ent O) -> (k < ncol (as_columns st))%nat ->
  quench st V E times = Ok Ms -> quench st V' E' times = Ok Ms' -> exp_vals (Columns (nth k Ms (mzero 0 0))) O = Ok v -> exp_vals (Columns (nth k Ms' (mzero 0 0))) O = Ok v' ->
  forall a, (a < length times)%nat -> nth a v 0 = nth a v' 0.
Proof.
  intros root half half' SN RS RS' U U' (SJ & SH) H V E H' V' E' O st k times Ms Ms' v v' EH B EH' B' O1 O2 OA Hk Q Q' X X' a Ha.
  set (n := sg_nsites (sp_geom s)) in *.
  destruct (within_solved rt s root half RS part) as (HA & A & al & NA & BA & RA & AA & WA).
  destruct (within_solved rt s root half RS (fun p => negb (part p))) as (HB & VB & be & NB & BB & RB & AB & WB).
  destruct (within_solved rt s' root half' RS' (fun p => negb (part p))) as (HB' & VB' & be' & NB' & BB' & RB' & AB' & WB'). fold n in NA, RA, AA, WA, NB, RB, AB, WB. rewrite SN in NB', RB', AB', WB'.
  assert (FULL : forall x G, sp_two x = 1%nat -> sg_nsites (sp_geom x) = n -> sp_createH rt x None = Ok G -> nrow G = (2 ^ n)%nat /\ forall a b, (a < 2 ^ n)%nat -> (b < 2 ^ n)%nat -> ent G a b = H_elem rt x a b).
  { intros x G hx nx EG. destruct (createH_full rt x (half_fields x hx)) as (G' & EG' & (S1 & S2) & W). rewrite EG in EG'. injection EG' as <-. rewrite hx, nx in S1, W. auto. }
  destruct (FULL s H half eq_refl EH) as (NH & WH). destruct (FULL s' H' half' SN EH') as (NH' & WH').
  assert (NV : nrow V = (2 ^ n)%nat) by (assert (nrow H = nrow V) by apply B; congruence). assert (NV' : nrow V' = (2 ^ n)%nat) by (assert (nrow H' = nrow V') by apply B'; congruence).
  assert (SAME : forall a b, H_elem rt (within part s') a b = H_elem rt (within part s) a b).
  { intros c d. unfold H_elem. cbn [within sp_two sp_geom sp_jx sp_jy sp_jz sp_hx sp_hy sp_hz]. rewrite half, half', SN. fold n. unfold spin_elem. f_equal.
    - apply ksum_ext. intros i Hi. apply ksum_ext. intros j Hj. destruct (part i) eqn:Pi, (part j) eqn:Pj; cbn [andb]; try reflexivity. destruct (SJ i j ltac:(lia) Pi Pj) as (-> & -> & ->). reflexivity.
    - apply ksum_ext. intros i Hi. destruct (part i) eqn:Pi; [|reflexivity]. destruct (SH i Hi Pi) as (-> & -> & ->). reflexivity. }
  rewrite (path_entries V E st times Ms k O v Q Hk ltac:(congruence) ltac:(congruence) X a Ha), (path_entries V' E' st times Ms' k O v' Q' Hk ltac:(congruence) ltac:(congruence) X' a Ha). rewrite NV, NV'.
  transitivity (expect (2 ^ n) O (evolve A al (col (as_columns st) k) (nth a times 0))).
  - apply (split_motion (2 ^ n) HA HB H A VB V al be E BA BB B RA RB NV).
    + intros c d Hc Hd. rewrite WH, WA, WB by assumption. apply (two_parts rt s part half c d U).
    + apply (parts_commute n part HA HB AA AB).
    + apply (parts_commute n part O HB OA AB).
  - symmetry. apply (split_motion (2 ^ n) HA HB' H' A VB' V' al be' E' BA BB' B' RA RB' NV').
    + intros c d Hc Hd. rewrite WH', WA, WB' by assumption. rewrite <- SAME. apply (two_parts rt s' part half' c d U').
    + apply (parts_commute n part HA HB' AA AB').
    + apply (parts_commute n part O HB' OA AB').
Qed.
(** Operators of sites of the part act on the part. *)
Theorem parts_ops (s : spins CR) part i j A B : sp_two s = 1%nat -> (i < sg_nsites (sp_geom s))%nat -> (j < sg_nsites (sp_geom s))%nat -> i <> j -> part i = true -> part j = true -> square 2 A -> square 2 B ->
  exists O T, single_site_op (sp_sys s) i 0 A Boson = Ok O /\ square (2 ^ sg_nsites (sp_geom s)) O /\ acts_on (sg_nsites (sp_geom s)) part (ent O) /\
    two_site_op (sp_sys s) i 0 j 0 A B Boson = Ok T /\ square (2 ^ sg_nsites (sp_geom s)) T /\ acts_on (sg_nsites (sp_geom s)) part (ent T).
Proof.
  intros half Hi Hj NE Pi Pj SA SB. rewrite sp_sys_dsys, half. cbn [Nat.add]. set (n := sg_nsites (sp_geom s)) in *.
  destruct (single_elem 2 ltac:(lia) n i A SA Hi (or_introl eq_refl)) as (O & EO & SO & WO). destruct (two_elem 2 ltac:(lia) n i j A B SA SB Hi Hj NE) as (T & ET & ST & WT).
  exists O, T. split; [exact EO|]. split; [exact SO|].
  assert (L : forall (M M' : nat -> nat -> CR), acts_on n part M' -> (forall a b, (a < 2 ^ n)%nat -> (b < 2 ^ n)%nat -> M a b = M' a b) -> acts_on n part M).
  { intros M M' (X1 & X2) W. split; [intros a b p Ha Hb Hp Q NQ; rewrite W by assumption; apply (X1 a b p); assumption | intros a b a' b' Ha Hb Ha' Hb' I Z; rewrite !W by assumption; apply X2; assumption]. }
  split; [apply (L _ _ (acts_site n part i (ent A) Hi Pi)); exact WO|]. split; [exact ET|]. split; [exact ST|]. apply (L _ _ (acts_pair n part i j (ent A) (ent B) Hi Hj Pi Pj)); exact WT.
Qed.
