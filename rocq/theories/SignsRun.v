(** Spins 1/2 without frustration: ground states, moments and correlations. *)
From Coq Require Import List Arith Lia Reals Lra ZArith QArith Bool.
From Verif Require Import Scalars Res Matrix Sums SqMat ModelBase ModelSpins SpecSpins Digits SpinOps SpinAlg SpinHam SpinApi SpinSwap
  ModelGeometry ModelPhase ModelSymmetry SymBase ModelThermal SpecThermal ThermalBase ThermalFacts ThermalBasis Spectral Thermo SpecHeat SpecConvex Convex SpecSigns Signs SignsHeat SignsSpins.
Import ListNotations.
Local Open Scope R_scope.

(** ** The ground state *)
Section Ground.
  Variables (H V : mat CR) (E : list R) (n : nat) (eps : nat -> R).
  Hypothesis basis : eigenbasis H V E.
  Hypothesis rows : nrow V = n.
  Hypothesis some : n <> 0%nat.
  Hypothesis sgn : signs n eps.
  Hypothesis low : lowers n eps H.
  Hypothesis all : forall a b, (a < n)%nat -> (b < n)%nat -> joined n H a b.
  (** Operators with the signs that are not zero have positive averages. *)
  Theorem ground_positive psi e O a b : smallest e E -> state_of n H e psi -> (exists c, (c < n)%nat /\ psi c <> c0) -> raises n eps O -> (a < n)%nat -> (b < n)%nat -> ent O a b <> (0, 0) -> 0 < expect n O psi.
  Proof using All.
    intros SM ST NZ RA Ha Hb NO. destruct (upright_phase H V E n eps basis rows sgn low all psi e SM ST) as (z & Z1 & ZP). rewrite expect_entries.
    assert (T : forall c d, (c < n)%nat -> (d < n)%nat -> fst (conj (psi c) *c (ent O c d *c psi d)) = (eps c * eps d * fst (ent O c d)) * (size (psi c) * size (psi d))).
    { intros c d Hc Hd. destruct (RA c d Hc Hd) as (Q & _). rewrite (ZP c Hc) at 1. rewrite (ZP d Hd) at 1. unfold abs2 in Z1. destruct z as (x, y), (ent O c d) as (u, v). cbn in *. subst v.
      transitivity ((x * x + y * y) * (eps c * eps d * u * (size (psi c) * size (psi d)))); [ring | rewrite Z1; ring]. }
    rewrite (total_ext _ (fun c => total (fun d => (eps c * eps d * fst (ent O c d)) * (size (psi c) * size (psi d))) (seq 0 n))) by (intros c Hc; apply total_ext; intros d Hd; apply in_seq in Hc, Hd; apply T; lia).
    assert (NN : forall c d, In c (seq 0 n) -> In d (seq 0 n) -> 0 <= (eps c * eps d * fst (ent O c d)) * (size (psi c) * size (psi d))).
    { intros c d Hc Hd. apply in_seq in Hc, Hd. apply Rmult_le_pos; [apply RA; lia | apply Rmult_le_pos; apply size_pos]. }
    assert (SP : forall c, (c < n)%nat -> 0 < size (psi c)).
    { intros c Hc. destruct (size_pos (psi c)) as [P|P]; [exact P|]. symmetry in P. apply size_zero in P. exfalso. apply (nodeless H V E n eps basis rows sgn low all psi e c SM ST NZ Hc P). }
    assert (ONE : 0 < (eps a * eps b * fst (ent O a b)) * (size (psi a) * size (psi b))).
    { apply Rmult_lt_0_compat; [|apply Rmult_lt_0_compat; apply SP; assumption]. destruct (RA a b Ha Hb) as (Q1 & [Q2|Q2]); [exact Q2|]. exfalso. apply NO. symmetry in Q2. apply injective_projections; [|exact Q1]. cbn.
      destruct (sgn a Ha) as [Ea|Ea], (sgn b Hb) as [Eb|Eb]; rewrite Ea, Eb in Q2; lra. }
    assert (PICK : forall (f : nat -> R) k l, (forall c, In c l -> 0 <= f c) -> In k l -> 0 < f k -> 0 < total f l).
    { clear. intros f k l P IN PK. induction l as [|c l IH]; [destruct IN|]. rewrite total_cons. assert (0 <= total f l) by (apply total_ge0; intros; apply P; right; assumption). destruct IN as [->|IN]; [lra|].
      specialize (IH ltac:(intros; apply P; right; assumption) IN). specialize (P c (or_introl eq_refl)). lra. }
    apply (PICK _ a); [intros c Hc; apply total_ge0; intros d Hd; apply NN; assumption | apply in_seq; lia|]. apply (PICK _ b); [intros d Hd; apply NN; [apply in_seq; lia | exact Hd] | apply in_seq; lia | exact ONE].
  Qed.
  (** At zero temperature the average is that of the ground state. *)
  Lemma cold_average O x : sorted_list E -> apart gap13 E -> nrow O = n -> ncol O = n -> exp_vals_thermal V O E 0 = Ok x -> x = expect n O (col V 0).
  Proof using All.
    intros SO AP S1 S2 EX. assert (NE : E <> []) by (apply (E_some H V E basis); lia). assert (LP : (0 < length E)%nat) by (destruct E; [congruence | cbn; lia]).
    assert (F : fits V O E) by (split; [lia|]; split; [lia|]; split; [apply basis | exact NE]).
    rewrite (thermal_zero V O E F SO AP) in EX. injection EX as <-.
    assert (SM : smallest (nth 0 E 0) E). { split; [apply nth_In; exact LP|]. intros y Hy. apply (In_nth _ _ 0) in Hy as (k & Hk & <-). apply SO. lia. }
    unfold average_at, levels. rewrite !total_map. unfold at_energy, energy, value. cbn [fst snd]. rewrite rows.
    assert (ON : forall (g : nat -> R), total (fun k => (if Req_EM_T (nth k E 0) (nth 0 E 0) then 1 else 0) * g k) (seq 0 (length E)) = g 0%nat).
    { intros g. destruct (length E) as [|m] eqn:L; [lia|]. cbn [seq]. rewrite total_cons. destruct (Req_EM_T (nth 0 E 0) (nth 0 E 0)) as [_|X]; [|congruence].
      rewrite (total_ext _ (fun _ => 0)); [rewrite total_zero by reflexivity; ring|]. intros k Hk. apply in_seq in Hk. destruct (Req_EM_T (nth k E 0) (nth 0 E 0)) as [Q|_]; [|ring].
      pose proof (one_ground H V E n eps basis rows sgn low all (nth 0 E 0) k 0 SM ltac:(lia) ltac:(lia) Q eq_refl). lia. }
    rewrite ON. pose proof (ON (fun _ => 1)) as O1. rewrite (total_ext _ (fun k => if Req_EM_T (nth k E 0) (nth 0 E 0) then 1 else 0)) in O1 by (intros; ring). rewrite O1. field.
  Qed.
End Ground.

Section Averages.
  Variables (rt : nat -> CR) (s : spins CR) (part : nat -> bool) (H V : mat CR) (E : list R).
  Hypothesis root : rt 1%nat = k1.
  Hypothesis half : sp_two s = 1%nat.
  Notation n := (sg_nsites (sp_geom s)).
  Notation D := (2 ^ n)%nat.
  Notation dg p a := (digit 2 n p a).
  Notation eps := (state_sign part n).
  Hypothesis made : sp_createH rt s None = Ok H.
  Hypothesis unf : unfrustrated part s.
  Hypothesis basis : eigenbasis H V E.
  Lemma V_rows : nrow V = D.
  Proof using half made basis. clear root unf. destruct (spin_ent rt s H half made) as (S1 & _). destruct basis as ((_ & S & _) & _). congruence. Qed.
  Lemma D_some : D <> 0%nat. Proof using. apply Nat.pow_nonzero. discriminate. Qed.
  Lemma side_one i : side part i * side part i = 1. Proof using. unfold side. destruct (part i); ring. Qed.
  Lemma site_op i A O : (i < n)%nat -> square 2 A -> single_site_op (sp_sys s) i 0 A Boson = Ok O -> nrow O = D /\ ncol O = D /\ forall a b, (a < D)%nat -> (b < D)%nat -> ent O a b = site_elem 2 n i (ent A) a b.
  Proof using half.
    clear - half. intros Hi SA EO. destruct (single_elem (K:=CR) 2 ltac:(lia) n i A SA Hi (or_introl eq_refl)) as (T & ET & (S1 & S2) & W).
    unfold sp_sys in EO. rewrite half in EO. change (Sys n 1 (1 + 1)) with (dsys 2 n) in EO. rewrite EO in ET. injection ET as <-. auto.
  Qed.
  Lemma pair_op i j A B O : (i < n)%nat -> (j < n)%nat -> i <> j -> square 2 A -> square 2 B -> two_site_op (sp_sys s) i 0 j 0 A B Boson = Ok O ->
    nrow O = D /\ ncol O = D /\ forall a b, (a < D)%nat -> (b < D)%nat -> ent O a b = pair_elem 2 n i j (ent A) (ent B) a b.
  Proof using half.
    clear - half. intros Hi Hj N SA SB EO. destruct (two_elem (K:=CR) 2 ltac:(lia) n i j A B SA SB Hi Hj N) as (T & ET & (S1 & S2) & W).
    unfold sp_sys in EO. rewrite half in EO. change (Sys n 1 (1 + 1)) with (dsys 2 n) in EO. rewrite EO in ET. injection ET as <-. auto.
  Qed.
  (** Moments along x have the sign of their site. *)
  Lemma moment_raises i O : (i < n)%nat -> single_site_op (sp_sys s) i 0 (sx_op rt 1) Boson = Ok O -> raises D eps (Mat D D (fun a b => ksum 1 (fun _ => real (side part i) *c ent O a b))).
  Proof using half root.
    clear made unf basis. intros Hi EO a b Ha Hb. destruct (site_op i (sx_op rt 1) O Hi ltac:(split; reflexivity) EO) as (_ & _ & W). cbn [ent ksum]. rewrite (W a b Ha Hb). unfold site_elem.
    destruct (agree_off 2 n [i] a b) eqn:AG; [|cbn; split; [ring | right; ring]]. rewrite (sx_val rt root) by apply digit_two.
    destruct (Nat.eqb_spec (dg i a) (dg i b)) as [Q|Q]; [cbn; split; [ring | right; ring]|]. rewrite (sign_flip part n i a b Hi AG Q). pose proof (side_one i). cbn. split; [ring|].
    lra.
  Qed.
  Theorem moment_sign i O T x : (i < n)%nat -> single_site_op (sp_sys s) i 0 (sx_op rt 1) Boson = Ok O -> 0 <= T -> allowed T E -> exp_vals_thermal V O E T = Ok x -> 0 <= side part i * x.
  Proof using All.
    intros Hi EO TP AL EX. destruct (site_op i (sx_op rt 1) O Hi ltac:(split; reflexivity) EO) as (R1 & R2 & _). pose proof V_rows as VR.
    set (M := Mat D D (fun a b => ksum 1 (fun _ => real (side part i) *c ent O a b))).
    assert (AV : exp_vals_thermal V M E T = Ok (total (fun _ => side part i * x) (seq 0 1))).
    { apply (average_sum H V E T M 1 (fun _ => side part i) (fun _ => x) (fun _ => O) basis); rewrite ?VR; auto using D_some. }
    pose proof (average_sign H V E D eps basis VR D_some (state_signs part n) (spin_lowers rt s part H root half made unf) T M _ TP AL eq_refl eq_refl (moment_raises i O Hi EO) AV) as X. cbn in X. lra.
  Qed.
  (** Correlations of different sites along x have the product of the signs and are stronger than those along y. *)
  Lemma correlation_raises i j OX OY t : (i < n)%nat -> (j < n)%nat -> i <> j -> t = 1 \/ t = -1 -> two_site_op (sp_sys s) i 0 j 0 (sx_op rt 1) (sx_op rt 1) Boson = Ok OX -> two_site_op (sp_sys s) i 0 j 0 (sy_op rt 1) (sy_op rt 1) Boson = Ok OY ->
    raises D eps (Mat D D (fun a b => ksum 2 (fun k => real (nth k [side part i * side part j; t] 0) *c ent (nth k [OX; OY] OX) a b))).
  Proof using half root.
    clear made unf basis. intros Hi Hj N Ht EX EY a b Ha Hb. destruct (pair_op i j (sx_op rt 1) (sx_op rt 1) OX Hi Hj N ltac:(split; reflexivity) ltac:(split; reflexivity) EX) as (_ & _ & WX). destruct (pair_op i j (sy_op rt 1) (sy_op rt 1) OY Hi Hj N ltac:(split; reflexivity) ltac:(split; reflexivity) EY) as (_ & _ & WY).
    cbn [ent ksum nth]. rewrite (WX a b Ha Hb), (WY a b Ha Hb). unfold pair_elem.
    destruct (agree_off 2 n [i; j] a b) eqn:AG; [|cbn; split; [ring | right; ring]]. rewrite !(sx_val rt root), !(sy_val rt root) by apply digit_two.
    destruct (Nat.eqb_spec (dg i a) (dg i b)) as [Q|Q]; [cbn; split; [ring | right; ring]|]. destruct (Nat.eqb_spec (dg j a) (dg j b)) as [Q'|Q']; [cbn; split; [ring | right; ring]|].
    rewrite (sign_flips part n i j a b Hi Hj N AG Q Q'). unfold side. destruct (dg i a =? 0)%nat, (dg j a =? 0)%nat, (part i), (part j), Ht as [-> | ->]; cbn; split; try ring; lra.
  Qed.
  Theorem correlation_sign i j OX OY T x y : (i < n)%nat -> (j < n)%nat -> i <> j -> two_site_op (sp_sys s) i 0 j 0 (sx_op rt 1) (sx_op rt 1) Boson = Ok OX -> two_site_op (sp_sys s) i 0 j 0 (sy_op rt 1) (sy_op rt 1) Boson = Ok OY ->
    0 <= T -> allowed T E -> exp_vals_thermal V OX E T = Ok x -> exp_vals_thermal V OY E T = Ok y -> Rabs y <= side part i * side part j * x.
  Proof using All.
    intros Hi Hj N EX EY TP AL AX AY. destruct (pair_op i j (sx_op rt 1) (sx_op rt 1) OX Hi Hj N ltac:(split; reflexivity) ltac:(split; reflexivity) EX) as (R1 & R2 & _). destruct (pair_op i j (sy_op rt 1) (sy_op rt 1) OY Hi Hj N ltac:(split; reflexivity) ltac:(split; reflexivity) EY) as (R3 & R4 & _). pose proof V_rows as VR.
    assert (G : forall t, t = 1 \/ t = -1 -> 0 <= side part i * side part j * x + t * y).
    { intros t Ht. set (M := Mat D D (fun a b => ksum 2 (fun k => real (nth k [side part i * side part j; t] 0) *c ent (nth k [OX; OY] OX) a b))).
      assert (AV : exp_vals_thermal V M E T = Ok (total (fun k => nth k [side part i * side part j; t] 0 * nth k [x; y] 0) (seq 0 2))).
      { apply (average_sum H V E T M 2 (fun k => nth k [side part i * side part j; t] 0) (fun k => nth k [x; y] 0) (fun k => nth k [OX; OY] OX) basis); rewrite ?VR; auto using D_some; intros k Hk; destruct k as [|[|k]]; try lia; cbn [nth]; auto. }
      pose proof (average_sign H V E D eps basis VR D_some (state_signs part n) (spin_lowers rt s part H root half made unf) T M _ TP AL eq_refl eq_refl (correlation_raises i j OX OY t Hi Hj N Ht EX EY) AV) as X. cbn in X. lra. }
    pose proof (G 1 (or_introl eq_refl)). pose proof (G (-1) (or_intror eq_refl)). apply Rabs_le. lra.
  Qed.

  (** ** Fields along x at every site *)
  Hypothesis everywhere : forall i, (i < n)%nat -> sp_hx s i <> c0.
  Notation joins := (fields_join rt s part H root half made unf everywhere).
  Theorem spin_unique e k j : smallest e E -> (k < length E)%nat -> (j < length E)%nat -> nth k E 0 = e -> nth j E 0 = e -> k = j.
  Proof using All. apply (one_ground H V E D eps basis V_rows (state_signs part n) (spin_lowers rt s part H root half made unf) joins). Qed.
  Theorem spin_nodeless e psi : smallest e E -> state_of D H e psi -> (exists a, (a < D)%nat /\ psi a <> c0) -> exists z, abs2 z = 1 /\ forall a, (a < D)%nat -> psi a <> c0 /\ psi a = z *c real (eps a * sqrt (abs2 (psi a))).
  Proof using All.
    intros SM ST NZ. destruct (upright_phase H V E D eps basis V_rows (state_signs part n) (spin_lowers rt s part H root half made unf) joins psi e SM ST) as (z & Z1 & Z2). exists z. split; [exact Z1|]. intros a Ha. split; [|apply Z2, Ha].
    apply (nodeless H V E D eps basis V_rows (state_signs part n) (spin_lowers rt s part H root half made unf) joins psi e a SM ST NZ Ha).
  Qed.
  Theorem cold_moment i O x : (i < n)%nat -> single_site_op (sp_sys s) i 0 (sx_op rt 1) Boson = Ok O -> sorted_list E -> apart gap13 E -> exp_vals_thermal V O E 0 = Ok x -> 0 < side part i * x.
  Proof using All.
    intros Hi EO SO AP EX. destruct (site_op i (sx_op rt 1) O Hi ltac:(split; reflexivity) EO) as (R1 & R2 & W). pose proof V_rows as VR.
    set (M := Mat D D (fun a b => ksum 1 (fun _ => real (side part i) *c ent O a b))).
    assert (AV : exp_vals_thermal V M E 0 = Ok (total (fun _ => side part i * x) (seq 0 1))).
    { apply (average_sum H V E 0 M 1 (fun _ => side part i) (fun _ => x) (fun _ => O) basis); rewrite ?VR; auto using D_some. right. auto. }
    pose proof (cold_average H V E D eps basis VR D_some (state_signs part n) (spin_lowers rt s part H root half made unf) joins M _ SO AP eq_refl eq_refl AV) as X. cbn [seq] in X. rewrite total_cons in X.
    assert (NE : E <> []) by (apply (E_some H V E basis); rewrite VR; apply D_some). assert (LP : (0 < length E)%nat) by (destruct E; [congruence | cbn; lia]).
    assert (SM : smallest (nth 0 E 0) E). { split; [apply nth_In; exact LP|]. intros y Hy. apply (In_nth _ _ 0) in Hy as (k & Hk & <-). apply SO. lia. }
    set (a := 0%nat). set (b := set_digit 2 n i 1 0). assert (Ha : (a < D)%nat) by (pose proof D_some; unfold a; lia).
    assert (DZ : forall p, dg p 0 = 0%nat) by (intros p; unfold digit; rewrite Nat.div_0_l by (apply Nat.pow_nonzero; discriminate); reflexivity).
    assert (Hb : (b < D)%nat) by (unfold b, set_digit; apply of_digits_lt; [discriminate|]; intros p Hp; destruct (p =? i)%nat; [lia | apply digit_two]).
    assert (DB : forall p, (p < n)%nat -> dg p b = if (p =? i)%nat then 1%nat else 0%nat) by (intros p Hp; unfold b, set_digit; rewrite digit_of_digits; [destruct (p =? i)%nat; [reflexivity | apply DZ] | discriminate | intros q Hq; destruct (q =? i)%nat; [lia | apply digit_two] | exact Hp]).
    assert (AG : agree_off 2 n [i] a b = true) by (rewrite agree_off_spec; intros p Hp NI; rewrite (DB p Hp); unfold a; rewrite DZ; destruct (Nat.eqb_spec p i) as [->|]; [exfalso; apply NI; left; reflexivity | reflexivity]).
    assert (NZ : ent M a b <> (0, 0)).
    { unfold M. cbn [ent ksum]. rewrite (W a b Ha Hb). unfold site_elem. rewrite AG, (sx_val rt root) by apply digit_two. rewrite (DB i Hi), Nat.eqb_refl. unfold a. rewrite DZ. cbn [Nat.eqb]. intros Z. apply (f_equal fst) in Z. cbn in Z. unfold side in Z. destruct (part i); lra. }
    assert (NC : exists c, (c < D)%nat /\ col V 0 c <> c0).
    { destruct basis as ((L & _) & ON & _). pose proof (ON 0%nat 0%nat ltac:(lia) ltac:(lia)) as O1. rewrite VR, Nat.eqb_refl in O1. cbn [kb] in O1.
      apply Classical_Prop.NNPP. intros NN. assert (ZZ : forall c, (c < D)%nat -> col V 0 c = c0) by (intros c Hc; apply Classical_Prop.NNPP; intros NC; apply NN; exists c; split; assumption).
      unfold inner in O1. rewrite ksum_zero in O1; [apply (f_equal fst) in O1; cbn in O1; lra|]. intros c Hc. rewrite (ZZ c Hc). apply injective_projections; cbn; ring. }
    pose proof (ground_positive H V E D eps basis VR D_some (state_signs part n) (spin_lowers rt s part H root half made unf) joins (col V 0) (nth 0 E 0) M a b SM (col_state H V E D basis VR 0 LP) NC (moment_raises i O Hi EO) Ha Hb NZ) as P.
    rewrite <- X in P. cbn in P. lra.
  Qed.
End Averages.
