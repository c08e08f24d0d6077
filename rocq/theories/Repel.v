(** Fermions that repel each other: exchange of particles and holes of one species. *)
From Coq Require Import List Arith Lia Reals Lra ZArith QArith Qabs Bool Permutation.
From Verif Require Import Scalars Res Matrix Sums SqMat SpecMat SpecFock OpsProofs FockProofs FermiOps ModelBase ModelFermions ModelSpins SpecSpins Digits SpinOps SpinAlg SpinSwap SpinJordan HamProofs FermiApi SpecPerm
  ModelGeometry ModelPhase ModelSymmetry SymBase ModelThermal SpecThermal ThermalBase ThermalFacts ThermalBasis Spectral Thermo SpecHeat SpecConvex Convex SpecSigns Signs SignsHeat SignsSpins SpecSectors Perron Sectors HopSigns SpecShells Shells ShellsRun SpecLieb Halves Lieb LiebRun SpecRepel.
Import ListNotations.
Local Open Scope R_scope.

Lemma ksign_plus n m : ksign (K:=CR) (n + m) = ksign n *c ksign m.
Proof. induction n as [|n IH]; [cbn [Nat.add ksign]; ring|]. cbn [Nat.add ksign]. rewrite IH. apply injective_projections; cbn; ring. Qed.
Lemma ksign_twice n : ksign (K:=CR) (n + n) = c1.
Proof. apply sign_even. exists n. lia. Qed.

Lemma ksum_minus n (a b : nat -> CR) : ksum n (fun i => a i -c b i) = ksum n a -c ksum n b.
Proof. induction n as [|n IH]; [cbn; apply injective_projections; cbn; ring|]. cbn [ksum]. rewrite IH. apply injective_projections; cbn; ring. Qed.

Section Holes.
  Variable ns : nat.
  Notation B := (2 ^ ns)%nat.
  Notation cm y := (holes ns y).
  Notation dg i y := (digit 2 ns i y).
  Lemma holes_lt y : (cm y < B)%nat. Proof using. unfold holes. pose proof (B_pos ns). lia. Qed.
  Lemma holes_holes y : (y < B)%nat -> cm (cm y) = y. Proof using. unfold holes. lia. Qed.
  Lemma holes_digit i y : (y < B)%nat -> (i < ns)%nat -> dg i (cm y) = (1 - dg i y)%nat.
  Proof using. intros Hy Hi. exact (SpinSym.digit_flip 2 ltac:(discriminate) ns i y Hy Hi). Qed.
  Lemma holes_eqb y y' : (y < B)%nat -> (y' < B)%nat -> (cm y =? cm y')%nat = (y =? y')%nat.
  Proof using. intros Hy Hy'. unfold holes. destruct (Nat.eqb_spec y y') as [->|N]; [apply Nat.eqb_refl|]. apply Nat.eqb_neq. lia. Qed.
  Lemma holes_sum l y : (y < B)%nat -> (forall i, In i l -> (i < ns)%nat) -> (list_sum (map (fun i => dg i (cm y)) l) + list_sum (map (fun i => dg i y) l) = length l)%nat.
  Proof using.
    intros Hy. induction l as [|i l IH]; intros L; [reflexivity|]. cbn [map length]. change (list_sum (?x :: ?y)) with (x + list_sum y)%nat. specialize (IH (fun k Hk => L k (or_intror Hk))).
    rewrite holes_digit by (try exact Hy; apply L; left; reflexivity). pose proof (digit2_cases ns i y). lia.
  Qed.
  Lemma holes_agree L y y' : (y < B)%nat -> (y' < B)%nat -> agree_off 2 ns L (cm y) (cm y') = agree_off 2 ns L y y'.
  Proof using.
    intros Hy Hy'. apply bool_eq_iff. rewrite !agree_off_spec. split; intros W p Hp NI; specialize (W p Hp NI); rewrite !holes_digit in * by assumption; pose proof (digit2_cases ns p y); pose proof (digit2_cases ns p y'); lia.
  Qed.
  Lemma holes_between i j y : i <> j -> (i < ns)%nat -> (j < ns)%nat -> (y < B)%nat -> ksign (K:=CR) (between ns i j (cm y)) = ksign (i + j + 1) *c ksign (between ns i j y).
  Proof using.
    intros NE Hi Hj Hy. rewrite <- ksign_plus. apply ksign_same. unfold between.
    pose proof (holes_sum (seq (S (Nat.min i j)) (Nat.max i j - Nat.min i j - 1)) y Hy ltac:(intros k Hk; apply in_seq in Hk; lia)) as Q. rewrite seq_length in Q.
    set (l := seq _ _) in *. set (a := list_sum (map (fun x => digit 2 ns x (cm y)) l)) in *. set (b := list_sum (map (fun x => digit 2 ns x y) l)) in *. assert (Q2 : (i + j + 1 + b = a + 2 * (b + Nat.min i j + 1))%nat).
    { revert Q. pose proof (Nat.max_spec i j) as X1. pose proof (Nat.min_spec i j) as X2. clearbody a b. clear - NE X1 X2. intros Q. lia. }
    rewrite Q2, Nat.even_add, Nat.even_mul. cbn [Nat.even orb]. destruct (Nat.even a); reflexivity.
  Qed.
  Lemma holes_config M y : (y < B)%nat -> config ns M y -> config ns (ns - M) (cm y).
  Proof using.
    intros Hy (_ & C). split; [apply holes_lt|]. rewrite count_digits in * by (intros q Hq; apply in_seq in Hq; lia).
    pose proof (holes_sum (seq 0 ns) y Hy ltac:(intros k Hk; apply in_seq in Hk; lia)) as Q. rewrite seq_length in Q. lia.
  Qed.
  Lemma config_le M y : config ns M y -> (M <= ns)%nat.
  Proof using.
    intros (_ & <-). transitivity (length (seq 0 ns)); [|rewrite seq_length; apply le_n]. generalize (seq 0 ns) as l. intros l. induction l as [|i l IH]; [apply le_n|]. cbn [filter]. destruct (occ ns y i); cbn [length]; lia.
  Qed.
  Lemma odd_side i : side Nat.odd i = fst (ksign (K:=CR) i).
  Proof using.
    unfold side. rewrite <- Nat.negb_even. destruct (Nat.even i) eqn:Q; cbn [negb].
    - rewrite sign_even by (apply Nat.even_spec; exact Q). reflexivity.
    - rewrite (ksign_same i 1) by (rewrite Q; reflexivity). cbn. ring.
  Qed.
End Holes.

Section Turn.
  Variables (part : nat -> bool) (g : fgeom CR) (ts : nat -> nat -> nat -> CR) (us : nat -> CR) (same : nat -> nat -> nat -> CR) (mus : nat -> CR) (pot : nat -> nat -> CR) (pr : mat CR).
  Notation f := (pairsys g ts us same mus pot pr).
  Notation ns := (fg_nsites g).
  Notation B := (2 ^ ns)%nat.
  Notation gl x y := (glue ns x y).
  Notation cm y := (holes ns y).
  Notation ph y := (hole_sign part ns y).
  Notation h1 s := (HS2 (alone f s) (amplitude (alone f s))).
  Hypothesis rep : repelling part f.
  (** The system in which the species attract each other. *)
  Definition opp : fermions CR := pairsys g ts (fun i => kopp (us i)) same mus (fun i s => pot i s +c us i) pr.
  Notation f' := opp.
  Notation hops := (hops g ts us same mus pot pr).
  Notation diag := (diag g same mus pot).
  Lemma ph_sq y : ph y * ph y = 1.
  Proof using. unfold hole_sign. pose proof (sign_sq B _ y (state_signs part ns)) as S1. pose proof (sign_sq B _ y (state_signs Nat.odd ns)) as S2.
    destruct (lt_dec y B) as [L|L].
    - specialize (S1 L). specialize (S2 L). set (a := state_sign part ns y) in *. set (b := state_sign Nat.odd ns y) in *. replace (a * b * (a * b)) with ((a * a) * (b * b)) by ring. rewrite S1, S2. ring.
    - clear S1 S2. assert (W : forall q, state_sign q ns y = 1 \/ state_sign q ns y = -1). { intros q. unfold state_sign. induction (seq 0 ns) as [|i l IH]; [left; reflexivity|]. cbn [fold_right]. destruct (q i && _), IH as [->| ->]; [right | left | left | right]; ring. }
      destruct (W part) as [->| ->], (W Nat.odd) as [->| ->]; ring.
  Qed.
  Lemma hop_turn s i j y y' : i <> j -> (i < ns)%nat -> (j < ns)%nat -> (y < B)%nat -> (y' < B)%nat -> part i <> part j ->
    real (ph y * ph y') *c hop (alone f s) (ns * 0 + i) (ns * 0 + j) (cm y) (cm y') = hop (alone f s) (ns * 0 + i) (ns * 0 + j) y y'.
  Proof using.
    intros NE Hi Hj Hy Hy' NP. pose proof (holes_lt ns y) as Ly. pose proof (holes_lt ns y') as Ly'.
    rewrite !(hop_values (alone f s)) by (cbn [f_geom f_nspecies alone pairsys]; rewrite ?pow1; try assumption; lia).
    cbn [f_geom f_nspecies alone pairsys]. rewrite !Nat.mul_0_r, !Nat.add_0_l, !Nat.mul_1_r. rewrite holes_agree, !holes_digit, holes_between by assumption.
    assert (CD : (negb (1 - digit 2 ns i y =? 1 - digit 2 ns j y) && (1 - digit 2 ns i y' =? 1 - digit 2 ns j y) && (1 - digit 2 ns j y' =? 1 - digit 2 ns i y) = negb (digit 2 ns i y =? digit 2 ns j y) && (digit 2 ns i y' =? digit 2 ns j y) && (digit 2 ns j y' =? digit 2 ns i y))%nat).
    { destruct (digit2_cases ns i y) as [-> | ->], (digit2_cases ns j y) as [-> | ->], (digit2_cases ns i y') as [-> | ->], (digit2_cases ns j y') as [-> | ->]; reflexivity. }
    rewrite CD. destruct (agree_off 2 ns [i; j] y y') eqn:AG; cbn [andb]; [|apply injective_projections; cbn; ring].
    destruct (Nat.eqb_spec (digit 2 ns i y) (digit 2 ns j y)) as [Q|Q]; cbn [negb andb]; [apply injective_projections; cbn; ring|].
    destruct (Nat.eqb_spec (digit 2 ns i y') (digit 2 ns j y)) as [Q1|Q1]; cbn [andb]; [|apply injective_projections; cbn; ring].
    destruct (Nat.eqb_spec (digit 2 ns j y') (digit 2 ns i y)) as [Q2|Q2]; cbn [andb]; [|apply injective_projections; cbn; ring].
    unfold hole_sign. replace (state_sign part ns y * state_sign Nat.odd ns y * (state_sign part ns y' * state_sign Nat.odd ns y')) with ((state_sign part ns y * state_sign part ns y') * (state_sign Nat.odd ns y * state_sign Nat.odd ns y')) by ring.
    rewrite !(sign_flips _ ns i j y y' Hi Hj NE AG) by congruence. rewrite !odd_side.
    assert (SP : side part i * side part j = -1) by (unfold side; destruct (part i), (part j); try ring; exfalso; apply NP; reflexivity). rewrite SP.
    rewrite !ksign_plus. pose proof (ksign_twice i) as T1. pose proof (ksign_twice j) as T2. rewrite ksign_plus in T1, T2. pose proof (snd_ksign i) as R1. pose proof (snd_ksign j) as R2.
    destruct (ksign (K:=CR) i) as (a, a'), (ksign (K:=CR) j) as (b, b'), (ksign (K:=CR) (between ns i j y)) as (c, c'). cbn in R1, R2. subst a' b'. apply (f_equal fst) in T1, T2. cbn in T1, T2. ring_simplify in T1. ring_simplify in T2.
    cbn [ksign]. apply injective_projections; cbn; ring_simplify; rewrite ?T1, ?T2; try ring; replace (a ^ 2) with 1 by lra; replace (b ^ 2) with 1 by lra; ring.
  Qed.
  Lemma hops_turn s y y' : (s < 2)%nat -> (y < B)%nat -> (y' < B)%nat -> real (ph y * ph y') *c hops s (cm y) (cm y') = hops s y y'.
  Proof using rep.
    intros Hs Hy Hy'. unfold Halves.hops. rewrite <- ksum_mul_l. apply ksum_ext. intros i Hi. rewrite <- ksum_mul_l. apply ksum_ext. intros j Hj.
    destruct rep as (_ & AM & _). destruct (AM i j ltac:(cbn; lia)) as (t & A0 & A1 & PT). assert (AT : amplitude f i j s = (t, 0)) by (destruct s as [|[|s]]; [exact A0 | exact A1 | lia]). rewrite AT.
    destruct (Req_EM_T t 0) as [->|NT]; [apply injective_projections; cbn; ring|]. rewrite <- (hop_turn s i j y y') by (auto; lia). apply injective_projections; cbn; ring.
  Qed.
  Lemma count_kb M y : config ns M y -> ksum ns (fun i => kb (digit 2 ns i y =? 1)%nat) = real (INR M).
  Proof using.
    intros (_ & <-). assert (G : forall n, (n <= ns)%nat -> ksum n (fun i => kb (digit 2 ns i y =? 1)%nat) = real (INR (length (filter (occ ns y) (seq 0 n))))); [|apply G; apply le_n].
    induction n as [|n IH]; intros Hn; [reflexivity|]. cbn [ksum]. rewrite IH by lia. rewrite seq_S, filter_app, app_length, plus_INR. cbn [Nat.add filter]. pose proof (occ_digit ns y n ltac:(lia)) as Q. rewrite <- Q.
    destruct (occ ns y n); cbn; apply injective_projections; cbn; ring.
  Qed.
  Lemma diag_plain s y : (s < 2)%nat -> diag s y = ksum ns (fun i => (pot i s -c mus s) *c kb (digit 2 ns i y =? 1)%nat).
  Proof using rep.
    intros Hs. destruct rep as (_ & _ & SM & _). unfold Halves.diag. rewrite (ksum_zero ns (fun i => ksum (S i) _)).
    2:{ intros i Hi. apply ksum_zero. intros j Hj. destruct (SM i j ltac:(cbn; lia)) as (S0 & S1). cbn [f_same pairsys] in S0, S1. assert (Q : same i j s = (0, 0)) by (destruct s as [|[|s]]; [exact S0 | exact S1 | lia]). rewrite Q. apply injective_projections; cbn; ring. }
    assert (LQ : forall a b : CR, k0 -c a +c b = b -c a) by (intros a b; apply injective_projections; cbn; ring). rewrite LQ, <- ksum_minus. apply ksum_ext. intros i Hi. apply injective_projections; cbn; ring.
  Qed.
  Lemma kb_holes i y : (y < B)%nat -> (i < ns)%nat -> kb (digit 2 ns i (cm y) =? 1)%nat = c1 -c kb (digit 2 ns i y =? 1)%nat.
  Proof using. intros Hy Hi. rewrite holes_digit by assumption. destruct (digit2_cases ns i y) as [-> | ->]; cbn; apply injective_projections; cbn; ring. Qed.
  Theorem turn_ham M : exists w : R, forall x y x' y', (x < B)%nat -> config ns M y -> (x' < B)%nat -> config ns M y' ->
    real (ph y * ph y') *c HS2 f (amplitude f) (gl x (cm y)) (gl x' (cm y')) = HS2 f' (amplitude f') (gl x y) (gl x' y') +c kb (x =? x')%nat *c kb (y =? y')%nat *c real w.
  Proof using rep.
    pose proof rep as (_ & _ & SM & (mu & Mu0 & Mu1) & (c & PU)). cbn [f_geom f_pot f_us f_mus f_same pairsys] in *.
    set (v := fun i => fst (pot i 0%nat)). set (u := fun i => fst (us i)).
    assert (VU : forall i, (i < ns)%nat -> pot i 0%nat = real (v i) /\ pot i 1%nat = real (v i) /\ us i = real (u i) /\ v i + u i / 2 = c).
    { intros i Hi. destruct (PU i Hi) as (a & b & A0 & A1 & Ub & _ & Q). unfold v, u. rewrite A0, A1, Ub. cbn. repeat split; try reflexivity. exact Q. }
    exists (fst (ksum ns (fun i => real (v i - mu))) - 2 * (c - mu) * INR M). intros x y x' y' Hx Cy Hx' Cy'. pose proof (proj1 Cy) as Hy. pose proof (proj1 Cy') as Hy'. pose proof (holes_lt ns y) as Ly. pose proof (holes_lt ns y') as Ly'.
    unfold opp. rewrite !glue_ham, !alone_val by assumption. rewrite !holes_eqb by assumption.
    change (Halves.hops g ts (fun i => kopp (us i)) same mus (fun i s => pot i s +c us i) pr) with (Halves.hops g ts us same mus pot pr).
    rewrite <- (hops_turn 1 y y' ltac:(lia) Hy Hy').
    destruct (Nat.eqb_spec y y') as [<-|NE]; cbn [kb].
    2:{ destruct (x =? x')%nat; cbn [kb]; apply injective_projections; cbn; ring. }
    rewrite ph_sq. destruct (Nat.eqb_spec x x') as [<-|NX]; cbn [kb].
    2:{ apply injective_projections; cbn; ring. }
    assert (DG : diag 0 x +c diag 1 (cm y) +c ksum ns (fun i => us i *c (kb (digit 2 ns i x =? 1)%nat *c kb (digit 2 ns i (cm y) =? 1)%nat)) =
      Halves.diag g same mus (fun i s => pot i s +c us i) 0 x +c Halves.diag g same mus (fun i s => pot i s +c us i) 1 y +c ksum ns (fun i => kopp (us i) *c (kb (digit 2 ns i x =? 1)%nat *c kb (digit 2 ns i y =? 1)%nat)) +c real (fst (ksum ns (fun i => real (v i - mu))) - 2 * (c - mu) * INR M)).
    { rewrite !diag_plain by lia. unfold Halves.diag. rewrite !(ksum_zero ns (fun i => ksum (S i) _)).
      2,3: intros i Hi; apply ksum_zero; intros j Hj; destruct (SM i j ltac:(lia)) as (S0 & S1); rewrite ?S0, ?S1; apply injective_projections; cbn; ring.
      replace (real (fst (ksum ns (fun i => real (v i - mu))) - 2 * (c - mu) * INR M)) with (ksum ns (fun i => real (v i - mu)) -c real (2 * (c - mu)) *c ksum ns (fun i => kb (digit 2 ns i y =? 1)%nat)).
      2:{ rewrite (count_kb M y Cy), ksum_real. apply injective_projections; cbn; ring. }
      assert (ZL : forall a b : CR, k0 -c a +c b = b -c a) by (intros a b; apply injective_projections; cbn; ring). rewrite !ZL. rewrite <- ksum_mul_l. rewrite <- !ksum_minus, <- !ksum_add. apply ksum_ext. intros i Hi.
      destruct (VU i Hi) as (-> & -> & -> & Q). rewrite kb_holes by assumption. rewrite Mu0, Mu1. assert (U2 : u i = 2 * (c - v i)) by lra. rewrite U2.
      destruct (digit 2 ns i x =? 1)%nat, (digit 2 ns i y =? 1)%nat; cbn [kb]; apply injective_projections; cbn; ring. }
    transitivity (hops 0 x x +c real 1 *c hops 1 (cm y) (cm y) +c (diag 0 x +c diag 1 (cm y) +c ksum ns (fun i => us i *c (kb (digit 2 ns i x =? 1)%nat *c kb (digit 2 ns i (cm y) =? 1)%nat)))).
    { apply injective_projections; cbn; ring. }
    rewrite DG. apply injective_projections; cbn; ring.
  Qed.
End Turn.
