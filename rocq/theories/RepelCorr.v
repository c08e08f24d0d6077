(** Fermions that repel each other: densities and correlations of the spins. *)
From Coq Require Import List Arith Lia Reals Lra ZArith QArith Qabs Bool Permutation.
From Verif Require Import Scalars Res Matrix Sums SqMat CarAlgebra SpecMat SpecFock OpsProofs FockProofs FermiOps ModelBase ModelFermions ModelSpins SpecSpins Digits SpinOps SpinAlg SpinSwap SpinJordan HamProofs FermiApi SpecPerm
  ModelGeometry ModelPhase ModelSymmetry SymBase ModelThermal SpecThermal ThermalBase ThermalFacts ThermalBasis Spectral Thermo SpecHeat SpecConvex Convex SpecSigns Signs SignsHeat SignsSpins SpecSectors Perron Sectors HopSigns SpecShells Shells ShellsRun SpecLieb Halves Lieb LiebRun LiebCorr LiebApi SpecRepel Repel RepelRun RepelRing.
From Verif Require Import FreeThermal.
Import ListNotations.
Local Open Scope R_scope.

Section Flips.
  Variables (g : fgeom CR) (ts : nat -> nat -> nat -> CR) (us : nat -> CR) (same : nat -> nat -> nat -> CR) (mus : nat -> CR) (pot : nat -> nat -> CR) (pr : mat CR).
  Notation f := (pairsys g ts us same mus pot pr).
  Notation ns := (fg_nsites g).
  Notation nl := (ns * 2)%nat.
  Notation B := (2 ^ ns)%nat.
  Notation D := (2 ^ (ns * 2))%nat.
  Notation gl x y := (glue ns x y).
  Notation flip2 i j := (smul (N:=D) (smul (N:=D) (Cd (K:=CR) nl i) (Ca nl (ns + i))) (smul (N:=D) (Cd nl (ns + j)) (Ca nl j))).
  Notation moves := (moves g).
  Lemma flips_apart i j x y x' y' : i <> j -> (i < ns)%nat -> (j < ns)%nat -> (x < B)%nat -> (y < B)%nat -> (x' < B)%nat -> (y' < B)%nat ->
    flip2 i j (gl x y) (gl x' y') = kopp (real (moves i j x x') *c real (moves j i y y')).
  Proof using ts us same mus pot pr.
    intros NE Hi Hj Hx Hy Hx' Hy'. pose proof (glue_lt ns x y Hx Hy) as La. pose proof (glue_lt ns x' y' Hx' Hy') as Lb.
    pose proof (four_apart (Rr:=sq_ring (K:=CR) (N:=D)) (Cd nl i) (Ca nl (ns + i)) (Cd nl (ns + j)) (Ca nl j)
      (Cd_Ca_ne nl (ns + j) j ltac:(lia) ltac:(lia) ltac:(lia)) (Ca_Ca_ne nl (ns + i) j ltac:(lia) ltac:(lia) ltac:(lia)) (Ca_Cd_ne nl (ns + i) (ns + j) ltac:(lia) ltac:(lia) ltac:(lia)) _ _ La Lb) as Q.
    etransitivity; [exact Q|]. change (kopp (smul (N:=D) (smul (N:=D) (Cd nl i) (Ca nl j)) (smul (N:=D) (Cd nl (ns + j)) (Ca nl (ns + i))) (gl x y) (gl x' y')) = kopp (real (moves i j x x') *c real (moves j i y y'))). f_equal.
    unfold smul at 1. rewrite (sum_glue g). rewrite (ksum_single B x' _ Hx').
    - rewrite (ksum_single B y _ Hy).
      + rewrite (moves_hi g ts us same mus pot pr), (moves_lo g ts us same mus pot pr) by (assumption || auto). rewrite !Nat.eqb_refl. cbn [kb]. ring.
      + intros w Hw Nw. rewrite (moves_hi g ts us same mus pot pr) by assumption. rewrite (proj2 (Nat.eqb_neq y w)) by auto. cbn [kb]. ring.
    - intros w Hw Nw. apply ksum_zero. intros v Hv. rewrite (moves_lo g ts us same mus pot pr) by (assumption || auto). rewrite (proj2 (Nat.eqb_neq w x') Nw). cbn [kb]. ring.
  Qed.
  Lemma flips_same i x y x' y' : (i < ns)%nat -> (x < B)%nat -> (y < B)%nat -> (x' < B)%nat -> (y' < B)%nat ->
    flip2 i i (gl x y) (gl x' y') = kb (x =? x')%nat *c kb (y =? y')%nat *c (kb (digit 2 ns i x =? 1)%nat *c (c1 -c kb (digit 2 ns i y =? 1)%nat)).
  Proof using ts us same mus pot pr.
    intros Hi Hx Hy Hx' Hy'. pose proof (glue_lt ns x y Hx Hy) as La. pose proof (glue_lt ns x' y' Hx' Hy') as Lb.
    pose proof (four_same (Rr:=sq_ring (K:=CR) (N:=D)) (Cd nl i) (Ca nl (ns + i)) (Cd nl (ns + i)) (Ca nl i)
      (Cd_Ca_ne nl (ns + i) i ltac:(lia) ltac:(lia) ltac:(lia)) (Ca_Ca_ne nl (ns + i) i ltac:(lia) ltac:(lia) ltac:(lia)) (Ca_Cd_same nl (ns + i) ltac:(lia)) _ _ La Lb) as Q.
    etransitivity; [exact Q|]. change (smul (N:=D) (Cd nl i) (Ca nl i) (gl x y) (gl x' y') -c smul (N:=D) (smul (N:=D) (Cd nl i) (Ca nl i)) (smul (N:=D) (Cd nl (ns + i)) (Ca nl (ns + i))) (gl x y) (gl x' y') = kb (x =? x')%nat *c kb (y =? y')%nat *c (kb (digit 2 ns i x =? 1)%nat *c (c1 -c kb (digit 2 ns i y =? 1)%nat))).
    rewrite (Cd_Ca nl i ltac:(lia) _ _ La Lb). rewrite (smul_proper _ _ (Cd_Ca (K:=CR) nl i ltac:(lia)) _ _ (Cd_Ca nl (ns + i) ltac:(lia)) _ _ La Lb).
    rewrite NN_val, Nn_val by (assumption || lia). rewrite digit_hi, digit_lo, glue_eqb by assumption. destruct (x =? x')%nat, (y =? y')%nat; cbn [andb kb]; ring.
  Qed.
  (** On exchange of particles and holes. *)
  Lemma moves_turn part i j y y' : i <> j -> (i < ns)%nat -> (j < ns)%nat -> (y < B)%nat -> (y' < B)%nat ->
    moves j i (holes ns y) (holes ns y') * (hole_sign part ns y * hole_sign part ns y') = - (side part i * side part j) * moves i j y y'.
  Proof using.
    intros NE Hi Hj Hy Hy'. unfold LiebCorr.moves. rewrite holes_agree, !holes_digit by assumption. replace (agree_off 2 ns [j; i] y y') with (agree_off 2 ns [i; j] y y') by (apply bool_eq_iff; rewrite !agree_off_spec; split; intros W x Hx NI; apply W; try exact Hx; intros [X|[X|[]]]; apply NI; cbn; auto).
    rewrite (between_sym ns j i), holes_between by assumption. destruct (agree_off 2 ns [i; j] y y') eqn:AG; cbn [andb]; [|ring].
    destruct (digit2_cases ns i y) as [Q1|Q1], (digit2_cases ns j y) as [Q2|Q2], (digit2_cases ns i y') as [Q3|Q3], (digit2_cases ns j y') as [Q4|Q4]; rewrite Q1, Q2, Q3, Q4; cbn [Nat.sub Nat.eqb andb]; try ring.
    unfold hole_sign. replace (state_sign part ns y * state_sign Nat.odd ns y * (state_sign part ns y' * state_sign Nat.odd ns y')) with ((state_sign part ns y * state_sign part ns y') * (state_sign Nat.odd ns y * state_sign Nat.odd ns y')) by ring.
    rewrite !(sign_flips _ ns i j y y' Hi Hj NE AG) by congruence. rewrite !odd_side.
    rewrite !ksign_plus. pose proof (ksign_twice i) as T1. pose proof (ksign_twice j) as T2. rewrite ksign_plus in T1, T2. pose proof (snd_ksign i) as R1. pose proof (snd_ksign j) as R2. pose proof (snd_ksign (between ns i j y)) as R3.
    destruct (ksign (K:=CR) i) as (a, a'), (ksign (K:=CR) j) as (b, b'), (ksign (K:=CR) (between ns i j y)) as (c, c'). cbn in R1, R2, R3. subst a' b' c'. apply (f_equal fst) in T1, T2. cbn in T1, T2. cbn.
    transitivity (- (side part i * side part j) * c * ((a * a - 0 * 0) * (b * b - 0 * 0))); [ring|]. rewrite T1, T2. ring.
  Qed.
End Flips.

Section Run.
  Variables (part : nat -> bool) (g : fgeom CR) (ts : nat -> nat -> nat -> CR) (us : nat -> CR) (same : nat -> nat -> nat -> CR) (mus : nat -> CR) (pot : nat -> nat -> CR) (pr : mat CR).
  Notation f := (pairsys g ts us same mus pot pr).
  Notation f' := (opp g ts us same mus pot pr).
  Notation ns := (fg_nsites g).
  Notation B := (2 ^ ns)%nat.
  Notation D := (2 ^ (ns * 2))%nat.
  Notation gl x y := (glue ns x y).
  Notation cm y := (holes ns y).
  Notation ph y := (hole_sign part ns y).
  Hypothesis rep : repelling part f.
  Hypothesis conn : connected_hops f.
  Variables (M : nat) (P : mat CR) (idx : list nat) (H V : mat CR) (E : list R) (e : R).
  Hypothesis Mn : (M <= ns)%nat.
  Hypothesis sec : shell ns 2 [M; ns - M]%nat P idx.
  Hypothesis made : createH f (Some P) = Ok H.
  Hypothesis basis : eigenbasis H V E.
  Hypothesis sm : smallest e E.
  Notation N := (length idx).
  Notation at_ p := (nth p idx 0%nat).
  Notation sg p := (sg part g idx p).
  Notation idx' := (idx' g idx).
  Notation P' := (P' g idx).
  Notation s' := (sec' g M P idx Mn sec).
  Lemma low' w : smallest (e - w) (map (fun x => x - w) E).
  Proof using sm. destruct sm as (I & L). split; [apply in_map_iff; exists e; auto|]. intros x Hx. apply in_map_iff in Hx as (y & <- & Hy). specialize (L y Hy). lra. Qed.
  Lemma nth' w k : (k < length E)%nat -> nth k (map (fun x => x - w) E) 0 = nth k E 0 - w.
  Proof using. intros Hk. rewrite (nth_indep _ 0 (0 - w)) by (rewrite map_length; exact Hk). exact (map_nth (fun x => x - w) E 0 k). Qed.
  Theorem half_unique k j : (k < length E)%nat -> (j < length E)%nat -> nth k E 0 = e -> nth j E 0 = e -> k = j.
  Proof using All.
    intros Hk Hj Ek Ej. destruct (turned part g ts us same mus pot pr rep M P idx H V E Mn sec made basis) as (w & H' & V' & made' & basis' & _).
    apply (pair_unique f' M P' idx' H' V' (map (fun x => x - w) E) (e - w) (opp_att part g ts us same mus pot pr rep) (opp_conn g ts us same mus pot pr conn) s' made' basis' (low' w)); rewrite ?map_length; try assumption; rewrite nth' by assumption; lra.
  Qed.
  (** States of the two systems. *)
  Lemma state_turn w H' psi : (forall p q, (p < N)%nat -> (q < N)%nat -> ent H' p q = real (sg p * sg q) *c ent H p q -c kb (p =? q)%nat *c real w) ->
    state_of N H e psi -> state_of N H' (e - w) (fun p => real (sg p) *c psi p).
  Proof using.
    clear. intros W ST p Hp. unfold apply. rewrite (ksum_ext N _ (fun q => real (sg p) *c (ent H p q *c psi q) -c kb (p =? q)%nat *c real w *c (real (sg q) *c psi q))).
    2:{ intros q Hq. rewrite W by assumption. pose proof (sg_sq part g idx q) as S2. transitivity (real (sg p) *c (real (sg q * sg q) *c (ent H p q *c psi q)) -c kb (p =? q)%nat *c real w *c (real (sg q) *c psi q)); [apply injective_projections; cbn; ring|]. rewrite S2. apply injective_projections; cbn; ring. }
    rewrite ksum_minus, ksum_mul_l. etransitivity; [apply f_equal2; [apply f_equal2; [reflexivity | exact (ST p Hp)]|]|].
    - rewrite (ksum_single N p); [|exact Hp|]; [rewrite Nat.eqb_refl; cbn [kb]; reflexivity|]. intros q Hq NE. rewrite (proj2 (Nat.eqb_neq p q)) by auto. cbn [kb]. ring.
    - apply injective_projections; cbn; ring.
  Qed.
  Lemma state_back w H' psi : (forall p q, (p < N)%nat -> (q < N)%nat -> ent H' p q = real (sg p * sg q) *c ent H p q -c kb (p =? q)%nat *c real w) ->
    state_of N H' (e - w) (fun p => real (sg p) *c psi p) -> state_of N H e psi.
  Proof using.
    clear. intros W ST p Hp. specialize (ST p Hp). unfold apply in *. rewrite (ksum_ext N _ (fun q => real (sg p) *c (ent H p q *c psi q) -c kb (p =? q)%nat *c real w *c (real (sg q) *c psi q))) in ST.
    2:{ intros q Hq. rewrite W by assumption. pose proof (sg_sq part g idx q) as S2. transitivity (real (sg p) *c (real (sg q * sg q) *c (ent H p q *c psi q)) -c kb (p =? q)%nat *c real w *c (real (sg q) *c psi q)); [apply injective_projections; cbn; ring|]. rewrite S2. apply injective_projections; cbn; ring. }
    rewrite ksum_minus, ksum_mul_l in ST. rewrite (ksum_single N p (fun q => kb (p =? q)%nat *c real w *c (real (sg q) *c psi q))) in ST; [|exact Hp|].
    2:{ intros q Hq NE. cbn beta. rewrite (proj2 (Nat.eqb_neq p q)) by auto. cbn [kb]. ring. }
    rewrite Nat.eqb_refl in ST. cbn [kb] in ST. set (S := ksum N _) in *. pose proof (sg_sq part g idx p) as S2.
    transitivity (real (sg p * sg p) *c S); [rewrite S2; apply injective_projections; cbn; ring|]. transitivity (real (sg p) *c ((real (sg p) *c S -c c1 *c real w *c (real (sg p) *c psi p)) +c real w *c (real (sg p) *c psi p))); [apply injective_projections; cbn; ring|]. rewrite ST.
    transitivity (real (sg p * sg p) *c (real e *c psi p)); [apply injective_projections; cbn; ring|]. rewrite S2. apply injective_projections; cbn; ring.
  Qed.
  Theorem half_state : exists G : nat -> nat -> R,
    (forall x y, G x y = G y x) /\
    (forall w : nat -> CR, (exists x, config ns M x /\ w x <> c0) -> 0 < fst (ksum (2 ^ ns) (fun x => ksum (2 ^ ns) (fun y => conj (w x) *c (real (G x y) *c w y))))) /\
    (forall psi, state_of N H e psi <-> exists z, forall p, (p < N)%nat -> psi p = z *c real (ph (cm (nth p idx 0 mod 2 ^ ns)%nat) * G (nth p idx 0 / 2 ^ ns)%nat (cm (nth p idx 0 mod 2 ^ ns)%nat))).
  Proof using All.
    destruct (turned part g ts us same mus pot pr rep M P idx H V E Mn sec made basis) as (w & H' & V' & made' & basis' & R1 & R2 & W).
    destruct (pair_state f' M P' idx' H' V' (map (fun x => x - w) E) (e - w) (opp_att part g ts us same mus pot pr rep) (opp_conn g ts us same mus pot pr conn) s' made' basis' (low' w)) as (G & GS & GP & GU). cbn [f_geom opp pairsys] in *.
    assert (LN : length idx' = N) by apply map_length. rewrite LN in GU.
    assert (AT : forall p, (p < N)%nat -> (nth p idx' 0 / B = at_ p / B /\ nth p idx' 0 mod B = cm (at_ p mod B))%nat).
    { intros p Hp. rewrite (at_turn g idx p Hp). unfold turn. rewrite glue_hi, glue_lo by apply holes_lt. auto. }
    exists G. split; [exact GS|]. split; [exact GP|]. intros psi. split.
    - intros ST. destruct (proj1 (GU _) (state_turn w H' psi W ST)) as (z & Q). exists z. intros p Hp. specialize (Q p Hp). cbn beta in Q. destruct (AT p Hp) as (A1 & A2). rewrite A1, A2 in Q. pose proof (sg_sq part g idx p) as S2.
      transitivity (real (sg p * sg p) *c psi p); [rewrite S2; apply injective_projections; cbn; ring|]. transitivity (real (sg p) *c (real (sg p) *c psi p)); [apply injective_projections; cbn; ring|]. rewrite Q. unfold RepelRun.sg. apply injective_projections; cbn; ring.
    - intros (z & Q). apply (state_back w H' psi W). apply GU. exists z. intros p Hp. rewrite (Q p Hp). destruct (AT p Hp) as (A1 & A2). rewrite A1, A2. pose proof (sg_sq part g idx p) as S2. unfold RepelRun.sg in *.
      set (G0 := G _ _). set (s0 := ph _) in *. transitivity (real (s0 * s0) *c (z *c real G0)); [apply injective_projections; cbn; ring|]. rewrite S2. apply injective_projections; cbn; ring.
  Qed.
  Notation N1 := (length (idx1 g M)).
  Notation at1 u := (nth u (idx1 g M) 0%nat).
  Notation pos u v := (pos g M idx' u v).
  Lemma pos_turn u v : (u < N1)%nat -> (v < N1)%nat -> (pos u v < N)%nat /\ at_ (pos u v) = gl (at1 u) (cm (at1 v)) /\ sg (pos u v) = ph (at1 v).
  Proof using sec Mn.
    intros Hu Hv. destruct (pos_spec g M P' idx' s' u v Hu Hv) as (L & Q). rewrite (len' g idx) in L. split; [exact L|]. pose proof (at1_lt g M u Hu) as Lu. pose proof (at1_lt g M v Hv) as Lv.
    assert (AQ : at_ (pos u v) = gl (at1 u) (cm (at1 v))).
    { rewrite (at_turn g idx _ L) in Q. apply (f_equal (turn g)) in Q. rewrite (turn_turn g) in Q by exact (at_D g M P idx sec _ L). rewrite Q. unfold turn. rewrite glue_hi, glue_lo by exact Lv. reflexivity. }
    split; [exact AQ|]. unfold RepelRun.sg. rewrite AQ, glue_lo by apply holes_lt. rewrite holes_holes by exact Lv. reflexivity.
  Qed.
  Lemma sandwich_turn A O u v u' v' : square D A -> sandwich P A = Ok O -> (u < N1)%nat -> (v < N1)%nat -> (u' < N1)%nat -> (v' < N1)%nat -> ent O (pos u v) (pos u' v') = ent A (gl (at1 u) (cm (at1 v))) (gl (at1 u') (cm (at1 v'))).
  Proof using part sec Mn.
    intros SA EO Hu Hv Hu' Hv'. destruct (pos_turn u v Hu Hv) as (L1 & Q1 & _). destruct (pos_turn u' v' Hu' Hv') as (L2 & Q2 & _). destruct sec as (R & _ & I). destruct (sandwich_ok D P A (proj1 (proj2 R)) SA) as (O' & EO' & _ & VO). rewrite EO in EO'. injection EO' as <-. rewrite VO.
    rewrite (sand_rows D P idx (ent A) _ _ R) by (try assumption; intros k Hk; apply (proj1 (I k) Hk)). rewrite Q1, Q2. reflexivity.
  Qed.
  Theorem half_corr c O (A : nat -> nat -> R) psi :
    (forall u v u' v', (u < N1)%nat -> (v < N1)%nat -> (u' < N1)%nat -> (v' < N1)%nat -> real (c * (ph (at1 v) * ph (at1 v'))) *c ent O (pos u v) (pos u' v') = real (A u u') *c real (A v v')) ->
    state_of N H e psi -> 0 <= c * expect N O psi.
  Proof using All.
    intros EO ST. destruct (turned part g ts us same mus pot pr rep M P idx H V E Mn sec made basis) as (w & H' & V' & made' & basis' & R1 & R2 & W).
    pose proof (corr_sign g ts (fun i => kopp (us i)) same mus (fun i s => pot i s +c us i) pr M P' idx' H' V' (map (fun x => x - w) E) (opp_att part g ts us same mus pot pr rep) (opp_conn g ts us same mus pot pr conn) s' made' basis' (e - w) (low' w)
      (Mat N N (fun p q => real (c * (sg p * sg q)) *c ent O p q)) A (fun p => real (sg p) *c psi p)) as C.
    assert (LN : length idx' = N) by apply map_length. rewrite LN in C.
    replace (c * expect N O psi) with (expect N (Mat N N (fun p q => real (c * (sg p * sg q)) *c ent O p q)) (fun p => real (sg p) *c psi p)).
    - apply C; [|exact (state_turn w H' psi W ST)]. intros u v u' v' Hu Hv Hu' Hv'. cbn [ent]. destruct (pos_turn u v Hu Hv) as (_ & _ & ->). destruct (pos_turn u' v' Hu' Hv') as (_ & _ & ->). apply EO; assumption.
    - clear C. unfold expect. transitivity (fst (real c *c inner N psi (apply N O psi))); [f_equal|cbn; ring]. unfold inner. rewrite <- ksum_mul_l. apply ksum_ext. intros p Hp. unfold apply. cbn [ent].
      transitivity (conj (real (sg p) *c psi p) *c (real (c * sg p) *c ksum N (fun q => ent O p q *c psi q))).
      + f_equal. rewrite <- ksum_mul_l. apply ksum_ext. intros q Hq. pose proof (sg_sq part g idx q) as S2. transitivity (real (c * sg p) *c (real (sg q * sg q) *c (ent O p q *c psi q))); [apply injective_projections; cbn; ring|]. rewrite S2. apply injective_projections; cbn; ring.
      + rewrite kconj_mul, real_conj. pose proof (sg_sq part g idx p) as S2. set (S := ksum N _). transitivity (real (sg p * sg p) *c (real c *c (conj (psi p) *c S))); [apply injective_projections; cbn; ring|]. rewrite S2. apply injective_projections; cbn; ring.
  Qed.
  (** The spins of two sites. *)
  Theorem half_spins i j A C O psi : (i < ns)%nat -> (j < ns)%nat ->
    two_site_op (f_sys f) i 0 i 1 cdag_op c_op Fermion = Ok A -> two_site_op (f_sys f) j 1 j 0 cdag_op c_op Fermion = Ok C -> sandwich P (mmul A C) = Ok O -> state_of N H e psi -> 0 <= side part i * side part j * expect N O psi.
  Proof using All.
    intros Hi Hj EA EC EO.
    destruct (two_ok (f_sys f) i 0 i 1 cdag_op c_op Fermion (f_two f) ltac:(discriminate) Hi ltac:(cbn; lia) Hi ltac:(cbn; lia) (sq2 _ _ _ _) (sq2 _ _ _ _)) as (A' & E' & S0 & V0). rewrite EA in E'. injection E' as <-.
    destruct (two_ok (f_sys f) j 1 j 0 cdag_op c_op Fermion (f_two f) ltac:(discriminate) Hj ltac:(cbn; lia) Hj ltac:(cbn; lia) (sq2 _ _ _ _) (sq2 _ _ _ _)) as (C' & E' & S1 & V1). rewrite EC in E'. injection E' as <-.
    change (nlog (f_sys f)) with (ns * 2)%nat in *. change (lsite (f_sys f) i 0) with (ns * 0 + i)%nat in *. change (lsite (f_sys f) j 0) with (ns * 0 + j)%nat in *. change (lsite (f_sys f) i 1) with (ns * 1 + i)%nat in *. change (lsite (f_sys f) j 1) with (ns * 1 + j)%nat in *.
    rewrite Nat.mul_0_r, !Nat.add_0_l, Nat.mul_1_r in V0, V1.
    assert (SM : square D (mmul A C)) by (split; cbn; [apply S0 | apply S1]).
    assert (VO : forall u v u' v', (u < N1)%nat -> (v < N1)%nat -> (u' < N1)%nat -> (v' < N1)%nat -> ent O (pos u v) (pos u' v') =
      smul (N:=D) (smul (N:=D) (Cd (K:=CR) (ns * 2) i) (Ca (ns * 2) (ns + i))) (smul (N:=D) (Cd (ns * 2) (ns + j)) (Ca (ns * 2) j)) (gl (at1 u) (cm (at1 v))) (gl (at1 u') (cm (at1 v')))).
    { intros u v u' v' Hu Hv Hu' Hv'. rewrite (sandwich_turn _ _ _ _ _ _ SM EO Hu Hv Hu' Hv'). rewrite (ent_mul D) by assumption. apply smul_proper; try assumption; apply glue_lt; try apply holes_lt; apply at1_lt; assumption. }
    destruct (Nat.eq_dec i j) as [<-|NE].
    - apply (half_corr (side part i * side part i) O (fun u u' => if (u =? u')%nat then (if (digit 2 ns i (at1 u) =? 1)%nat then 1 else 0) else 0)).
      intros u v u' v' Hu Hv Hu' Hv'. rewrite VO by assumption. pose proof (at1_lt g M u Hu) as Lu. pose proof (at1_lt g M v Hv) as Lv. pose proof (at1_lt g M u' Hu') as Lu'. pose proof (at1_lt g M v' Hv') as Lv'.
      rewrite (flips_same g ts us same mus pot pr) by (try assumption; apply holes_lt). rewrite holes_eqb by assumption. rewrite !at1_eqb by assumption.
      assert (KH : kb (digit 2 ns i (cm (at1 v)) =? 1)%nat = c1 -c kb (digit 2 ns i (at1 v) =? 1)%nat) by (apply (kb_holes g); assumption). rewrite KH.
      assert (SS : side part i * side part i = 1) by (unfold side; destruct (part i); ring). rewrite SS.
      destruct (Nat.eqb_spec u u') as [<-|], (Nat.eqb_spec v v') as [<-|]; cbn [kb]; try (apply injective_projections; cbn; ring). rewrite ph_sq.
      destruct (digit 2 ns i (at1 u) =? 1)%nat, (digit 2 ns i (at1 v) =? 1)%nat; cbn [kb]; apply injective_projections; cbn; ring.
    - apply (half_corr (side part i * side part j) O (fun u u' => moves g i j (at1 u) (at1 u'))).
      intros u v u' v' Hu Hv Hu' Hv'. rewrite VO by assumption. pose proof (at1_lt g M u Hu) as Lu. pose proof (at1_lt g M v Hv) as Lv. pose proof (at1_lt g M u' Hu') as Lu'. pose proof (at1_lt g M v' Hv') as Lv'.
      rewrite (flips_apart g ts us same mus pot pr) by (try assumption; apply holes_lt). pose proof (moves_turn g part i j (at1 v) (at1 v') NE Hi Hj Lv Lv') as MT.
      transitivity (kopp (real (side part i * side part j) *c real (moves g i j (at1 u) (at1 u')) *c real (moves g j i (cm (at1 v)) (cm (at1 v')) * (ph (at1 v) * ph (at1 v'))))); [apply injective_projections; cbn; ring|]. rewrite MT.
      assert (SS : (side part i * side part j) * (side part i * side part j) = 1) by (unfold side; destruct (part i), (part j); ring).
      transitivity (real ((side part i * side part j) * (side part i * side part j)) *c (real (moves g i j (at1 u) (at1 u')) *c real (moves g i j (at1 v) (at1 v')))); [apply injective_projections; cbn; ring|]. rewrite SS. apply injective_projections; cbn; ring.
  Qed.
  (** One particle on every site. *)
  Theorem half_density i A0 A1 O0 O1 psi : (i < ns)%nat -> single_site_op (f_sys f) i 0 n_op Boson = Ok A0 -> single_site_op (f_sys f) i 1 n_op Boson = Ok A1 -> sandwich P A0 = Ok O0 -> sandwich P A1 = Ok O1 ->
    state_of N H e psi -> expect N O0 psi + expect N O1 psi = norm2 N psi.
  Proof using All.
    intros Hi EA0 EA1 EO0 EO1 ST. destruct half_state as (G & GS & _ & GU). destruct (proj1 (GU psi) ST) as (z & Q).
    destruct (single_ok (f_sys f) i 0 n_op Boson (f_two f) ltac:(discriminate) Hi ltac:(cbn; lia) (sq2 _ _ _ _)) as (A' & E' & S0 & V0). rewrite EA0 in E'. injection E' as <-.
    destruct (single_ok (f_sys f) i 1 n_op Boson (f_two f) ltac:(discriminate) Hi ltac:(cbn; lia) (sq2 _ _ _ _)) as (A' & E' & S1 & V1). rewrite EA1 in E'. injection E' as <-.
    change (nlog (f_sys f)) with (ns * 2)%nat in *. change (lsite (f_sys f) i 0) with (ns * 0 + i)%nat in *. change (lsite (f_sys f) i 1) with (ns * 1 + i)%nat in *. rewrite Nat.mul_0_r, Nat.add_0_l in V0. rewrite Nat.mul_1_r in V1.
    set (r := fst z * fst z + snd z * snd z).
    assert (PS : forall u v, (u < N1)%nat -> (v < N1)%nat -> conj (psi (pos u v)) *c psi (pos u v) = real (r * (G (at1 u) (at1 v) * G (at1 u) (at1 v)))).
    { intros u v Hu Hv. destruct (pos_turn u v Hu Hv) as (L & AQ & SG). rewrite (Q _ L), AQ, glue_hi, glue_lo by apply holes_lt. rewrite holes_holes by (apply at1_lt; exact Hv). pose proof (ph_sq part g (at1 v)) as S2.
      unfold r. set (s := ph (at1 v)) in *. set (G0 := G _ _). transitivity (real ((s * s) * ((fst z * fst z + snd z * snd z) * (G0 * G0)))); [apply injective_projections; cbn; ring|]. rewrite S2. f_equal. ring. }
    assert (DG : forall A O (X : nat -> nat -> CR), square D A -> sandwich P A = Ok O -> (forall x y x' y', (x < B)%nat -> (y < B)%nat -> (x' < B)%nat -> (y' < B)%nat -> ent A (gl x y) (gl x' y') = kb ((x =? x') && (y =? y'))%nat *c X x y) ->
      inner N psi (apply N O psi) = ksum N1 (fun u => ksum N1 (fun v => X (at1 u) (cm (at1 v)) *c real (r * (G (at1 u) (at1 v) * G (at1 u) (at1 v)))))).
    { intros A O X SA EO VA. unfold inner. rewrite <- (len' g idx) at 1. rewrite (sum_pairs g M P' idx' s'). apply ksum_ext. intros u Hu. apply ksum_ext. intros v Hv. destruct (pos_turn u v Hu Hv) as (L & AQ & _).
      unfold apply. rewrite <- (len' g idx) at 1. rewrite (sum_pairs g M P' idx' s'). pose proof (at1_lt g M u Hu) as Lu. pose proof (at1_lt g M v Hv) as Lv. rewrite (ksum_single N1 u _ Hu).
      - rewrite (ksum_single N1 v _ Hv).
        + rewrite (sandwich_turn A O) by assumption. rewrite VA by (try assumption; apply holes_lt). rewrite !Nat.eqb_refl. cbn [andb kb]. rewrite <- PS by assumption. ring.
        + intros v' Hv' NE. pose proof (at1_lt g M v' Hv') as Lv'. rewrite (sandwich_turn A O) by assumption. rewrite VA by (try assumption; apply holes_lt). rewrite holes_eqb by assumption. rewrite (at1_eqb g M v v') by assumption. rewrite (proj2 (Nat.eqb_neq v v')), andb_false_r by auto. cbn [kb]. ring.
      - intros u' Hu' NE. apply ksum_zero. intros v' Hv'. pose proof (at1_lt g M u' Hu') as Lu'. rewrite (sandwich_turn A O) by assumption. rewrite VA by (try assumption; try apply holes_lt; apply at1_lt; assumption). rewrite (at1_eqb g M u u') by assumption. rewrite (proj2 (Nat.eqb_neq u u')) by auto. cbn [kb andb]. ring. }
    unfold expect, norm2. rewrite (DG A0 O0 (fun x _ => kb (digit 2 ns i x =? 1)%nat) S0 EO0).
    2:{ intros x y x' y' Hx Hy Hx' Hy'. etransitivity; [apply V0; apply glue_lt; assumption|]. change (Nn (K:=CR) (ns * 2) i (gl x y) (gl x' y') = kb ((x =? x') && (y =? y'))%nat *c kb (digit 2 ns i x =? 1)%nat). rewrite Nn_val, digit_hi, glue_eqb by (try apply glue_lt; assumption || lia). reflexivity. }
    rewrite (DG A1 O1 (fun _ y => kb (digit 2 ns i y =? 1)%nat) S1 EO1).
    2:{ intros x y x' y' Hx Hy Hx' Hy'. etransitivity; [apply V1; apply glue_lt; assumption|]. change (Nn (K:=CR) (ns * 2) (ns + i) (gl x y) (gl x' y') = kb ((x =? x') && (y =? y'))%nat *c kb (digit 2 ns i y =? 1)%nat). rewrite Nn_val, digit_lo, glue_eqb by (try apply glue_lt; assumption || lia). reflexivity. }
    assert (NV : inner N psi psi = ksum N1 (fun u => ksum N1 (fun v => real (r * (G (at1 u) (at1 v) * G (at1 u) (at1 v)))))).
    { unfold inner. rewrite <- (len' g idx) at 1. rewrite (sum_pairs g M P' idx' s'). apply ksum_ext. intros u Hu. apply ksum_ext. intros v Hv. apply PS; assumption. }
    rewrite NV. assert (FA : forall a b : CR, fst a + fst b = fst (a +c b)) by reflexivity. rewrite FA. f_equal.
    rewrite (ksum_ext N1 (fun u => ksum N1 (fun v => kb (digit 2 ns i (cm (at1 v)) =? 1)%nat *c _)) (fun u => ksum N1 (fun v => real (r * (G (at1 u) (at1 v) * G (at1 u) (at1 v)))) -c ksum N1 (fun v => kb (digit 2 ns i (at1 v) =? 1)%nat *c real (r * (G (at1 u) (at1 v) * G (at1 u) (at1 v)))))).
    2:{ intros u Hu. rewrite <- ksum_minus. apply ksum_ext. intros v Hv. rewrite (kb_holes g) by (try assumption; apply at1_lt; assumption). ring. }
    rewrite ksum_minus.
    assert (SW : ksum N1 (fun u => ksum N1 (fun v => kb (digit 2 ns i (at1 v) =? 1)%nat *c real (r * (G (at1 u) (at1 v) * G (at1 u) (at1 v))))) = ksum N1 (fun u => ksum N1 (fun v => kb (digit 2 ns i (at1 u) =? 1)%nat *c real (r * (G (at1 u) (at1 v) * G (at1 u) (at1 v)))))).
    { rewrite (ksum_swap N1 N1). apply ksum_ext. intros u Hu. apply ksum_ext. intros v Hv. rewrite (GS (at1 v) (at1 u)). reflexivity. }
    rewrite SW.
    ring.
  Qed.
End Run.
