(** Fermions that attract each other: correlations of the ground state. *)
From Coq Require Import List Arith Lia Reals Lra ZArith QArith Qabs Bool Permutation Classical.
From Verif Require Import Scalars Res Matrix Sums SqMat SpecMat SpecFock OpsProofs FockProofs FermiOps ModelBase ModelFermions ModelSpins SpecSpins Digits SpinOps SpinAlg SpinSwap SpinJordan HamProofs FermiApi SpecPerm
  ModelGeometry ModelPhase ModelSymmetry SymBase ModelThermal SpecThermal ThermalBase ThermalFacts ThermalBasis Spectral Thermo SpecHeat SpecConvex Convex SpecSigns Signs SignsHeat SignsSpins SpecSectors Perron Sectors HopSigns SpecShells Shells ShellsRun SpecLieb Halves Lieb LiebRun LiebSpin.
From Verif Require Import FreeThermal.
Import ListNotations.
Local Open Scope R_scope.

Section Full.
  Variables (g : fgeom CR) (ts : nat -> nat -> nat -> CR) (us : nat -> CR) (same : nat -> nat -> nat -> CR) (mus : nat -> CR) (pot : nat -> nat -> CR) (pr : mat CR).
  Notation f := (pairsys g ts us same mus pot pr).
  Notation ns := (fg_nsites g).
  Notation B := (2 ^ ns)%nat.
  Notation D := (2 ^ (ns * 2))%nat.
  Notation gl x y := (glue ns x y).
  (** A particle of one species that moves from [j] to [i], on glued states. *)
  Definition moves (i j x x' : nat) : R :=
    if agree_off 2 ns [i; j] x x' && ((digit 2 ns i x =? 1) && (digit 2 ns j x =? 0) && (digit 2 ns i x' =? 0) && (digit 2 ns j x' =? 1))%nat then fst (ksign (K:=CR) (between ns i j x)) else 0.
  Lemma sign_real k : ksign (K:=CR) k = real (fst (ksign (K:=CR) k)). Proof using. apply real_of, snd_ksign. Qed.
  Lemma moves_hi i j x y x' y' : i <> j -> (i < ns)%nat -> (j < ns)%nat -> (x < B)%nat -> (y < B)%nat -> (x' < B)%nat -> (y' < B)%nat ->
    smul (N:=D) (Cd (ns * 2) i) (Ca (ns * 2) j) (gl x y) (gl x' y') = real (moves i j x x') *c kb (y =? y')%nat.
  Proof using ts us same mus pot pr.
    intros NE Hi Hj Hx Hy Hx' Hy'. pose proof (one_way f i j (gl x y) (gl x' y')) as W. cbn [f_geom f_nspecies pairsys] in W. rewrite W by (try (apply glue_lt; assumption); lia).
    rewrite agree_hi, between_hi, !digit_hi by assumption. unfold moves. destruct (y =? y')%nat; cbn [kb]; rewrite ?andb_true_r, ?andb_false_r; [|cbn [andb]; apply injective_projections; cbn; ring].
    rewrite sign_real. match goal with |- context [if ?c then _ else _] => destruct c end; apply injective_projections; cbn; ring.
  Qed.
  Lemma moves_lo i j x y x' y' : i <> j -> (i < ns)%nat -> (j < ns)%nat -> (x < B)%nat -> (y < B)%nat -> (x' < B)%nat -> (y' < B)%nat ->
    smul (N:=D) (Cd (ns * 2) (ns + i)) (Ca (ns * 2) (ns + j)) (gl x y) (gl x' y') = kb (x =? x')%nat *c real (moves i j y y').
  Proof using ts us same mus pot pr.
    intros NE Hi Hj Hx Hy Hx' Hy'. pose proof (one_way f (ns + i) (ns + j) (gl x y) (gl x' y')) as W. cbn [f_geom f_nspecies pairsys] in W. rewrite W by (try (apply glue_lt; assumption); lia).
    rewrite agree_lo, between_lo, !digit_lo by assumption. unfold moves. destruct (x =? x')%nat; cbn [kb]; rewrite ?andb_true_r, ?andb_false_r; [|cbn [andb]; apply injective_projections; cbn; ring].
    rewrite sign_real. match goal with |- context [if ?c then _ else _] => destruct c end; apply injective_projections; cbn; ring.
  Qed.
  Lemma sum_glue (X : nat -> CR) : ksum D X = ksum B (fun x => ksum B (fun y => X (gl x y))).
  Proof using.
    replace D with (B * B)%nat by (rewrite <- Nat.pow_add_r; f_equal; lia). unfold glue. generalize B as b. intros b. generalize b at 1 3 as n. intros n. induction n as [|n IH]; [reflexivity|].
    cbn [ksum]. rewrite <- IH. replace (S n * b)%nat with (n * b + b)%nat by lia. clear. induction b as [|k IH] at 2 4; [rewrite Nat.add_0_r; cbn; apply injective_projections; cbn; ring|].
    rewrite Nat.add_succ_r. cbn [ksum]. rewrite IH. apply injective_projections; cbn; ring.
  Qed.
  Lemma moves_both i j x y x' y' : i <> j -> (i < ns)%nat -> (j < ns)%nat -> (x < B)%nat -> (y < B)%nat -> (x' < B)%nat -> (y' < B)%nat ->
    smul (N:=D) (smul (N:=D) (Cd (ns * 2) i) (Ca (ns * 2) j)) (smul (N:=D) (Cd (ns * 2) (ns + i)) (Ca (ns * 2) (ns + j))) (gl x y) (gl x' y') = real (moves i j x x') *c real (moves i j y y').
  Proof using ts us same mus pot pr.
    intros NE Hi Hj Hx Hy Hx' Hy'. unfold smul at 1. rewrite sum_glue. rewrite (ksum_single B x' _ Hx').
    - rewrite (ksum_single B y _ Hy).
      + rewrite moves_hi, moves_lo by assumption. rewrite !Nat.eqb_refl. cbn [kb]. ring.
      + intros w Hw Nw. rewrite moves_hi by assumption. rewrite (proj2 (Nat.eqb_neq y w)) by auto. cbn [kb]. ring.
    - intros w Hw Nw. apply ksum_zero. intros v Hv. rewrite moves_lo by assumption. rewrite (proj2 (Nat.eqb_neq w x') Nw). cbn [kb]. ring.
  Qed.

  Variables (M : nat) (P : mat CR) (idx : list nat) (H V : mat CR) (E : list R).
  Hypothesis att : attracting f.
  Hypothesis conn : connected_hops f.
  Hypothesis sec : shell ns 2 [M; M] P idx.
  Hypothesis made : createH f (Some P) = Ok H.
  Hypothesis basis : eigenbasis H V E.
  Variable e : R.
  Hypothesis sm : smallest e E.
  Notation N := (length idx).
  Notation at_ p := (nth p idx 0%nat).
  Notation N1 := (length (idx1 g M)).
  Notation at1 u := (nth u (idx1 g M) 0%nat).
  Notation pos u v := (pos g M idx u v).
  Theorem corr_sign O (A : nat -> nat -> R) psi :
    (forall u v u' v', (u < N1)%nat -> (v < N1)%nat -> (u' < N1)%nat -> (v' < N1)%nat -> ent O (pos u v) (pos u' v') = real (A u u') *c real (A v v')) ->
    state_of N H e psi -> 0 <= expect N O psi.
  Proof using att conn sec made basis sm.
    intros EO ST. destruct (lieb_matrix g ts us same mus pot pr M P idx H V E att conn sec made basis e sm) as (G & SG & DG & _ & UG). destruct (UG _ ST) as (z & Qz).
    assert (PS : forall u v, (u < N1)%nat -> (v < N1)%nat -> psi (pos u v) = z *c real (G u v)).
    { intros u v Hu Hv. rewrite Qz by (apply (pos_spec g M P idx sec); assumption). rewrite (hi_pos g M P idx sec), (lo_pos g M P idx sec) by assumption. reflexivity. }
    pose proof (trace_sign N1 (fun u v => real (G u v)) A) as T. cbn beta in T.
    assert (HG : hermi N1 (fun u v => real (G u v))) by (intros u v Hu Hv; rewrite real_conj, SG by assumption; reflexivity).
    specialize (T HG DG). set (S := ksum N1 _) in T.
    replace (expect N O psi) with ((fst z * fst z + snd z * snd z) * fst S); [apply Rmult_le_pos; [nra | exact T]|].
    unfold expect. rewrite (inner_pairs g M P idx sec). rewrite <- fst_real, <- conj_real. f_equal. unfold S. rewrite <- ksum_mul_l. apply ksum_ext. intros u Hu. rewrite <- ksum_mul_l. apply ksum_ext. intros v Hv.
    rewrite PS by assumption. unfold apply. rewrite (sum_pairs g M P idx sec).
    transitivity (conj (z *c real (G u v)) *c (z *c ksum N1 (fun x' => ksum N1 (fun y' => real (A u x') *c real (A v y') *c real (G x' y'))))).
    { rewrite kconj_mul. ring. }
    f_equal. rewrite <- ksum_mul_l. apply ksum_ext. intros u' Hu'. rewrite <- ksum_mul_l. apply ksum_ext. intros v' Hv'. rewrite EO, PS by assumption. ring.
  Qed.
  Lemma sandwich_at A O u v u' v' : square D A -> sandwich P A = Ok O -> (u < N1)%nat -> (v < N1)%nat -> (u' < N1)%nat -> (v' < N1)%nat -> ent O (pos u v) (pos u' v') = ent A (gl (at1 u) (at1 v)) (gl (at1 u') (at1 v')).
  Proof using sec.
    intros SA EO Hu Hv Hu' Hv'. destruct sec as (R & _ & I). destruct (sandwich_ok D P A (proj1 (proj2 R)) SA) as (O' & EO' & _ & VO). rewrite EO in EO'. injection EO' as <-. rewrite VO.
    destruct (pos_spec g M P idx sec u v Hu Hv) as (L1 & Q1). destruct (pos_spec g M P idx sec u' v' Hu' Hv') as (L2 & Q2).
    rewrite (sand_rows D P idx (ent A) _ _ R) by (try assumption; intros k Hk; apply (proj1 (I k) Hk)). rewrite Q1, Q2. reflexivity.
  Qed.
  Theorem pair_corr i j A0 A1 O psi : i <> j -> (i < ns)%nat -> (j < ns)%nat ->
    two_site_op (f_sys f) i 0 j 0 cdag_op c_op Fermion = Ok A0 -> two_site_op (f_sys f) i 1 j 1 cdag_op c_op Fermion = Ok A1 -> sandwich P (mmul A0 A1) = Ok O -> state_of N H e psi -> 0 <= expect N O psi.
  Proof using att conn sec made basis sm.
    intros NE Hi Hj E0 E1 EO. apply (corr_sign O (fun u v => moves i j (at1 u) (at1 v))). intros u v u' v' Hu Hv Hu' Hv'.
    destruct (two_ok (f_sys f) i 0 j 0 cdag_op c_op Fermion (f_two f) ltac:(discriminate) Hi ltac:(cbn; lia) Hj ltac:(cbn; lia) (sq2 _ _ _ _) (sq2 _ _ _ _)) as (A' & E' & S0 & V0). rewrite E0 in E'. injection E' as <-.
    destruct (two_ok (f_sys f) i 1 j 1 cdag_op c_op Fermion (f_two f) ltac:(discriminate) Hi ltac:(cbn; lia) Hj ltac:(cbn; lia) (sq2 _ _ _ _) (sq2 _ _ _ _)) as (A' & E' & S1 & V1). rewrite E1 in E'. injection E' as <-.
    change (nlog (f_sys f)) with (ns * 2)%nat in *. change (lsite (f_sys f) i 0) with (ns * 0 + i)%nat in *. change (lsite (f_sys f) j 0) with (ns * 0 + j)%nat in *. change (lsite (f_sys f) i 1) with (ns * 1 + i)%nat in *. change (lsite (f_sys f) j 1) with (ns * 1 + j)%nat in *.
    rewrite Nat.mul_0_r, !Nat.add_0_l in V0. rewrite Nat.mul_1_r in V1.
    assert (SM : square D (mmul A0 A1)) by (split; cbn; [apply S0 | apply S1]).
    rewrite (sandwich_at _ _ _ _ _ _ SM EO Hu Hv Hu' Hv').
    assert (GD : forall a b, (a < N1)%nat -> (b < N1)%nat -> (gl (at1 a) (at1 b) < D)%nat) by (intros; apply glue_lt; apply at1_lt; assumption).
    rewrite (ent_mul D) by assumption. rewrite <- moves_both by (try assumption; apply at1_lt; assumption).
    apply smul_proper; try assumption; apply GD; assumption.
  Qed.
  Theorem density_corr (w : nat -> R) (O : nat -> nat -> mat CR) psi :
    (forall i j, (i < ns)%nat -> (j < ns)%nat -> exists A, two_site_op (f_sys f) i 0 j 1 n_op n_op Boson = Ok A /\ sandwich P A = Ok (O i j)) -> state_of N H e psi ->
    0 <= total (fun i => total (fun j => w i * w j * expect N (O i j) psi) (seq 0 ns)) (seq 0 ns).
  Proof using att conn sec made basis sm.
    intros EO ST. set (X := Mat N N (fun p q => ksum ns (fun i => ksum ns (fun j => real (w i * w j) *c ent (O i j) p q)))).
    replace (total _ _) with (expect N X psi).
    - apply (corr_sign X (fun u u' => if (u =? u')%nat then rsum ns (fun i => w i * (if (digit 2 ns i (at1 u) =? 1)%nat then 1 else 0)) else 0)); [|exact ST]. intros u v u' v' Hu Hv Hu' Hv'. unfold X. cbn [ent].
      assert (GD : forall a b, (a < N1)%nat -> (b < N1)%nat -> (gl (at1 a) (at1 b) < D)%nat) by (intros; apply glue_lt; apply at1_lt; assumption).
      assert (VO : forall i j, (i < ns)%nat -> (j < ns)%nat -> ent (O i j) (pos u v) (pos u' v') = kb ((u =? u')%nat && (v =? v')%nat) *c (kb (digit 2 ns i (at1 u) =? 1)%nat *c kb (digit 2 ns j (at1 v) =? 1)%nat)).
      { intros i j Hi Hj. destruct (EO i j Hi Hj) as (A & EA & ES).
        destruct (two_ok (f_sys f) i 0 j 1 n_op n_op Boson (f_two f) ltac:(discriminate) Hi ltac:(cbn; lia) Hj ltac:(cbn; lia) (sq2 _ _ _ _) (sq2 _ _ _ _)) as (A' & E' & S0 & V0). rewrite EA in E'. injection E' as <-.
        change (nlog (f_sys f)) with (ns * 2)%nat in *. change (lsite (f_sys f) i 0) with (ns * 0 + i)%nat in *. change (lsite (f_sys f) j 1) with (ns * 1 + j)%nat in *. rewrite Nat.mul_0_r, !Nat.add_0_l, Nat.mul_1_r in V0.
        rewrite (sandwich_at _ _ _ _ _ _ S0 ES Hu Hv Hu' Hv'). rewrite V0 by (apply GD; assumption). etransitivity; [apply NN_val; try lia; apply GD; assumption|].
        rewrite digit_hi, digit_lo, glue_eqb, !at1_eqb by (try assumption; apply at1_lt; assumption). reflexivity. }
      rewrite (ksum_ext ns _ (fun i => ksum ns (fun j => real (w i * w j) *c (kb ((u =? u')%nat && (v =? v')%nat) *c (kb (digit 2 ns i (at1 u) =? 1)%nat *c kb (digit 2 ns j (at1 v) =? 1)%nat))))) by (intros i Hi; apply ksum_ext; intros j Hj; rewrite VO by assumption; reflexivity).
      destruct (u =? u')%nat; cbn [andb kb].
      2:{ rewrite ksum_zero by (intros; apply ksum_zero; intros; ring). apply injective_projections; cbn; ring. }
      destruct (v =? v')%nat; cbn [andb kb].
      2:{ rewrite ksum_zero by (intros; apply ksum_zero; intros; ring). apply injective_projections; cbn; ring. }
      assert (RK : forall n h, real (rsum n h) = ksum n (fun i => real (h i))) by (intros n h; induction n as [|n IH]; [reflexivity|]; cbn [rsum ksum]; rewrite real_add, IH; reflexivity).
      rewrite !RK, <- ksum_mul_r. apply ksum_ext. intros i Hi. rewrite <- ksum_mul_l. apply ksum_ext. intros j Hj. rewrite !real_mul.
      destruct (digit 2 ns i (at1 u) =? 1)%nat, (digit 2 ns j (at1 v) =? 1)%nat; cbn [kb]; apply injective_projections; cbn; ring.
    - unfold expect, inner, apply, X. cbn [ent]. rewrite <- rsum_total.
      rewrite (rsum_ext2 ns _ (fun i => rsum ns (fun j => fst (real (w i * w j) *c ksum N (fun p => conj (psi p) *c ksum N (fun q => ent (O i j) p q *c psi q)))))).
      2:{ intros i Hi. rewrite <- rsum_total. apply rsum_ext2. intros j Hj. rewrite fst_real. reflexivity. }
      rewrite (rsum_ext2 ns _ (fun i => fst (ksum ns (fun j => real (w i * w j) *c ksum N (fun p => conj (psi p) *c ksum N (fun q => ent (O i j) p q *c psi q)))))) by (intros; rewrite fst_ksum; reflexivity).
      rewrite <- fst_ksum. f_equal.
      transitivity (ksum N (fun p => ksum ns (fun i => ksum ns (fun j => real (w i * w j) *c (conj (psi p) *c ksum N (fun q => ent (O i j) p q *c psi q)))))).
      + apply ksum_ext. intros p Hp. transitivity (conj (psi p) *c ksum ns (fun i => ksum ns (fun j => real (w i * w j) *c ksum N (fun q => ent (O i j) p q *c psi q)))).
        * f_equal. transitivity (ksum N (fun q => ksum ns (fun i => ksum ns (fun j => real (w i * w j) *c (ent (O i j) p q *c psi q))))).
          { apply ksum_ext. intros q Hq. rewrite <- ksum_mul_r. apply ksum_ext. intros i _. rewrite <- ksum_mul_r. apply ksum_ext. intros j _. ring. }
          rewrite ksum_swap. apply ksum_ext. intros i _. rewrite ksum_swap. apply ksum_ext. intros j _. apply ksum_mul_l.
        * rewrite <- ksum_mul_l. apply ksum_ext. intros i _. rewrite <- ksum_mul_l. apply ksum_ext. intros j _. ring.
      + rewrite ksum_swap. apply ksum_ext. intros i _. rewrite ksum_swap. apply ksum_ext. intros j _. apply ksum_mul_l.
  Qed.
End Full.
