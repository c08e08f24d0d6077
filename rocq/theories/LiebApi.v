(** Fermions that attract each other: the statements for the objects of the code. *)
From Coq Require Import List Arith Lia Reals Lra ZArith QArith Qabs Bool Permutation Classical.
From Verif Require Import Scalars Res Matrix Sums SqMat SpecMat SpecFock OpsProofs FockProofs FermiOps ModelBase ModelFermions ModelSpins SpecSpins Digits SpinOps SpinAlg SpinSwap SpinJordan HamProofs FermiApi SpecPerm
  ModelGeometry ModelPhase ModelSymmetry SymBase ModelThermal SpecThermal ThermalBase ThermalFacts ThermalBasis Spectral Thermo SpecHeat SpecConvex Convex SpecSigns Signs SignsHeat SignsSpins SpecSectors Perron Sectors HopSigns SpecShells Shells ShellsRun SpecLieb Halves Lieb LiebRun LiebSpin LiebCorr SpecHalf.
From Verif Require Import FreeThermal.
From Verif Require SpinRotate SpecSinglet.
Import ListNotations.
Local Open Scope R_scope.

Section Api.
  Variables (f : fermions CR) (M : nat) (P : mat CR) (idx : list nat) (H V : mat CR) (E : list R) (e : R).
  Notation ns := (fg_nsites (f_geom f)).
  Notation N := (length idx).
  Hypothesis att : attracting f.
  Hypothesis conn : connected_hops f.
  Hypothesis sec : shell ns 2 [M; M] P idx.
  Hypothesis made : createH f (Some P) = Ok H.
  Hypothesis basis : eigenbasis H V E.
  Hypothesis sm : smallest e E.
  Lemma as_pair : f = pairsys (f_geom f) (f_ts f) (f_us f) (f_same f) (f_mus f) (f_pot f) (f_proj f).
  Proof using att. clear - att. destruct f as [g m ts us same mus pot pr]. destruct att as (Q & _). cbn in Q. subst m. reflexivity. Qed.
  Theorem pair_unique k j : (k < length E)%nat -> (j < length E)%nat -> nth k E 0 = e -> nth j E 0 = e -> k = j.
  Proof using All.
    pose proof as_pair as Q. revert att conn sec made. rewrite Q. cbn [f_geom pairsys]. intros att' conn' sec' made'.
    exact (lieb_unique _ _ _ _ _ _ _ M P idx H V E att' conn' sec' made' basis e sm k j).
  Qed.
  Notation l1 := (idx1 (f_geom f) M).
  Notation N1 := (length l1).
  Notation at1 u := (nth u l1 0%nat).
  Lemma sum_few (Y : nat -> CR) : ksum N1 (fun u => Y (at1 u)) = ksum (2 ^ ns) (fun x => if few (f_geom f) M x then Y x else c0).
  Proof using.
    unfold idx1. rewrite <- (klsum_seq (2 ^ ns)), <- klsum_filter. generalize (filter (few (f_geom f) M) (seq 0 (2 ^ ns))) as k. clear. intros k. induction k as [|a k IH] using rev_ind; [reflexivity|].
    rewrite app_length. cbn [length]. rewrite Nat.add_1_r. cbn [ksum]. rewrite app_nth2, Nat.sub_diag by lia. cbn [nth]. rewrite klsum_app. cbn [klsum]. rewrite <- IH.
    rewrite (ksum_ext (length k) _ (fun u => Y (nth u k 0%nat))) by (intros u Hu; rewrite app_nth1 by exact Hu; reflexivity). apply injective_projections; cbn; ring.
  Qed.
  Theorem pair_state : exists G : nat -> nat -> R,
    (forall x y, G x y = G y x) /\
    (forall w : nat -> CR, (exists x, config ns M x /\ w x <> c0) -> 0 < fst (ksum (2 ^ ns) (fun x => ksum (2 ^ ns) (fun y => conj (w x) *c (real (G x y) *c w y))))) /\
    (forall psi, state_of N H e psi <-> exists z, forall p, (p < N)%nat -> psi p = z *c real (G (nth p idx 0 / 2 ^ ns)%nat (nth p idx 0 mod 2 ^ ns)%nat)).
  Proof using All.
    assert (LM : exists G : nat -> nat -> R,
      (forall u v, (u < N1)%nat -> (v < N1)%nat -> G u v = G v u) /\ definite N1 1 (fun u v => real (G u v)) /\
      state_of N H e (fun p => real (G (hi (f_geom f) M idx p) (lo (f_geom f) M idx p))) /\
      (forall psi, state_of N H e psi -> exists z, forall p, (p < N)%nat -> psi p = z *c real (G (hi (f_geom f) M idx p) (lo (f_geom f) M idx p)))).
    { pose proof as_pair as Q. revert att conn sec made. rewrite Q. cbn [f_geom pairsys]. intros att' conn' sec' made'. exact (lieb_matrix _ _ _ _ _ _ _ M P idx H V E att' conn' sec' made' basis e sm). }
    destruct LM as (G & SG & DG & EG & UG).
    assert (FI : forall x, (x < 2 ^ ns)%nat -> few (f_geom f) M x = true -> In x l1) by (intros x Hx Fx; apply filter_In; split; [apply in_seq; lia | exact Fx]).
    set (G2 := fun x y => if (x <? 2 ^ ns)%nat && (y <? 2 ^ ns)%nat && few (f_geom f) M x && few (f_geom f) M y then G (posn l1 x) (posn l1 y) else 0).
    assert (AT : forall u v, (u < N1)%nat -> (v < N1)%nat -> G2 (at1 u) (at1 v) = G u v).
    { intros u v Hu Hv. unfold G2. assert (KI : forall u, (u < N1)%nat -> (at1 u <? 2 ^ ns)%nat = true /\ few (f_geom f) M (at1 u) = true).
      { intros c Hc. pose proof (nth_In l1 0%nat Hc) as I. apply filter_In in I as (I & Fi). apply in_seq in I. split; [apply Nat.ltb_lt; lia | exact Fi]. }
      destruct (KI u Hu) as (-> & ->), (KI v Hv) as (-> & ->). cbn [andb]. rewrite !posn_nth by (assumption || apply idx1_nodup). reflexivity. }
    assert (HL : forall p, (p < N)%nat -> G2 (nth p idx 0 / 2 ^ ns)%nat (nth p idx 0 mod 2 ^ ns)%nat = G (hi (f_geom f) M idx p) (lo (f_geom f) M idx p)).
    { intros p Hp. destruct (hi_spec (f_geom f) M P idx sec p Hp) as (L1 & <-). destruct (lo_spec (f_geom f) M P idx sec p Hp) as (L2 & <-). apply AT; assumption. }
    exists G2. split; [|split].
    - intros x y. unfold G2. destruct (Nat.ltb_spec x (2 ^ ns)) as [Hx|], (Nat.ltb_spec y (2 ^ ns)) as [Hy|]; cbn [andb]; try reflexivity.
      destruct (few (f_geom f) M x) eqn:Fx, (few (f_geom f) M y) eqn:Fy; cbn [andb]; try reflexivity. apply SG; apply posn_spec; apply FI; assumption.
    - intros w (x & Cx & Wx). apply (idx1_in (f_geom f) M) in Cx. destruct (In_nth l1 x 0%nat Cx) as (c & Hc & <-). pose proof (DG (fun u => w (at1 u)) c Hc Wx) as Q. rewrite Rmult_1_l in Q.
      replace (fst _) with (fst (form N1 (fun u v => real (G u v)) (fun u => w (at1 u)))); [exact Q|]. f_equal. unfold form.
      transitivity (ksum N1 (fun u => ksum N1 (fun v => conj (w (at1 u)) *c (real (G2 (at1 u) (at1 v)) *c w (at1 v))))).
      + apply ksum_ext. intros u Hu. rewrite <- ksum_mul_l. apply ksum_ext. intros v Hv. rewrite AT by assumption. reflexivity.
      + rewrite (sum_few (fun x => ksum N1 (fun v => conj (w x) *c (real (G2 x (at1 v)) *c w (at1 v))))). apply ksum_ext. intros y Hy. destruct (few (f_geom f) M y) eqn:Fy.
        * rewrite (sum_few (fun z => conj (w y) *c (real (G2 y z) *c w z))). apply ksum_ext. intros z Hz. destruct (few (f_geom f) M z) eqn:Fz; [reflexivity|]. unfold G2. rewrite Fz, andb_false_r. apply injective_projections; cbn; ring.
        * symmetry. apply ksum_zero. intros z Hz. unfold G2. rewrite Fy, andb_false_r, andb_false_l. apply injective_projections; cbn; ring.
    - intros psi. split.
      + intros ST. destruct (UG psi ST) as (z & Q). exists z. intros p Hp. rewrite HL by exact Hp. apply Q, Hp.
      + intros (z & Q) p Hp. rewrite (Q p Hp). transitivity (z *c apply N H (fun p => real (G (hi (f_geom f) M idx p) (lo (f_geom f) M idx p))) p).
        * unfold apply. rewrite <- ksum_mul_l. apply ksum_ext. intros q Hq. rewrite (Q q Hq), HL by exact Hq. ring.
        * rewrite (EG p Hp), HL by exact Hp. ring.
  Qed.
  Theorem pair_pairs i j A0 A1 O psi : i <> j -> (i < ns)%nat -> (j < ns)%nat ->
    two_site_op (f_sys f) i 0 j 0 cdag_op c_op Fermion = Ok A0 -> two_site_op (f_sys f) i 1 j 1 cdag_op c_op Fermion = Ok A1 -> sandwich P (mmul A0 A1) = Ok O -> state_of N H e psi -> 0 <= expect N O psi.
  Proof using All.
    pose proof as_pair as Q. revert att conn sec made. rewrite Q. cbn [f_geom pairsys]. intros att' conn' sec' made'. exact (pair_corr _ _ _ _ _ _ _ M P idx H V E att' conn' sec' made' basis e sm i j A0 A1 O psi).
  Qed.
  Theorem pair_densities (w : nat -> R) (O : nat -> nat -> mat CR) psi :
    (forall i j, (i < ns)%nat -> (j < ns)%nat -> exists A, two_site_op (f_sys f) i 0 j 1 n_op n_op Boson = Ok A /\ sandwich P A = Ok (O i j)) -> state_of N H e psi ->
    0 <= total (fun i => total (fun j => w i * w j * expect N (O i j) psi) (seq 0 ns)) (seq 0 ns).
  Proof using All.
    pose proof as_pair as Q. revert att conn sec made. rewrite Q. cbn [f_geom pairsys]. intros att' conn' sec' made'. exact (density_corr _ _ _ _ _ _ _ M P idx H V E att' conn' sec' made' basis e sm w O psi).
  Qed.
  Theorem pair_singlet (A : nat -> mat CR) psi : spin_symmetric f -> (forall i, (i < ns)%nat -> two_site_op (f_sys f) i 0 i 1 cdag_op c_op Fermion = Ok (A i)) -> state_of N H e psi ->
    forall a, (a < 2 ^ (ns * 2))%nat -> ksum ns (fun i => apply (2 ^ (ns * 2)) (A i) (SpecSinglet.spread idx psi) a) = c0 /\ ksum ns (fun i => apply (2 ^ (ns * 2)) (madj (A i)) (SpecSinglet.spread idx psi) a) = c0.
  Proof using All.
    pose proof as_pair as Q. revert att conn sec made. rewrite Q. cbn [f_geom pairsys]. intros att' conn' sec' made' sy EA ST a Ha.
    set (g := f_geom f) in *. set (D := (2 ^ (fg_nsites g * 2))%nat) in *. match type of sy with spin_symmetric ?F => set (f' := F) in * end.
    assert (VA : forall i x y, (i < fg_nsites g)%nat -> (x < D)%nat -> (y < D)%nat -> ent (A i) x y = SpinRotate.raise f' i x y).
    { intros i x y Hi Hx Hy. destruct (two_ok (f_sys f') i 0 i 1 cdag_op c_op Fermion (f_two f') ltac:(discriminate) Hi ltac:(cbn; lia) Hi ltac:(cbn; lia) (sq2 _ _ _ _) (sq2 _ _ _ _)) as (A' & E' & S0 & V0). rewrite (EA i Hi) in E'. injection E' as <-. exact (V0 x y Hx Hy). }
    assert (SV : forall x y, (x < D)%nat -> (y < D)%nat -> SpinRotate.SP f' x y = ksum (fg_nsites g) (fun i => ent (A i) x y)).
    { intros x y Hx Hy. unfold SpinRotate.SP. apply ksum_ext. intros i Hi. symmetry. apply VA; assumption. }
    pose proof (raise_kills _ _ _ _ _ _ _ att' M P idx H V E conn' sec' made' basis e sm sy psi ST a Ha) as R1.
    pose proof (lower_kills _ _ _ _ _ _ _ att' M P idx H V E conn' sec' made' basis e sm sy psi ST a Ha) as R2. fold g in R1, R2. fold f' in R1, R2. fold D in R1, R2. split.
    - rewrite <- R1. unfold apply. rewrite ksum_swap. apply ksum_ext. intros b Hb. rewrite SV by assumption. apply ksum_mul_r.
    - rewrite <- R2. unfold apply. rewrite ksum_swap. apply ksum_ext. intros b Hb. rewrite SV by assumption. rewrite ksum_conj. cbn [madj ent]. apply ksum_mul_r.
  Qed.
End Api.
