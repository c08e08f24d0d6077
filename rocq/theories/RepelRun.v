(** Fermions that repel each other: ground states with as many particles as sites. *)
From Coq Require Import List Arith Lia Reals Lra ZArith QArith Qabs Bool Permutation.
From Verif Require Import Scalars Res Matrix Sums SqMat SpecMat SpecFock OpsProofs FockProofs FermiOps ModelBase ModelFermions ModelSpins SpecSpins Digits SpinOps SpinAlg SpinSwap SpinJordan HamProofs FermiApi SpecPerm
  ModelGeometry ModelPhase ModelSymmetry SymBase ModelThermal SpecThermal ThermalBase ThermalFacts ThermalBasis Spectral Thermo SpecHeat SpecConvex Convex SpecSigns Signs SignsHeat SignsSpins SpecSectors Perron Sectors HopSigns SpecShells Shells ShellsRun SpecLieb Halves Lieb LiebRun LiebApi SpecRepel Repel.
Import ListNotations.
Local Open Scope R_scope.

Section Run.
  Variables (part : nat -> bool) (g : fgeom CR) (ts : nat -> nat -> nat -> CR) (us : nat -> CR) (same : nat -> nat -> nat -> CR) (mus : nat -> CR) (pot : nat -> nat -> CR) (pr : mat CR).
  Notation f := (pairsys g ts us same mus pot pr).
  Notation f' := (opp g ts us same mus pot pr).
  Notation ns := (fg_nsites g).
  Notation B := (2 ^ ns)%nat.
  Notation D := (2 ^ (ns * 2))%nat.
  Notation gl x y := (glue ns x y).
  Notation cm y := (holes ns y).
  Notation ph y := (hole_sign part ns y).
  Notation F := (HS2 f (amplitude f)).
  Notation F' := (HS2 f' (amplitude f')).
  Hypothesis rep : repelling part f.
  Hypothesis conn : connected_hops f.
  Lemma opp_att : attracting f'.
  Proof using rep.
    destruct rep as (_ & AM & SM & MM & (c & PU)). split; [reflexivity|]. split; [|split; [|split; [|split]]].
    - intros i j Hij. destruct (AM i j Hij) as (t & A0 & A1 & _). exists t. split; [exact A0 | exact A1].
    - intros i j Hij. destruct (SM i j Hij) as (S0 & S1). exists 0. split; [exact S0 | exact S1].
    - exact MM.
    - intros i Hi. destruct (PU i Hi) as (v & u & V0 & V1 & U0 & _). cbn [f_pot f_us opp pairsys] in *. exists (v + u). rewrite V0, V1, U0. split; apply injective_projections; cbn; ring.
    - intros i Hi. destruct (PU i Hi) as (v & u & V0 & V1 & U0 & UP & _). cbn [f_pot f_us opp pairsys] in *. exists (- u). rewrite U0. split; [apply injective_projections; cbn; ring | lra].
  Qed.
  Lemma opp_conn : connected_hops f'.
  Proof using conn.
    intros s i j Hs Hi Hj. pose proof (conn s i j Hs Hi Hj) as L. induction L as [|j k L IH Hj' Hk HP]; [constructor|]. apply (hop_next f' s i j k); [apply IH; assumption | assumption | assumption | exact HP].
  Qed.

  Variables (M : nat) (P : mat CR) (idx : list nat) (H V : mat CR) (E : list R).
  Hypothesis Mn : (M <= ns)%nat.
  Hypothesis sec : shell ns 2 [M; ns - M]%nat P idx.
  Hypothesis made : createH f (Some P) = Ok H.
  Notation N := (length idx).
  Notation at_ p := (nth p idx 0%nat).
  (** The corresponding configurations of the other system. *)
  Definition turn (a : nat) : nat := gl (a / B) (cm (a mod B)).
  Definition idx' : list nat := map turn idx.
  Notation at' p := (nth p idx' 0%nat).
  Definition P' : mat CR := Mat N D (fun i j => if (nth i idx' 0 =? j)%nat then k1 else k0).
  Lemma turn_lt a : (a < D)%nat -> (turn a < D)%nat.
  Proof using. intros Ha. destruct (glue_split ns a Ha) as (L1 & L2 & _). apply glue_lt; [exact L1 | apply holes_lt]. Qed.
  Lemma turn_turn a : (a < D)%nat -> turn (turn a) = a.
  Proof using.
    intros Ha. destruct (glue_split ns a Ha) as (L1 & L2 & Q). unfold turn. rewrite glue_hi, glue_lo by apply holes_lt. rewrite holes_holes by exact L2. exact Q.
  Qed.
  Lemma idx_D a : In a idx -> (a < D)%nat. Proof using sec. intros I. apply sec in I. apply I. Qed.
  Lemma at_D p : (p < N)%nat -> (at_ p < D)%nat. Proof using sec. intros Hp. apply idx_D, nth_In, Hp. Qed.
  Lemma len' : length idx' = N. Proof using. apply map_length. Qed.
  Lemma at_turn p : (p < N)%nat -> at' p = turn (at_ p).
  Proof using. intros Hp. unfold idx'. rewrite (nth_indep _ 0%nat (turn 0)) by (rewrite map_length; exact Hp). apply map_nth. Qed.
  Lemma at_halves p : (p < N)%nat -> config ns M (at_ p / B) /\ config ns (ns - M) (at_ p mod B) /\ gl (at_ p / B) (at_ p mod B) = at_ p.
  Proof using sec.
    clear Mn. intros Hp. pose proof (nth_In idx 0%nat Hp) as I. apply sec in I as (L & C). destruct (glue_split ns _ L) as (L1 & L2 & Q). split; [|split; [|exact Q]].
    - split; [exact L1|]. rewrite <- (species_hi g _ _ L1 L2), Q. exact (C 0%nat ltac:(lia)).
    - split; [exact L2|]. rewrite <- (species_lo g _ _ L1 L2), Q. exact (C 1%nat ltac:(lia)).
  Qed.
  Lemma sec' : shell ns 2 [M; M] P' idx'.
  Proof using sec Mn.
    split; [|split].
    - split; [symmetry; apply len'|]. split; [reflexivity|]. intros i j _ _. reflexivity.
    - apply NoDup_nth with (d := 0%nat). intros i j Hi Hj Q. rewrite len' in Hi, Hj. rewrite !at_turn in Q by assumption. apply (f_equal turn) in Q. rewrite !turn_turn in Q by (apply at_D; assumption).
      apply (proj1 (NoDup_nth idx 0%nat) (proj1 (proj2 sec))); assumption.
    - intros a. split.
      + intros I. apply in_map_iff in I as (b & <- & I). pose proof (idx_D b I) as Hb. split; [apply turn_lt, Hb|]. apply sec in I as (_ & C). destruct (glue_split ns b Hb) as (L1 & L2 & Q).
        intros s Hs. pose proof (holes_lt ns (b mod B)) as L3. destruct s as [|[|s]]; [| |lia].
        * unfold turn. rewrite (species_hi g _ _ L1 L3), <- (species_hi g _ _ L1 L2), Q. exact (C 0%nat ltac:(lia)).
        * unfold turn. rewrite (species_lo g _ _ L1 L3). specialize (C 1%nat ltac:(lia)). rewrite <- Q, (species_lo g _ _ L1 L2) in C. destruct (holes_config ns (ns - M) (b mod B) L2 (ltac:(split; [exact L2 | exact C]))) as (_ & C'). rewrite C'. cbn. lia.
      + intros (Ha & C). apply in_map_iff. exists (turn a). split; [apply turn_turn, Ha|]. apply sec. split; [apply turn_lt, Ha|]. destruct (glue_split ns a Ha) as (L1 & L2 & Q).
        intros s Hs. pose proof (holes_lt ns (a mod B)) as L3. destruct s as [|[|s]]; [| |lia].
        * unfold turn. rewrite (species_hi g _ _ L1 L3), <- (species_hi g _ _ L1 L2), Q. exact (C 0%nat ltac:(lia)).
        * unfold turn. rewrite (species_lo g _ _ L1 L3). specialize (C 1%nat ltac:(lia)). rewrite <- Q, (species_lo g _ _ L1 L2) in C. destruct (holes_config ns M (a mod B) L2 (ltac:(split; [exact L2 | exact C]))) as (_ & C'). rewrite C'. reflexivity.
  Qed.
  Definition sg (p : nat) : R := ph (cm (at_ p mod B)).
  Lemma sg_sq p : sg p * sg p = 1. Proof using. apply ph_sq. Qed.
  Lemma ent_turn : exists w H', createH f' (Some P') = Ok H' /\ nrow H' = N /\ ncol H' = N /\
    forall p q, (p < N)%nat -> (q < N)%nat -> ent H' p q = real (sg p * sg q) *c ent H p q -c kb (p =? q)%nat *c real w.
  Proof using rep sec made Mn.
    destruct (turn_ham part g ts us same mus pot pr rep M) as (w & W).
    assert (US : us_ok f) by (left; cbn; lia). assert (US' : us_ok f') by (left; cbn; lia).
    destruct (createH_ok f' (Some P') eq_refl US') as (H' & E' & _). exists w, H'. split; [exact E'|].
    destruct (shell_ent f [M; ns - M]%nat P idx H sec US made) as (R1 & R2 & R3). destruct (shell_ent f' [M; M] P' idx' H' sec' US' E') as (R1' & R2' & R3'). rewrite len' in R1', R2', R3'.
    split; [exact R1'|]. split; [exact R2'|]. intros p q Hp Hq. rewrite R3, R3' by assumption.
    destruct (at_halves p Hp) as (Xp & Yp & Qp). destruct (at_halves q Hq) as (Xq & Yq & Qq).
    assert (CF : forall y, config ns (ns - M) y -> config ns M (cm y)) by (intros y C; pose proof (holes_config ns (ns - M) y (proj1 C) C) as C'; replace (ns - (ns - M))%nat with M in C' by lia; exact C').
    pose proof (W (at_ p / B) (cm (at_ p mod B)) (at_ q / B) (cm (at_ q mod B)) (proj1 Xp) (CF _ Yp) (proj1 Xq) (CF _ Yq))%nat as Z. rewrite !holes_holes, Qp, Qq in Z by (apply Yp || apply Yq).
    rewrite !at_turn by assumption. unfold turn. fold (sg p) (sg q) in Z. rewrite Z.
    assert (EQ : kb (p =? q)%nat = kb (at_ p / B =? at_ q / B)%nat *c kb (cm (at_ p mod B) =? cm (at_ q mod B))%nat :> CR).
    { rewrite holes_eqb by (apply Yp || apply Yq). destruct (Nat.eqb_spec p q) as [->|NE]; [rewrite !Nat.eqb_refl; cbn; apply injective_projections; cbn; ring|].
      destruct (Nat.eqb_spec (at_ p / B) (at_ q / B)) as [Q1|]; [|cbn; apply injective_projections; cbn; ring]. destruct (Nat.eqb_spec (at_ p mod B) (at_ q mod B)) as [Q2|]; [|cbn; apply injective_projections; cbn; ring].
      exfalso. apply NE. apply (proj1 (NoDup_nth idx 0%nat) (proj1 (proj2 sec)) p q Hp Hq). rewrite <- Qp, <- Qq, Q1, Q2. reflexivity. }
    rewrite EQ. ring.
  Qed.
  Hypothesis basis : eigenbasis H V E.
  Lemma rowsV : nrow V = N.
  Proof using sec made basis. exact (shell_rows f [M; ns - M]%nat P idx H V E (or_introl (le_n 2)) sec made basis). Qed.
  (** Everything about the other system. *)
  Theorem turned : exists w H' V', createH f' (Some P') = Ok H' /\ eigenbasis H' V' (map (fun x => x - w) E) /\ nrow H' = N /\ ncol H' = N /\
    (forall p q, (p < N)%nat -> (q < N)%nat -> ent H' p q = real (sg p * sg q) *c ent H p q -c kb (p =? q)%nat *c real w).
  Proof using rep sec made Mn basis.
    destruct ent_turn as (w & H' & E' & R1 & R2 & W). exists w, H', (Mat N (length E) (fun p k => real (sg p) *c ent V p k)). pose proof rowsV as RV. destruct basis as ((CV & _ & _ & EV) & ON & CO).
    assert (IN : forall k psi, (k < length E)%nat -> inner N (col (Mat N (length E) (fun p k => real (sg p) *c ent V p k)) k) psi = inner N (col V k) (fun p => real (sg p) *c psi p)).
    { intros k psi Hk. unfold inner. apply ksum_ext. intros p Hp. unfold col. cbn [ent]. rewrite kconj_mul, real_conj. ring. }
    split; [exact E'|]. split; [|split; [exact R1|]; split; [exact R2 | exact W]]. split; [|split].
    - split; [cbn; rewrite map_length; reflexivity|]. split; [exact R1|]. split; [exact R2|]. cbn [nrow ncol]. intros p k Hp Hk.
      specialize (EV p k ltac:(lia) ltac:(lia)). rewrite RV in EV. unfold apply in *. unfold col in *. cbn [ent].
      assert (NW : nth k (map (fun x => x - w) E) 0 = nth k E 0 - w) by (rewrite (nth_indep _ 0 (0 - w)) by (rewrite map_length; exact Hk); exact (map_nth (fun x => x - w) E 0 k)). rewrite NW.
      rewrite (ksum_ext N _ (fun q => real (sg p) *c (ent H p q *c ent V q k) -c kb (p =? q)%nat *c real w *c (real (sg q) *c ent V q k))).
      2:{ intros q Hq. rewrite W by assumption. pose proof (sg_sq q) as S2. transitivity (real (sg p) *c (real (sg q * sg q) *c (ent H p q *c ent V q k)) -c kb (p =? q)%nat *c real w *c (real (sg q) *c ent V q k)); [apply injective_projections; cbn; ring|]. rewrite S2. apply injective_projections; cbn; ring. }
      rewrite ksum_minus, ksum_mul_l. change (fun q => ent H p q *c ent V q k) with (fun j => ent H p j *c ent V j k). etransitivity; [apply f_equal2; [apply f_equal2; [reflexivity | exact EV]|]|].
      + rewrite (ksum_single N p); [|exact Hp|]; [rewrite Nat.eqb_refl; cbn [kb]; reflexivity|]. intros q Hq NE. rewrite (proj2 (Nat.eqb_neq p q)) by auto. cbn [kb]. ring.
      + apply injective_projections; cbn; ring.
    - intros k l Hk Hl. cbn [nrow ncol] in *. rewrite IN by exact Hk. rewrite <- (ON k l) by lia. rewrite RV. unfold inner. apply ksum_ext. intros p Hp. unfold col. cbn [ent]. f_equal.
      transitivity (real (sg p * sg p) *c ent V p l); [apply injective_projections; cbn; ring|]. rewrite sg_sq. apply injective_projections; cbn; ring.
    - intros psi p Hp. cbn [nrow ncol] in *. pose proof (CO (fun p => real (sg p) *c psi p) p ltac:(lia)) as Q. cbn beta in Q. rewrite RV, CV in Q.
      rewrite (ksum_ext (length E) _ (fun k => real (sg p) *c (ent V p k *c inner N (col V k) (fun p => real (sg p) *c psi p)))) by (intros k Hk; rewrite IN by exact Hk; cbn [ent]; ring).
      rewrite ksum_mul_l. etransitivity; [|apply f_equal2; [reflexivity | exact Q]]. transitivity (real (sg p * sg p) *c psi p); [rewrite sg_sq; apply injective_projections; cbn; ring | apply injective_projections; cbn; ring].
  Qed.
End Run.
