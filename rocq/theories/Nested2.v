(** Lists of sectors inside a sector. *)
From Coq Require Import List Arith Lia ZArith Reals Lra Bool Ring Setoid Morphisms Permutation.
From Verif Require Import Scalars Sums Res Matrix SpecMat ModelPhase ModelSymmetry SpecSymmetry
  GeoPhase SymBase SymReduce SymMany SymGroup SymRep SymTable SymZn SymTrans SymTrans2 Nested.
Import ListNotations.
Local Open Scope R_scope.

Lemma acts_left M Q U z : unitary_mat M U -> ncol Q = M -> nsq z = 1 -> acts_as Q U z -> meq (mmul Q U) (mscale z Q).
Proof.
  intros ((U1 & U2) & UU & _) HQ Hz E. unfold acts_as in E.
  assert (A : meq (madj Q) (mscale z (mmul (madj U) (madj Q)))).
  { etransitivity; [symmetry; apply mmul_eye_l; cbn; exact HQ|].
    etransitivity; [apply mm; [symmetry; exact UU|dims|reflexivity]|].
    etransitivity; [apply mmul_assoc; dims|].
    etransitivity; [apply mm; [reflexivity|dims|exact E]|]. apply mmul_scale_r. }
  assert (Bq : meq Q (mscale (conj z) (mmul Q U))).
  { destruct A as (_ & _ & A). split; [reflexivity|]. split; [cbn; congruence|]. intros i j Hi Hj.
    specialize (A j i Hj Hi). cbn [madj mscale mmul ent nrow ncol] in *.
    rewrite <- (kconj_inv (ent Q i j)), A, kconj_mul. f_equal. rewrite ksum_conj, U1, HQ. apply ksum_ext. intros k _.
    rewrite kconj_mul, !kconj_inv. ring. }
  split; [reflexivity|]. split; [cbn; congruence|]. intros i j Hi Hj. cbn [mmul mscale ent nrow ncol] in *.
  destruct Bq as (_ & _ & Bq). rewrite Bq; [|exact Hi|congruence]. cbn [mscale mmul ent ncol].
  transitivity ((conj z *c z) *c ksum (ncol Q) (fun k => ent Q i k *c ent U k j)); [|ring].
  rewrite conj_mul_self, Hz, real_1. ring.
Qed.

Lemma root_distinct n a b : (0 < n)%nat -> (a < n)%nat -> (b < n)%nat -> root n a = root n b -> a = b.
Proof.
  intros Hn Ha Hb E.
  assert (W : forall x y, (x < y < n)%nat -> root n x <> root n y).
  { intros x y Hxy Z. apply (root_not_1 n Hn (y - x)); [lia|].
    replace y with (x + (y - x))%nat in Z at 1 by lia. rewrite root_add in Z.
    transitivity (conj (root n x) *c root n x *c root n (y - x)); [rewrite root_conj_mul; ring|].
    transitivity (conj (root n x) *c (root n x *c root n (y - x))); [ring|]. rewrite <- Z. apply root_conj_mul. }
  destruct (Nat.lt_trichotomy a b) as [L|[L|L]]; [exfalso; apply (W a b); [lia|exact E]|exact L|exfalso; apply (W b a); [lia|symmetry; exact E]].
Qed.
Lemma zn_ks_length n : length (zn_ks n) = n.
Proof. unfold zn_ks. rewrite map_length, seq_length. reflexivity. Qed.
Lemma zn_ks_nth n k : (k < n)%nat -> nth k (zn_ks n) 0 = 2 * PI * INR k / INR n.
Proof.
  intros Hk. unfold zn_ks. rewrite (nth_indep _ 0 ((fun k => 2 * PI * INR k / INR n) 0%nat)) by (rewrite map_length, seq_length; exact Hk).
  rewrite (map_nth (fun k => 2 * PI * INR k / INR n)), seq_nth by exact Hk. reflexivity.
Qed.
Lemma phase_root n k : (k < n)%nat -> cexp (- nth k (zn_ks n) 0) = conj (root n k).
Proof.
  intros Hk. rewrite zn_ks_nth by exact Hk. unfold root. replace (2 * PI / INR n * INR k) with (2 * PI * INR k / INR n).
  2:{ field. apply not_0_INR. lia. }
  unfold cexp. rewrite cos_neg, sin_neg. reflexivity.
Qed.

(** ** Sectors of one transformation, and another one that inverts it. *)
Section Zn.
  Variables (M n : nat) (U : cmat) (svd : cmat -> cmat).
  Hypothesis Hn : (0 < n)%nat.
  Hypothesis HM : moves_states M U.
  Hypothesis HP : meq (mpow M U n) (meye M).

  Lemma zn_all : exists Qs, zn_projectors svd U n = Ok Qs /\ length Qs = n /\ splits M Qs /\
    (forall k, (k < n)%nat -> good M (nth k Qs (mzero 0 0)) /\
      acts_as (nth k Qs (mzero 0 0)) U (cexp (- nth k (zn_ks n) 0)) /\
      (forall X, square M X -> meq (mmul U X) (mmul X U) -> keeps M (nth k Qs (mzero 0 0)) X) /\
      (forall X, square M X -> meq (mmul U (mmul X U)) X ->
         cexp (- nth k (zn_ks n) 0) *c cexp (- nth k (zn_ks n) 0) = c1 -> keeps M (nth k Qs (mzero 0 0)) X)).
  Proof.
    destruct (zn_ok M n U svd Hn HM HP) as (Qs & E & HL & SP & ACT & _ & _).
    exists Qs. split; [exact E|]. split; [exact HL|]. split; [exact SP|]. intros k Hk.
    destruct (sector_facts M n n U svd Hn Hn HM HP Qs k Hk E) as (F1 & F2 & F3 & F4 & _).
    split; [split; [exact F1|split; [exact F2|exact F4]]|]. split; [apply ACT; exact Hk|]. split; [exact F3|].
    intros X (X1 & X2) TW SQ. apply keeps_blocks; [exact SP|congruence|split; assumption|].
    pose proof (proj1 (proj1 HM)) as (U1 & U2).
    assert (CQ : forall l, (l < n)%nat -> ncol (nth l Qs (mzero 0 0)) = M).
    { intros l Hl. apply splits_lists in SP as (S1 & _). apply S1, nth_In. congruence. }
    assert (Z : forall a b, (a < n)%nat -> (b < n)%nat -> cexp (- nth a (zn_ks n) 0) *c cexp (- nth b (zn_ks n) 0) <> c1 ->
      meq (mmul (nth a Qs (mzero 0 0)) (mmul X (madj (nth b Qs (mzero 0 0))))) (mzero (nrow (nth a Qs (mzero 0 0))) (nrow (nth b Qs (mzero 0 0))))).
    { intros a b Ha Hb Hne. pose proof (CQ a Ha) as Ca. pose proof (CQ b Hb) as Cb. pose proof (ACT a Ha) as Aa. pose proof (ACT b Hb) as Ab.
      set (A := nth a Qs (mzero 0 0)) in *. set (Bq := nth b Qs (mzero 0 0)) in *.
      set (la := cexp (- nth a (zn_ks n) 0)) in *. set (lb := cexp (- nth b (zn_ks n) 0)) in *.
      assert (Y : meq (mmul A (mmul X (madj Bq))) (mscale (la *c lb) (mmul A (mmul X (madj Bq))))).
      { etransitivity; [apply mm; [reflexivity|dims|apply mm; [symmetry; exact TW|dims|reflexivity]]|].
        etransitivity; [apply mm; [reflexivity|dims|apply mmul_assoc; dims]|].
        etransitivity; [symmetry; apply mmul_assoc; dims|].
        etransitivity; [apply mm; [apply (acts_left M A U la); [apply HM|exact Ca|apply cexp_unit|exact Aa]|dims|reflexivity]|].
        etransitivity; [apply mm; [reflexivity|dims|apply mmul_assoc; dims]|].
        etransitivity; [apply mm; [reflexivity|dims|apply mm; [reflexivity|dims|exact Ab]]|].
        etransitivity; [apply mm; [reflexivity|dims|apply mmul_scale_r]|].
        etransitivity; [apply mmul_scale_l|]. etransitivity; [apply mscale_meq, mmul_scale_r|].
        split; [reflexivity|]. split; [reflexivity|]. intros i j _ _. cbn [mscale ent]. ring. }
      split; [reflexivity|]. split; [reflexivity|]. intros i j Hi Hj. destruct Y as (_ & _ & Y). specialize (Y i j Hi Hj).
      cbn [mscale ent mzero] in *. set (z := ent (mmul A (mmul X (madj Bq))) i j) in *.
      assert (W : (la *c lb +c kopp c1) *c z = c0).
      { transitivity ((la *c lb) *c z +c kopp z); [ring|]. rewrite <- Y. ring. }
      apply mul_0 in W as [W|W]; [|exact W]. exfalso. apply Hne. transitivity ((la *c lb +c kopp c1) +c c1); [ring|]. rewrite W. ring. }
    rewrite HL. intros l Hl Hne.
    assert (D : cexp (- nth l (zn_ks n) 0) *c cexp (- nth k (zn_ks n) 0) <> c1).
    { rewrite !phase_root in * by assumption. intros D. apply Hne. apply (root_distinct n); try assumption.
      rewrite <- (kconj_inv (root n l)), <- (kconj_inv (root n k)). f_equal.
      transitivity (conj (root n l) *c (conj (root n k) *c root n k)); [rewrite root_conj_mul; ring|].
      transitivity (conj (root n l) *c conj (root n k) *c root n k); [ring|]. rewrite D, <- SQ.
      transitivity (conj (root n k) *c (conj (root n k) *c root n k)); [ring|]. rewrite root_conj_mul. ring. }
    split; [apply Z; assumption|]. apply Z; try assumption. intros W. apply D. rewrite <- W. ring.
  Qed.
End Zn.

(** ** Refining a sector. *)
Definition inside (B C : cmat) : Prop := meq (mmul C (mmul (madj B) B)) C.
Definition refines (N : nat) (B : cmat) (Cs : list cmat) : Prop :=
  (forall C, In C Cs -> good N C /\ inside B C) /\
  ForallOrdPairs (clean_pair (meye N)) Cs /\
  (forall i j, (i < N)%nat -> (j < N)%nat -> klsum Cs (fun C => ent (mmul (madj C) C) i j) = ent (mmul (madj B) B) i j).

Lemma refines_refl N B : good N B -> refines N B [B].
Proof.
  intros G. split; [|split].
  - intros C [<-|[]]. split; [exact G|]. unfold inside.
    destruct G as (G1 & G2 & _). etransitivity; [symmetry; apply mmul_assoc; dims|].
    etransitivity; [apply mm; [exact G2|dims|reflexivity]|]. apply mmul_eye_l. reflexivity.
  - constructor; [constructor|constructor].
  - intros i j _ _. cbn [klsum]. ring.
Qed.
Lemma refines_empty N B : nrow B = 0%nat -> refines N B [].
Proof.
  intros E. split; [intros C []|]. split; [constructor|]. intros i j _ _. cbn [klsum mmul madj ent ncol]. rewrite E. reflexivity.
Qed.
Lemma refines_filter N B Cs : refines N B Cs -> refines N B (filter (fun C => negb (nrow C =? 0)%nat) Cs).
Proof.
  intros (R1 & R2 & R3). split; [|split].
  - intros C HC. apply filter_In in HC as (HC & _). apply R1. exact HC.
  - apply FOP_filter. exact R2.
  - intros i j Hi Hj. rewrite klsum_filter, <- R3 by assumption. apply klsum_ext. intros C _.
    destruct (Nat.eqb_spec (nrow C) 0); cbn [negb]; [|reflexivity]. cbn [mmul madj ent ncol]. rewrite e. reflexivity.
Qed.

Lemma inside_adj B C : ncol B = ncol C -> inside B C -> meq (mmul (mmul (madj B) B) (madj C)) (madj C).
Proof.
  intros HD H. unfold inside in H.
  assert (A : meq (madj (mmul (madj B) B)) (mmul (madj B) B)).
  { etransitivity; [apply madj_mul; dims|]. apply mm; [reflexivity|dims|apply madj_inv]. }
  etransitivity; [apply mm; [symmetry; exact A|dims|reflexivity]|].
  etransitivity; [symmetry; apply madj_mul; dims|]. apply madj_proper. exact H.
Qed.
Lemma inside_trans B C D : ncol B = ncol C -> ncol C = ncol D -> inside B C -> inside C D -> inside B D.
Proof.
  intros H1 H2 HB HC. unfold inside in *.
  etransitivity; [apply mm; [symmetry; exact HC|dims|reflexivity]|].
  etransitivity; [apply mmul_assoc; dims|].
  etransitivity; [apply mm; [reflexivity|dims|apply mmul_assoc; dims]|].
  etransitivity; [apply mm; [reflexivity|dims|apply mm; [reflexivity|dims|exact HB]]|]. exact HC.
Qed.
(** Parts of orthogonal sectors are orthogonal. *)
Lemma clean_parts N B B' C C' : ncol B = N -> ncol B' = N -> ncol C = N -> ncol C' = N -> inside B C -> inside B' C' ->
  clean_pair (meye N) B B' -> clean_pair (meye N) C C'.
Proof.
  assert (W : forall B B' C C', ncol B = N -> ncol B' = N -> ncol C = N -> ncol C' = N -> inside B C -> inside B' C' ->
    meq (mmul B (mmul (meye N) (madj B'))) (mzero (nrow B) (nrow B')) -> meq (mmul C (mmul (meye N) (madj C'))) (mzero (nrow C) (nrow C'))).
  { clear. intros B B' C C' H1 H2 H3 H4 I1 I2 E.
    assert (E' : meq (mmul B (madj B')) (mzero (nrow B) (nrow B'))).
    { etransitivity; [|exact E]. apply mm; [reflexivity|dims|]. symmetry. apply mmul_eye_l. dims. }
    etransitivity; [apply mm; [reflexivity|dims|apply mmul_eye_l; dims]|].
    etransitivity; [apply mm; [symmetry; exact I1|dims|symmetry; apply (inside_adj B' C'); [congruence|exact I2]]|].
    etransitivity; [apply mmul_assoc; dims|].
    etransitivity; [apply mm; [reflexivity|dims|]|].
    { etransitivity; [apply mmul_assoc; dims|].
      etransitivity; [apply mm; [reflexivity|dims|]|].
      { etransitivity; [apply mm; [reflexivity|dims|apply mmul_assoc; dims]|].
        etransitivity; [symmetry; apply mmul_assoc; dims|].
        etransitivity; [apply mm; [exact E'|dims|reflexivity]|]. apply mmul_zero_l. }
      apply mmul_zero_r. }
    etransitivity; [apply mmul_zero_r|]. reflexivity. }
  intros H1 H2 H3 H4 I1 I2 (E1 & E2). split; [apply (W B B')|apply (W B' B)]; assumption.
Qed.

Lemma klsum_concat {A} (ls : list (list A)) (f : A -> CR) : klsum (concat ls) f = klsum ls (fun l => klsum l f).
Proof. induction ls as [|l ls IH]; [reflexivity|]. cbn [concat klsum]. rewrite klsum_app, IH. reflexivity. Qed.
Lemma klsum_Forall2 {A C} (l : list A) (l' : list C) (f : A -> CR) (g : C -> CR) :
  Forall2 (fun a c => f a = g c) l l' -> klsum l f = klsum l' g.
Proof. induction 1; cbn [klsum]; [reflexivity|]. congruence. Qed.
Lemma Forall2_in_l {A C} (P : A -> C -> Prop) l l' y : Forall2 P l l' -> In y l' -> exists x, In x l /\ P x y.
Proof.
  induction 1 as [|a c l l' H F IH]; intros Hy; [destruct Hy|]. destruct Hy as [<-|Hy]; [exists a; split; [left; reflexivity|exact H]|].
  destruct (IH Hy) as (x & Hx & P'). exists x. split; [right; exact Hx|exact P'].
Qed.
Lemma Forall2_impl' {A C} (P Q : A -> C -> Prop) l l' : (forall a c, In a l -> P a c -> Q a c) -> Forall2 P l l' -> Forall2 Q l l'.
Proof.
  intros H F. induction F as [|a c l l' HP F IH]; constructor; [apply H; [left; reflexivity|exact HP]|].
  apply IH. intros; apply H; [right; assumption|assumption].
Qed.

Lemma refines_concat N B Cs Dss : ncol B = N -> refines N B Cs -> Forall2 (refines N) Cs Dss -> refines N B (concat Dss).
Proof.
  intros HB (R1 & R2 & R3) F. split; [|split].
  - intros D HD. apply in_concat in HD as (Ds & HDs & HD). destruct (Forall2_in_l _ _ _ _ F HDs) as (C & HC & (Q1 & _)).
    destruct (Q1 D HD) as (GD & ID). destruct (R1 C HC) as (GC & IC). split; [exact GD|].
    apply (inside_trans B C D); [rewrite HB; symmetry; apply GC|rewrite (proj1 GC); symmetry; apply GD|exact IC|exact ID].
  - clear R3. induction F as [|C Ds Cs Dss HC F IH]; [constructor|]. cbn [concat]. inversion R2; subst.
    apply FOP_app; [apply HC|apply IH; [intros; apply R1; right; assumption|assumption]|].
    intros D D' HD HD'. apply in_concat in HD' as (Ds' & HDs' & HD'). destruct (Forall2_in_l _ _ _ _ F HDs') as (C' & HC' & (Q1 & _)).
    destruct (Q1 D' HD') as (GD' & ID'). destruct (proj1 HC D HD) as (GD & ID).
    destruct (R1 C (or_introl eq_refl)) as (GC & _). destruct (R1 C' (or_intror HC')) as (GC' & _).
    apply (clean_parts (ncol B) C C'); [apply GC|apply GC'|apply GD|apply GD'|exact ID|exact ID'|].
    match goal with H : Forall _ Cs |- _ => rewrite Forall_forall in H; apply H; exact HC' end.
  - intros i j Hi Hj. rewrite klsum_concat, <- R3 by assumption. symmetry. apply klsum_Forall2.
    refine (Forall2_impl' _ _ _ _ _ F). intros C Ds _ (_ & _ & Q3). symmetry. apply Q3; assumption.
Qed.

Lemma refines_splits N Cs : refines N (meye N) Cs -> splits N Cs.
Proof.
  intros (R1 & R2 & R3). apply splits_lists. split; [intros C HC; destruct (R1 C HC) as ((G1 & G2 & _) & _); split; assumption|].
  split; [exact R2|]. intros i j Hi Hj. rewrite R3 by assumption. cbn [mmul madj meye ent ncol].
  rewrite (ksum_single N i); [|exact Hi|].
  - rewrite Nat.eqb_refl. destruct (i =? j)%nat; cbn [kb]; [change (conj c1) with (conj c1)|]; rewrite kconj_1; ring.
  - intros l Hl Hne. destruct (Nat.eqb_spec l i); [congruence|]. cbn [kb]. rewrite kconj_0. ring.
Qed.

(** An operator that keeps every sector has no elements between them. *)
Lemma keeps_clean N H A B : good N A -> good N B -> keeps N A H -> keeps N B H -> clean_pair (meye N) A B -> clean_pair H A B.
Proof.
  assert (W : forall A B, good N A -> good N B -> keeps N B H ->
    meq (mmul A (mmul (meye N) (madj B))) (mzero (nrow A) (nrow B)) -> meq (mmul A (mmul H (madj B))) (mzero (nrow A) (nrow B))).
  { clear. intros A B (A1 & A2 & _) (B1 & B2 & _) KB E. pose proof KB as ((H1 & H2) & _).
    assert (E' : meq (mmul A (madj B)) (mzero (nrow A) (nrow B))).
    { etransitivity; [|exact E]. apply mm; [reflexivity|dims|]. symmetry. apply mmul_eye_l. dims. }
    etransitivity; [apply mm; [reflexivity|dims|apply (push_adj N B B1 B2 H KB)]|].
    etransitivity; [symmetry; apply mmul_assoc; dims|].
    etransitivity; [apply mm; [exact E'|dims|reflexivity]|]. etransitivity; [apply mmul_zero_l|]. reflexivity. }
  intros GA GB KA KB (E1 & E2). split; apply W; assumption.
Qed.
Lemma refines_blocks N B H Cs : refines N B Cs -> (forall C, In C Cs -> keeps N C H) -> block_diagonal Cs H.
Proof.
  intros (R1 & R2 & _) K. apply block_diagonal_FOP. refine (FOP_impl _ _ _ _ R2).
  intros X Y HX HY. apply keeps_clean; [apply R1; exact HX|apply R1; exact HY|apply K; exact HX|apply K; exact HY].
Qed.

(** ** One step: the sectors of [U] inside the sector [B]. *)
Lemma step N B U n svd : good N B -> keeps N B U -> moves_states N U -> meq (mpow N U n) (meye N) -> (0 < n)%nat ->
  exists Qs, zn_projectors svd (compress B U) n = Ok Qs /\ length Qs = n /\
    refines N B (map (fun q => mmul q B) Qs) /\
    (forall k, (k < n)%nat -> let C := mmul (nth k Qs (mzero 0 0)) B in
      good N C /\ acts_as C U (cexp (- nth k (zn_ks n) 0)) /\
      (forall X z, square N X -> acts_as B X z -> acts_as C X z) /\
      (forall X, keeps N B X -> meq (mmul U X) (mmul X U) -> keeps N C X) /\
      (forall X, keeps N B X -> meq (mmul U (mmul X U)) X ->
         cexp (- nth k (zn_ks n) 0) *c cexp (- nth k (zn_ks n) 0) = c1 -> keeps N C X)).
Proof.
  intros G K M P Hn.
  destruct (zn_all (nrow B) n (compress B U) svd Hn (sub_moves_states N B G U K M) (sub_pow N B G U n K P)) as (Qs & E & HL & SP & F).
  exists Qs. split; [exact E|]. split; [exact HL|].
  assert (GQ : forall q, In q Qs -> good (nrow B) q).
  { intros q Hq. apply (In_nth _ _ (mzero 0 0)) in Hq as (k & Hk & <-). apply F. congruence. }
  split.
  - apply splits_lists in SP as (S1 & S2 & S3). split; [|split].
    + intros C HC. apply in_map_iff in HC as (q & <- & Hq). split; [apply good_inner; [exact G|apply GQ; exact Hq]|].
      apply (inside_inner N B G q (GQ q Hq)).
    + apply FOP_map. refine (FOP_impl _ _ _ _ S2).
      assert (W : forall q q', In q Qs -> In q' Qs -> meq (mmul q (mmul (meye (nrow B)) (madj q'))) (mzero (nrow q) (nrow q')) ->
        meq (mmul (mmul q B) (mmul (meye N) (madj (mmul q' B)))) (mzero (nrow q) (nrow q'))).
      { intros q q' Hq Hq' Z. pose proof (proj1 (GQ q Hq)) as Cq. pose proof (proj1 (GQ q' Hq')) as Cq'. pose proof (proj1 G) as CB.
        etransitivity; [|exact Z].
        etransitivity; [apply mm; [reflexivity|dims|apply mmul_eye_l; dims]|].
        etransitivity; [apply mm; [reflexivity|dims|apply adj_inner; apply GQ; exact Hq']|].
        etransitivity; [apply mmul_assoc; dims|]. apply mm; [reflexivity|dims|].
        etransitivity; [symmetry; apply mmul_assoc; dims|].
        apply mm; [apply G|dims|reflexivity]. }
      intros q q' Hq Hq' (Z1 & Z2). split; [exact (W q q' Hq Hq' Z1)|exact (W q' q Hq' Hq Z2)].
    + intros i j Hi Hj. rewrite klsum_map.
      transitivity (klsum Qs (fun q => ksum (nrow B) (fun a => ksum (nrow B) (fun b => conj (ent B a i) *c ent (mmul (madj q) q) a b *c ent B b j)))).
      { apply klsum_ext. intros q Hq. pose proof (proj1 (GQ q Hq)) as Cq.
        cbn [mmul madj ent ncol nrow]. rewrite Cq.
        transitivity (ksum (nrow q) (fun r => ksum (nrow B) (fun a => ksum (nrow B) (fun b =>
          conj (ent B a i) *c (conj (ent q r a) *c ent q r b) *c ent B b j)))).
        { apply ksum_ext. intros r _. rewrite ksum_conj, <- ksum_mul_r. apply ksum_ext. intros a _.
          rewrite <- ksum_mul_l. apply ksum_ext. intros b _. rewrite kconj_mul. ring. }
        rewrite ksum_swap. apply ksum_ext. intros a _. rewrite ksum_swap. apply ksum_ext. intros b _.
        rewrite ksum_mul_r. rewrite ksum_mul_l. reflexivity. }
      rewrite klsum_ksum. cbn [mmul madj ent ncol]. apply ksum_ext. intros a Ha. rewrite klsum_ksum.
      rewrite (ksum_single (nrow B) a).
      * rewrite (klsum_ext Qs _ (fun q => conj (ent B a i) *c ent B a j *c ent (mmul (madj q) q) a a)) by (intros; cbn [mmul madj ent ncol]; ring).
        rewrite klsum_mul_l, S3 by assumption. rewrite Nat.eqb_refl. cbn [kb]. ring.
      * assumption.
      * intros b Hb Hne. rewrite (klsum_ext Qs _ (fun q => conj (ent B a i) *c ent B b j *c ent (mmul (madj q) q) a b)) by (intros; cbn [mmul madj ent ncol]; ring).
        rewrite klsum_mul_l, S3 by assumption. destruct (Nat.eqb_spec a b); [congruence|]. cbn [kb]. ring.
  - intros k Hk C. destruct (F k Hk) as (GK & AK & KC & KT). pose proof K as (SU & _).
    split; [apply good_inner; assumption|]. split; [apply (acts_sub N B G _ GK); assumption|].
    split; [intros; apply (acts_inner N B G _ GK); assumption|].
    split.
    + intros X KX CO. apply (keeps_inner N B G _ GK); [exact KX|]. apply KC; [split; reflexivity|].
      apply (sub_commute N B G); assumption.
    + intros X KX TW SQ. apply (keeps_inner N B G _ GK); [exact KX|]. apply KT; [split; reflexivity| |exact SQ].
      apply (sub_twist N B G); assumption.
Qed.
