(** Spins 1/2 described along other axes: energies and averages. *)
From Coq Require Import List Arith Lia Reals Lra Bool Permutation.
From Verif Require Convex SymAverage ChainSpectrum.
From Verif Require Import Scalars Res Matrix Sums SqMat SpecMat ModelBase ModelSpins SpecSpins Digits SpinOps SpinHam SpinApi SpinSym ModelGeometry ModelPhase ModelSymmetry SymBase ModelThermal SpecThermal ThermalBase ThermalBasis
  SpecSigns Signs SignsSpins Sectors Ladder SpecAxes Axes AxesTurn.
Import ListNotations.
Local Open Scope R_scope.

Definition tri (f : axis -> CR) : CR := f AX +c f AY +c f AZ.
Lemma tri_ext f h : (forall a, f a = h a) -> tri f = tri h. Proof. intros X. unfold tri. rewrite !X. reflexivity. Qed.
Lemma tri_order p f : in_order p \/ out_of_order p -> tri (fun a => f (p a)) = tri f.
Proof.
  intros [O|O]; pose proof (O AX) as OX; pose proof (O AY) as OY; pose proof (O AZ) as OZ; cbn [next] in OX, OY, OZ; unfold tri.
  - rewrite OY, OX. destruct (p AX); cbn [next]; ring.
  - rewrite OX, OY. destruct (p AZ); cbn [next]; ring.
Qed.

Section Model.
  Variables (rt : nat -> CR) (n : nat).
  Notation D := (2 ^ n)%nat.
  Notation Sm a := (ent (spin_along rt a)).
  Notation ham s psi x := (ksum n (fun i => ksum i (fun j => kofnat 2 *c tri (fun a => coupling_along s a i j *c st n i (Sm a) (st n j (Sm a) psi) x)))
     -c ksum n (fun i => tri (fun a => field_along s a i *c st n i (Sm a) psi x))).
  Lemma ham_acts s F psi x : sp_two s = 1%nat -> sg_nsites (sp_geom s) = n -> sp_createH rt s None = Ok F -> (x < D)%nat -> apply D F psi x = ham s psi x.
  Proof using.
    intros half NS made Hx. unfold apply. rewrite (ksum_ext D _ (fun y => ksum n (fun i => ksum i (fun j => pair_part rt s x y i j *c psi y)) -c ksum n (fun i => field_part rt s x y i *c psi y))).
    - rewrite Convex.ksum_minus. f_equal.
      + rewrite (ksum_swap D n). apply ksum_ext. intros i Hi. rewrite (ksum_swap D i). apply ksum_ext. intros j Hj.
        unfold tri. rewrite <- !(pair_acts n) by lia. rewrite <- !ksum_mul_l, <- !ksum_add, <- ksum_mul_l. apply ksum_ext. intros y Hy. unfold pair_part. rewrite NS. cbn [coupling_along spin_along]. ring.
      + rewrite (ksum_swap D n). apply ksum_ext. intros i Hi. unfold tri. rewrite <- !(site_acts n) by lia. rewrite <- !ksum_mul_l, <- !ksum_add. apply ksum_ext. intros y Hy. unfold field_part. rewrite NS. cbn [field_along spin_along]. ring.
    - intros y Hy. pose proof (spin_parts rt s F half made x y) as X. rewrite NS in X. rewrite (X Hx Hy).
      transitivity (ksum n (fun i => ksum i (pair_part rt s x y i)) *c psi y -c ksum n (field_part rt s x y) *c psi y); [ring|]. rewrite <- !ksum_mul_r. f_equal. apply ksum_ext. intros i Hi. rewrite <- ksum_mul_r. reflexivity.
  Qed.
  Lemma full_size s F : sp_two s = 1%nat -> sg_nsites (sp_geom s) = n -> sp_createH rt s None = Ok F -> nrow F = D /\ ncol F = D.
  Proof using. intros half NS made. destruct (spin_ent rt s F half made) as (A & B & _). rewrite NS in A, B. auto. Qed.

  (** What is to be shown: a basis for [F'] whose columns have the same correlations. *)
  Definition carries (p : axis -> axis) (g : nat -> axis -> R) (V Vt : mat CR) : Prop :=
    forall k, (k < ncol V)%nat ->
      (forall i a, (i < n)%nat -> fst (inner D (col Vt k) (st n i (Sm (p a)) (col Vt k))) = g i a * fst (inner D (col V k) (st n i (Sm a) (col V k)))) /\
      (forall i j a b, (i < n)%nat -> (j < n)%nat -> i <> j -> fst (inner D (col Vt k) (st n i (Sm (p a)) (st n j (Sm (p b)) (col Vt k)))) = g i a * g j b * fst (inner D (col V k) (st n i (Sm a) (st n j (Sm b) (col V k))))).

  Section Turned.
    Variables (s s' : spins CR) (p : axis -> axis) (g : nat -> axis -> R) (F F' V : mat CR) (E : list R).
    Hypothesis root : rt 1%nat = k1.
    Hypothesis half : sp_two s = 1%nat.
    Hypothesis size : sg_nsites (sp_geom s) = n.
    Hypothesis rd : redescribed p g s s'.
    Hypothesis rot : forall i, (i < n)%nat -> rotation p (g i).
    Hypothesis made : sp_createH rt s None = Ok F.
    Hypothesis made' : sp_createH rt s' None = Ok F'.
    Hypothesis basis : eigenbasis F V E.
    Variable u : nat -> nat -> nat -> CR.
    Hypothesis uni : forall i, (i < n)%nat -> unit2 (u i) /\ works rt (u i) p (g i).
    Notation U := (pr n u n).
    Notation dag := (fun i => adj2 (u i)).
    Lemma size' : sg_nsites (sp_geom s') = n. Proof using size rd. destruct rd as (X & _). congruence. Qed.
    Lemma half' : sp_two s' = 1%nat. Proof using half rd. destruct rd as (_ & X & _). congruence. Qed.
    Lemma g_sq i a : (i < n)%nat -> g i a * g i a = 1.
    Proof using rot. intros Hi. destruct (rot i Hi) as (X & _). destruct (X a) as [->| ->]; lra. Qed.
    Lemma U_site i a psi x : (i < n)%nat -> (x < D)%nat -> U (st n i (Sm a) psi) x = real (g i a) *c st n i (Sm (p a)) (U psi) x.
    Proof using uni.
      intros Hi Hx. destruct (uni i Hi) as (_ & W). rewrite (pr_site n u n i (Sm a) _ psi x Hi (Nat.le_refl n) Hx (W a)). unfold st, scl. ring.
    Qed.
    Lemma U_pair i j a b psi x : (i < n)%nat -> (j < n)%nat -> (x < D)%nat -> U (st n i (Sm a) (st n j (Sm b) psi)) x = real (g i a * g j b) *c st n i (Sm (p a)) (st n j (Sm (p b)) (U psi)) x.
    Proof using uni.
      intros Hi Hj Hx. rewrite (U_site i a _ x Hi Hx), (st_ext n i (Sm (p a)) _ (fun y => real (g j b) *c st n j (Sm (p b)) (U psi) y) x Hx) by (intros y Hy; apply (U_site j b psi y Hj Hy)).
      rewrite st_scale. replace (real (g i a * g j b)) with (real (g i a) *c real (g j b)) by (apply injective_projections; cbn; ring). ring.
    Qed.
    Lemma orders i : (i < n)%nat -> in_order p \/ out_of_order p.
    Proof using rot. intros Hi. destruct (rot i Hi) as (_ & [(O & _)|(O & _)]); auto. Qed.
    Lemma carry psi x : (x < D)%nat -> apply D F' (U psi) x = U (apply D F psi) x.
    Proof using half size rd rot made made' uni.
      intros Hx. rewrite (ham_acts s' F' (U psi) x half' size' made' Hx).
      rewrite (pr_ext n u n _ (fun y => ham s psi y) x Hx) by (intros y Hy; apply (ham_acts s F psi y half size made Hy)).
      rewrite pr_minus by exact Hx. rewrite !pr_ks by exact Hx. destruct rd as (_ & _ & RJ & RH). rewrite size in RJ, RH. f_equal.
      - apply ksum_ext. intros i Hi. rewrite pr_ks by exact Hx. apply ksum_ext. intros j Hj. rewrite pr_scale by exact Hx. f_equal. unfold tri at 2. rewrite pr_lin3 by exact Hx. rewrite !U_pair by lia.
        rewrite <- (tri_order p _ (orders i Hi)). unfold tri. rewrite !RJ by lia. change (real ?x) with ((x, 0) : CR). ring.
      - apply ksum_ext. intros i Hi. unfold tri at 2. rewrite pr_lin3 by exact Hx. rewrite !U_site by assumption. rewrite <- (tri_order p _ (orders i Hi)). unfold tri. rewrite !RH by exact Hi. change (real ?x) with ((x, 0) : CR). ring.
    Qed.
    Lemma UU psi x : (x < D)%nat -> U (pr n dag n psi) x = psi x.
    Proof using uni. intros Hx. apply pr_pr; [apply Nat.le_refl | | exact Hx]. intros i Hi. apply (proj1 (uni i Hi)). Qed.
    Lemma UU' psi x : (x < D)%nat -> pr n dag n (U psi) x = psi x.
    Proof using uni.
      intros Hx. transitivity (pr n dag n (pr n (fun i => adj2 (dag i)) n psi) x).
      - apply pr_ext; [exact Hx|]. intros y Hy. apply pr_same; [|exact Hy]. intros i _ r c _ _. unfold adj2. apply injective_projections; cbn; ring.
      - apply (pr_pr n dag); [apply Nat.le_refl | | exact Hx]. intros i Hi r c Hr Hc. rewrite <- (proj2 (proj1 (uni i Hi)) r c Hr Hc). unfold two_mul, adj2. apply injective_projections; cbn; ring.
    Qed.
    Lemma U_inner phi psi : inner D (U phi) (U psi) = inner D phi psi.
    Proof using uni. rewrite (pr_inner n u n) by apply Nat.le_refl. apply inner_ext; [reflexivity|]. intros x Hx. apply UU'. exact Hx. Qed.
    Definition Vt : mat CR := Mat D (ncol V) (fun x k => U (col V k) x).
    Lemma rows : nrow V = D. Proof using half size made basis. destruct (full_size s F half size made) as (A & _). destruct basis as ((_ & B & _) & _). congruence. Qed.
    Lemma turned_basis : eigenbasis F' Vt E.
    Proof using half size rd rot made made' basis uni.
      pose proof rows as RV. destruct basis as ((B1 & B2 & B3 & B4) & B5 & B6). destruct (full_size s' F' half' size' made') as (A1 & A2). split; [|split].
      - unfold eigen. cbn [Vt nrow ncol]. repeat split; try assumption. intros x k Hx Hk.
        change (apply D F' (U (col V k)) x = (nth k E 0, 0) *c U (col V k) x). rewrite (carry _ x Hx), <- pr_scale by exact Hx. apply pr_ext; [exact Hx|]. intros y Hy. rewrite RV in B4. apply (B4 y k Hy Hk).
      - intros k l Hk Hl. cbn [Vt nrow ncol] in *. change (inner D (U (col V k)) (U (col V l)) = kb (k =? l)%nat). rewrite U_inner. rewrite <- RV. apply B5; assumption.
      - intros psi x Hx. cbn [Vt nrow ncol ent] in *. rewrite <- (UU psi x Hx) at 1.
        rewrite (pr_ext n u n _ (fun y => ksum (ncol V) (fun k => inner D (U (col V k)) psi *c col V k y)) x Hx).
        + rewrite pr_sum by exact Hx. apply ksum_ext. intros k Hk. change (col Vt k) with (U (col V k)). ring.
        + intros y Hy. unfold complete_basis in B6. rewrite RV in B6. rewrite (B6 (pr n dag n psi) y Hy). apply ksum_ext. intros k Hk. rewrite (pr_inner n u n) by apply Nat.le_refl. change (col V k y) with (ent V y k). set (z := inner D (col V k) (pr n dag n psi)). clearbody z. change (ent V y k *c z = z *c ent V y k). ring.
    Qed.
    Lemma turned_carries : carries p g V Vt.
    Proof using half size rd rot made made' basis uni.
      intros k Hk. change (col Vt k) with (U (col V k)). split.
      - intros i a Hi. rewrite <- (U_inner (col V k)). rewrite (inner_ext D (U (col V k)) (U (col V k)) (U (st n i (Sm a) (col V k))) (fun x => real (g i a) *c st n i (Sm (p a)) (U (col V k)) x)) by (reflexivity || (intros x Hx; apply U_site; assumption)).
        rewrite inner_scale. generalize (inner D (U (col V k)) (st n i (Sm (p a)) (U (col V k)))). intros z. cbn. pose proof (g_sq i a Hi). replace (g i a * (g i a * fst z - 0 * snd z)) with (g i a * g i a * fst z) by ring. rewrite H. ring.
      - intros i j a b Hi Hj N. rewrite <- (U_inner (col V k)). rewrite (inner_ext D (U (col V k)) (U (col V k)) (U (st n i (Sm a) (st n j (Sm b) (col V k)))) (fun x => real (g i a * g j b) *c st n i (Sm (p a)) (st n j (Sm (p b)) (U (col V k))) x)) by (reflexivity || (intros x Hx; apply U_pair; assumption)).
        rewrite inner_scale. generalize (inner D (U (col V k)) (st n i (Sm (p a)) (st n j (Sm (p b)) (U (col V k))))). intros z. cbn. pose proof (g_sq i a Hi) as H1. pose proof (g_sq j b Hj) as H2. replace (g i a * g j b * (g i a * g j b * fst z - 0 * snd z)) with (g i a * g i a * (g j b * g j b) * fst z) by ring. rewrite H1, H2. ring.
    Qed.
  End Turned.

  Lemma choose {A} (P : nat -> A -> Prop) (d : A) m : (forall i, (i < m)%nat -> exists x, P i x) -> exists f, forall i, (i < m)%nat -> P i (f i).
  Proof using.
    induction m as [|m IH]; intros X; [exists (fun _ => d); intros; lia|]. destruct IH as (f & Hf); [intros; apply X; lia|]. destruct (X m ltac:(lia)) as (x & Hx).
    exists (fun i => if (i =? m)%nat then x else f i). intros i Hi. destruct (Nat.eqb_spec i m) as [->|N]; [exact Hx | apply Hf; lia].
  Qed.
  Theorem turned_all s s' p g F F' V E : rt 1%nat = k1 -> sp_two s = 1%nat -> sg_nsites (sp_geom s) = n -> redescribed p g s s' -> (forall i, (i < n)%nat -> rotation p (g i)) ->
    sp_createH rt s None = Ok F -> sp_createH rt s' None = Ok F' -> eigenbasis F V E -> exists W, eigenbasis F' W E /\ ncol W = ncol V /\ carries p g V W.
  Proof using.
    intros root half size rd rot made made' basis.
    destruct (choose (fun i x => unit2 x /\ works rt x p (g i)) one2 n) as (u & Hu). { intros i Hi. apply (turns rt root p (g i) (rot i Hi)). }
    exists (Vt V u). split; [|split].
    - apply (turned_basis s s' p g F F' V E half size rd rot made made' basis u Hu).
    - reflexivity.
    - apply (turned_carries s s' p g F F' V E half size rd rot made made' basis u Hu).
  Qed.
End Model.
