(** Sector operators of a finite group acting by unitary matrices which move
    basis states up to phases. *)
From Coq Require Import List Arith Lia Reals Lra Bool Ring Setoid Morphisms Permutation.
From Verif Require Import Scalars Sums Res Matrix SpecMat ModelPhase ModelSymmetry SpecSymmetry SymBase SymReduce SymMany.
Import ListNotations.
Local Open Scope R_scope.

Lemma mm {K} {SR : StarRing K} (A A' B B' : mat K) :
  meq A A' -> nrow B = ncol A -> meq B B' -> meq (mmul A B) (mmul A' B').
Proof. intros H1 H2 H3. apply mmul_meq; assumption. Qed.

(** ** From the reduced projectors to the list the code returns. *)
Section Assemble.
  Variable svd : cmat -> cmat.
  Variables (N nT : nat) (p B : nat -> cmat) (g : nat -> R).
  Hypothesis Hsec : forall a, (a < nT)%nat -> sector N (p a) (g a) (B a).
  Hypothesis Hg : forall a, (a < nT)%nat -> 0 < g a.
  Hypothesis Hsq : forall a, (a < nT)%nat -> nrow (p a) = N /\ ncol (p a) = N.
  Hypothesis Horth : forall a b i j, (a < nT)%nat -> (b < nT)%nat -> a <> b -> (i < N)%nat -> (j < N)%nat ->
    ksum N (fun k => ent (p a) i k *c ent (p b) k j) = c0.
  Hypothesis Hsum : forall i j, (i < N)%nat -> (j < N)%nat ->
    ksum nT (fun a => real (/ g a) *c ent (p a) i j) = kb (i =? j)%nat.

  Notation Bs := (map B (seq 0 nT)).

  Lemma Bs_nth a : (a < nT)%nat -> nth a Bs (mzero 0 0) = B a.
  Proof.
    intros Ha. rewrite (nth_indep _ (mzero 0 0) (B O)) by (rewrite map_length, seq_length; assumption).
    rewrite map_nth, seq_nth by assumption. reflexivity.
  Qed.
  Lemma Bs_length : length Bs = nT.
  Proof. rewrite map_length, seq_length. reflexivity. Qed.

  Lemma B_ncol a : (a < nT)%nat -> ncol (B a) = N.
  Proof. intros Ha. apply (Hsec a Ha). Qed.

  (** [B p = g B]. *)
  Lemma B_fixed a : (a < nT)%nat -> meq (mmul (B a) (mscale (real (/ g a)) (p a))) (B a).
  Proof.
    intros Ha. destruct (Hsec a Ha) as (H1 & H2 & H3).
    etransitivity; [apply mm; [reflexivity| |symmetry; exact H3]|].
    { cbn. rewrite H1. apply (Hsq a Ha). }
    etransitivity; [symmetry; apply mmul_assoc; reflexivity|].
    etransitivity; [apply mm; [exact H2|reflexivity|reflexivity]|].
    apply mmul_eye_l. reflexivity.
  Qed.

  Lemma between a b H : (a < nT)%nat -> (b < nT)%nat -> nrow H = N -> ncol H = N ->
    (forall i j, (i < N)%nat -> (j < N)%nat ->
       ent (mmul (p a) (mmul H (p b))) i j = c0) ->
    meq (mmul (B a) (mmul H (madj (B b)))) (mzero (nrow (B a)) (nrow (B b))).
  Proof.
    intros Ha Hb Hr Hc Hz. pose proof (B_ncol a Ha) as Na. pose proof (B_ncol b Hb) as Nb.
    destruct (Hsq a Ha) as (Pa1 & Pa2). destruct (Hsq b Hb) as (Pb1 & Pb2).
    set (Ga := mscale (real (/ g a)) (p a)). set (Gb := mscale (real (/ g b)) (p b)).
    assert (Eb : meq (mmul Gb (madj (B b))) (madj (B b))).
    { destruct (Hsec b Hb) as (H1 & H2 & H3). unfold Gb.
      etransitivity; [apply mm; [symmetry; exact H3| |reflexivity]|].
      { cbn. congruence. }
      etransitivity; [apply mmul_assoc; reflexivity|].
      etransitivity; [apply mm; [reflexivity|reflexivity|exact H2]|].
      apply mmul_eye_r. reflexivity. }
    assert (Ea : meq (mmul (B a) Ga) (B a)) by (apply B_fixed; assumption).
    assert (Z : meq (mmul Ga (mmul H Gb)) (mzero N N)).
    { split; [exact Pa1|]. split; [exact Pb2|]. intros i j Hi Hj.
      change (i < nrow (p a))%nat in Hi. change (j < ncol (p b))%nat in Hj.
      rewrite Pa1 in Hi. rewrite Pb2 in Hj. specialize (Hz i j Hi Hj).
      cbn [mmul ent mzero] in *. change (ncol Ga) with (ncol (p a)).
      transitivity (real (/ g a) *c real (/ g b) *c
        ksum (ncol (p a)) (fun k => ent (p a) i k *c ksum (ncol H) (fun k0 => ent H k k0 *c ent (p b) k0 j))).
      - rewrite <- ksum_mul_l. apply ksum_ext. intros k _. unfold Ga, Gb. cbn [mscale ent].
        rewrite <- !ksum_mul_l. apply ksum_ext. intros k1 _. ring.
      - rewrite Hz. ring. }
    etransitivity.
    { apply mm; [symmetry; exact Ea|cbn; congruence|].
      apply mm; [reflexivity|cbn; congruence|symmetry; exact Eb]. }
    etransitivity; [apply mmul_assoc; cbn; congruence|].
    etransitivity.
    { apply mm; [reflexivity|cbn; congruence|].
      etransitivity; [apply mm; [reflexivity|cbn; congruence|symmetry; apply mmul_assoc; cbn; congruence]|].
      etransitivity; [symmetry; apply mmul_assoc; cbn; congruence|].
      apply mm; [exact Z|cbn; congruence|reflexivity]. }
    etransitivity; [apply mm; [reflexivity|cbn; congruence|apply mmul_zero_l]|].
    etransitivity; [apply mmul_zero_r|]. reflexivity.
  Qed.

  Lemma total_rows : list_sum (map (@nrow CR) Bs) = N.
  Proof.
    apply INR_eq, real_inj.
    transitivity (ksum nT (fun a => real (INR (nrow (B a))))).
    { rewrite map_map. rewrite <- klsum_seq. generalize (seq 0 nT). induction l as [|x l IH]; [reflexivity|].
      cbn [map list_sum fold_right klsum]. rewrite plus_INR, real_add. fold (list_sum (map (fun x => nrow (B x)) l)). rewrite IH. reflexivity. }
    transitivity (ksum nT (fun a => ksum N (fun i => real (/ g a) *c ent (p a) i i))).
    - apply ksum_ext. intros a Ha. destruct (Hsec a Ha) as (H1 & (_ & _ & H2) & (_ & _ & H3)).
      transitivity (ksum (nrow (B a)) (fun r => ksum N (fun j => ent (B a) r j *c conj (ent (B a) r j)))).
      + transitivity (ksum (nrow (B a)) (fun r => c1)).
        { generalize (nrow (B a)). induction n as [|n IH]; [reflexivity|]. cbn [ksum]. rewrite <- IH, S_INR, real_add. reflexivity. }
        apply ksum_ext. intros r Hrr. specialize (H2 r r Hrr Hrr). cbn [mmul madj ent meye] in H2.
        rewrite H1 in H2. symmetry. etransitivity; [exact H2|]. rewrite Nat.eqb_refl. reflexivity.
      + rewrite ksum_swap. apply ksum_ext. intros i Hi. specialize (H3 i i).
        cbn [mmul madj ent mscale nrow ncol] in H3. rewrite H1 in H3. rewrite <- H3 by assumption.
        apply ksum_ext. intros k _. ring.
    - rewrite ksum_swap. transitivity (ksum N (fun _ => c1)).
      + apply ksum_ext. intros i Hi. rewrite Hsum by assumption. rewrite Nat.eqb_refl. reflexivity.
      + clear. induction N as [|n IH]; [reflexivity|]. cbn [ksum]. rewrite IH, S_INR, real_add. reflexivity.
  Qed.

  Lemma msum_ent (l : list cmat) i j : (forall A, In A l -> nrow A = N /\ ncol A = N) ->
    nrow (msum N l) = N /\ ncol (msum N l) = N /\ ent (msum N l) i j = klsum l (fun A => ent A i j).
  Proof.
    induction l as [|A l IH]; intros H; [repeat split|]. destruct IH as (I1 & I2 & I3).
    { intros; apply H; right; assumption. }
    destruct (H A (or_introl eq_refl)) as (A1 & A2).
    cbn [msum fold_right madd nrow ncol ent klsum]. fold (msum N l). rewrite I3. auto.
  Qed.

  Lemma assembled : splits N Bs.
  Proof.
    split; [|split].
    - intros a Ha. rewrite Bs_length in Ha. cbv zeta. rewrite Bs_nth by assumption.
      destruct (Hsec a Ha) as (H1 & H2 & _). split; assumption.
    - intros a b Ha Hb Hne. rewrite Bs_length in Ha, Hb. cbv zeta. rewrite !Bs_nth by assumption.
      destruct (Hsq a Ha) as (Pa1 & Pa2). destruct (Hsq b Hb) as (Pb1 & Pb2).
      etransitivity; [|apply (between a b (meye N) Ha Hb eq_refl eq_refl)].
      + apply mm; [reflexivity|cbn; rewrite !B_ncol by assumption; reflexivity|]. symmetry. apply mmul_eye_l. cbn. apply B_ncol. assumption.
      + intros i j Hi Hj.
        assert (E : meq (mmul (p a) (mmul (meye N) (p b))) (mmul (p a) (p b))).
        { apply mm; [reflexivity|cbn; congruence|]. apply mmul_eye_l. assumption. }
        destruct E as (_ & _ & E). rewrite E by (cbn; congruence). cbn [mmul ent]. rewrite Pa2. apply Horth; assumption.
    - assert (Hdim : forall A, In A (map (fun A => mmul (madj A) A) Bs) -> nrow A = N /\ ncol A = N).
      { intros A HA. rewrite map_map in HA. apply in_map_iff in HA as (a & <- & Ha). apply in_seq in Ha.
        cbn. rewrite B_ncol by lia. auto. }
      split; [apply (msum_ent _ 0 0 Hdim)|]. split; [apply (msum_ent _ 0 0 Hdim)|]. intros i j Hi Hj.
      rewrite (proj1 (msum_ent _ 0 0 Hdim)) in Hi. rewrite (proj1 (proj2 (msum_ent _ 0 0 Hdim))) in Hj.
      rewrite (proj2 (proj2 (msum_ent _ i j Hdim))). rewrite !klsum_map, klsum_seq.
      cbn [meye ent]. rewrite <- Hsum by assumption. apply ksum_ext. intros a Ha.
      destruct (Hsec a Ha) as (H1 & _ & (_ & _ & H3)). apply H3; cbn; congruence.
  Qed.

  (** An operator commuting with the sector operators keeps the sectors apart. *)
  Lemma assembled_blocks H : nrow H = N -> ncol H = N ->
    (forall a, (a < nT)%nat -> meq (mmul (p a) H) (mmul H (p a))) -> block_diagonal Bs H.
  Proof.
    intros Hr Hc Hcom a b Ha Hb Hne. rewrite Bs_length in Ha, Hb. cbv zeta. rewrite !Bs_nth by assumption.
    apply between; auto. intros i j Hi Hj.
    destruct (Hsq a Ha) as (Pa1 & Pa2). destruct (Hsq b Hb) as (Pb1 & Pb2).
    assert (E : meq (mmul (p a) (mmul H (p b))) (mmul H (mmul (p a) (p b)))).
    { etransitivity; [symmetry; apply mmul_assoc; congruence|].
      etransitivity; [apply mm; [apply Hcom; assumption|cbn; congruence|reflexivity]|].
      apply mmul_assoc. congruence. }
    destruct E as (_ & _ & E). rewrite E by (cbn; congruence). cbn [mmul ent]. apply ksum_zero. intros k Hk.
    rewrite Pa2, Horth by (auto; congruence). ring.
  Qed.

  Lemma assembled_acts a T z : (a < nT)%nat -> nrow T = N -> ncol T = N ->
    meq (mmul T (p a)) (mscale z (p a)) -> acts_as (B a) T z.
  Proof.
    intros Ha Hr Hc HT. unfold acts_as. destruct (Hsec a Ha) as (H1 & H2 & H3). destruct (Hsq a Ha) as (P1 & P2).
    assert (Eb : meq (mmul (mscale (real (/ g a)) (p a)) (madj (B a))) (madj (B a))).
    { etransitivity; [apply mm; [symmetry; exact H3| |reflexivity]|].
      { cbn. congruence. }
      etransitivity; [apply mmul_assoc; reflexivity|].
      etransitivity; [apply mm; [reflexivity|reflexivity|exact H2]|].
      apply mmul_eye_r. reflexivity. }
    etransitivity; [apply mm; [reflexivity|cbn; congruence|symmetry; exact Eb]|].
    etransitivity; [symmetry; apply mmul_assoc; cbn; congruence|].
    etransitivity.
    { apply mm; [|cbn; congruence|reflexivity].
      etransitivity; [apply mmul_scale_r|]. etransitivity; [apply mscale_meq; exact HT|].
      instantiate (1 := mscale z (mscale (real (/ g a)) (p a))).
      split; [reflexivity|]. split; [reflexivity|]. intros i j _ _. cbn [mscale ent]. ring. }
    etransitivity; [apply mmul_scale_l|]. apply mscale_meq. exact Eb.
  Qed.
End Assemble.
