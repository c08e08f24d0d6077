(** Diagonalisation, norms and subspace weights: proofs. *)
From Coq Require Import List Arith Lia Reals Lra Bool Sorting Permutation.
From Verif Require Import Scalars Res Matrix SpecMat ModelGeometry GeoSort ModelPhase ModelSymmetry SymBase ModelBase SubspaceProofs
  ModelThermal SpecThermal ThermalBase ThermalSectors ThermalBasis.
Import ListNotations.
Local Open Scope R_scope.

(** ** Sums over permuted indices *)
Definition clsum (f : nat -> CR) (l : list nat) : CR := fold_right (fun k s => f k +c s) c0 l.
Lemma clsum_app f l m : clsum f (l ++ m) = clsum f l +c clsum f m.
Proof.
  induction l as [|a l IH]; [cbn [app]; change (clsum f []) with c0; ring|].
  change (clsum f ((a :: l) ++ m)) with (f a +c clsum f (l ++ m)). rewrite IH.
  change (clsum f (a :: l)) with (f a +c clsum f l). ring.
Qed.
Lemma ksum_clsum n f : ksum n f = clsum f (seq 0 n).
Proof.
  induction n as [|n IH]; [reflexivity|]. rewrite seq_S, clsum_app. cbn [ksum Nat.add]. rewrite IH.
  change (clsum f [n]) with (f n +c c0). ring.
Qed.
Lemma clsum_perm f l m : Permutation l m -> clsum f l = clsum f m.
Proof.
  induction 1; [reflexivity| | |congruence].
  - change (f x +c clsum f l = f x +c clsum f l'). rewrite IHPermutation. reflexivity.
  - change (f y +c (f x +c clsum f l) = f x +c (f y +c clsum f l)). ring.
Qed.
Lemma clsum_map f g l : clsum f (map g l) = clsum (fun k => f (g k)) l.
Proof.
  induction l as [|a l IH]; [reflexivity|].
  change (f (g a) +c clsum f (map g l) = f (g a) +c clsum (fun k => f (g k)) l). rewrite IH. reflexivity.
Qed.
Lemma seq_nth_self (s : list nat) : map (fun k => nth k s O) (seq 0 (length s)) = s.
Proof.
  apply (nth_ext _ _ O O); [rewrite map_length, seq_length; reflexivity|]. rewrite map_length, seq_length. intros i Hi.
  rewrite (nth_indep _ O (nth O s O)) by (rewrite map_length, seq_length; exact Hi).
  rewrite (map_nth (fun k => nth k s O)), seq_nth by exact Hi. reflexivity.
Qed.
Lemma ksum_reindex n f s : Permutation s (seq 0 n) -> ksum (length s) (fun k => f (nth k s O)) = ksum n f.
Proof.
  intros P. rewrite !ksum_clsum, <- (clsum_perm f _ _ P), <- clsum_map, seq_nth_self. reflexivity.
Qed.

(** ** argsort *)
Lemma rle_b_true x y : rle_b x y = true <-> x <= y.
Proof. unfold rle_b. destruct (Rle_dec x y); split; intros; auto; congruence. Qed.
Lemma argsort_perm E : Permutation (argsort E) (seq 0 (length E)).
Proof. apply Permutation_sym, sort_perm. Qed.
Lemma argsort_length E : length (argsort E) = length E.
Proof. rewrite (Permutation_length (argsort_perm E)). apply seq_length. Qed.
Lemma argsort_lt E k : (k < length E)%nat -> (nth k (argsort E) O < length E)%nat.
Proof.
  intros Hk. assert (X : In (nth k (argsort E) O) (seq 0 (length E))).
  { apply (Permutation_in _ (argsort_perm E)), nth_In. rewrite argsort_length. exact Hk. }
  apply in_seq in X. lia.
Qed.
Lemma sorted_nth {A} (R : A -> A -> Prop) l d i j : (forall x, R x x) -> StronglySorted R l -> (i <= j < length l)%nat -> R (nth i l d) (nth j l d).
Proof.
  intros refl S. revert i j. induction S as [|a l S IH F]; intros i j Hij; cbn in Hij; [lia|].
  destruct i as [|i], j as [|j]; cbn; try lia; auto.
  - rewrite Forall_forall in F. apply F, nth_In. lia.
  - apply IH. lia.
Qed.
Lemma take_nth (E : list R) s k : (k < length s)%nat -> nth k (map (fun i => nth i E 0) s) 0 = nth (nth k s O) E 0.
Proof.
  intros Hk. rewrite (nth_indep _ 0 (nth O E 0)) by (rewrite map_length; exact Hk).
  apply (map_nth (fun i => nth i E 0)).
Qed.
Lemma argsort_sorted E : sorted_list (map (fun i => nth i E 0) (argsort E)).
Proof.
  intros i j Hij. rewrite map_length in Hij. rewrite !take_nth by lia.
  apply rle_b_true. apply (sorted_nth (fun a b => r_le (fun i => nth i E 0) a b = true)).
  - intros x. unfold r_le. apply rle_b_true. lra.
  - apply sort_sorted; unfold r_le.
    + intros a b. rewrite !rle_b_true. destruct (Rle_dec (nth a E 0) (nth b E 0)); [left; assumption | right; lra].
    + intros a b c. rewrite !rle_b_true. intros; lra.
  - exact Hij.
Qed.
Lemma argsort_energies E : Permutation (map (fun i => nth i E 0) (argsort E)) E.
Proof. etransitivity; [apply Permutation_map, argsort_perm|]. rewrite <- list_seq. reflexivity. Qed.

(** ** Permuted eigenvectors *)
Section Permuted.
  Variables (H V : cmat) (E : list R) (s : list nat).
  Hypothesis P : Permutation s (seq 0 (length E)).
  Let ls : length s = length E.
  Proof. rewrite (Permutation_length P). apply seq_length. Qed.
  Let s_lt k : (k < length s)%nat -> (nth k s O < length E)%nat.
  Proof. intros Hk. assert (X : In (nth k s O) (seq 0 (length E))) by (apply (Permutation_in _ P), nth_In; exact Hk). apply in_seq in X. lia. Qed.

  Lemma take_eigen : eigen H V E -> eigen H (take_cols V s) (map (fun i => nth i E 0) s).
  Proof using ls s_lt.
    intros (E1 & E2 & E3 & X). repeat split; cbn [take_cols nrow ncol ent]; auto; [rewrite map_length; reflexivity|].
    intros i k Hi Hk. rewrite take_nth by exact Hk. apply (X i (nth k s O)); [exact Hi|]. rewrite E1. apply s_lt, Hk.
  Qed.
  Lemma take_orthonormal : ncol V = length E -> orthonormal V -> orthonormal (take_cols V s).
  Proof using ls s_lt P.
    intros EV ON k l Hk Hl. cbn [take_cols nrow ncol] in *.
    change (inner (nrow V) (col V (nth k s O)) (col V (nth l s O)) = kb (k =? l)%nat).
    rewrite ON by (rewrite EV; apply s_lt; assumption). f_equal.
    destruct (Nat.eqb_spec k l) as [->|Ne]; [apply Nat.eqb_refl|]. apply Nat.eqb_neq. intros Q. apply Ne.
    apply (NoDup_nth s O); try assumption. apply (Permutation_NoDup (Permutation_sym P)), seq_NoDup.
  Qed.
  Lemma take_complete : ncol V = length E -> complete_basis V -> complete_basis (take_cols V s).
  Proof using P.
    intros EV C psi i Hi. cbn [take_cols nrow ncol ent] in *. rewrite (C psi i Hi), EV.
    symmetry. apply (ksum_reindex (length E) (fun k => ent V i k *c inner (nrow V) (col V k) psi) s P).
  Qed.
End Permuted.

Lemma diagH_dense eigh eigsh H k : eigenbasis H (snd (eigh H)) (fst (eigh H)) ->
  let EV := diagH eigh eigsh H k false in
  sorted_list (fst EV) /\ eigenbasis H (snd EV) (fst EV) /\ Permutation (fst EV) (fst (eigh H)) /\ nrow (snd EV) = nrow (snd (eigh H)).
Proof.
  unfold diagH. destruct (eigh H) as [E V]. cbn [fst snd]. intros (EG & ON & CM). cbv zeta. cbn [fst snd].
  assert (LE : ncol V = length E) by apply EG.
  split; [apply argsort_sorted|]. split; [|split; [apply argsort_energies | reflexivity]].
  split; [apply take_eigen; [apply argsort_perm | exact EG]|].
  split; [apply (take_orthonormal V E) | apply (take_complete V E)]; try assumption; apply argsort_perm.
Qed.

Definition shifted (H : cmat) : cmat := plus_const 100 H.
Lemma shifted_eigen H V E : nrow H = ncol H -> eigen (shifted H) V E -> eigen H V (map (fun e => e - 100) E).
Proof.
  intros SQ (E1 & E2 & E3 & X). cbn [shifted plus_const madd mscale nrow ncol ent] in *.
  repeat split; auto; [rewrite map_length; exact E1|]. intros i k Hi Hk.
  specialize (X i k Hi Hk).
  assert (A : apply (nrow V) (shifted H) (col V k) i = apply (nrow V) H (col V k) i +c real 100 *c ent V i k).
  { unfold apply, shifted, plus_const. cbn [madd mscale meye ent]. change ((100, 0) : CR) with (real 100).
    rewrite (ksum_ext _ _ (fun j => ent H i j *c col V k j +c real 100 *c (kb (i =? j)%nat *c col V k j))) by (intros; unfold plus_const; cbn [madd mscale meye ent]; change ((100, 0) : CR) with (real 100); ring).
    rewrite ksum_add, ksum_mul_l. f_equal. f_equal. rewrite (ksum_single (nrow V) i).
    - rewrite Nat.eqb_refl. cbn [kb]. unfold col. ring.
    - exact Hi.
    - intros j Hj Ne. replace (i =? j)%nat with false by (symmetry; apply Nat.eqb_neq; congruence). cbn [kb]. ring. }
  rewrite A in X.
  rewrite (nth_indep _ 0 (0 - 100)) by (rewrite map_length; lia). rewrite (map_nth (fun e => e - 100)).
  change (nth k E 0 - 100, 0) with (real (nth k E 0 - 100)).
  replace (real (nth k E 0 - 100)) with (real (nth k E 0) +c kopp (real 100)).
  2:{ unfold real. apply injective_projections; cbn; ring. }
  change (nth k E 0, 0) with (real (nth k E 0)) in X.
  transitivity (apply (nrow V) H (col V k) i +c real 100 *c ent V i k +c kopp (real 100 *c ent V i k)); [ring|].
  rewrite X. ring.
Qed.

Lemma diagH_sparse eigh eigsh H k : nrow H = ncol H ->
  let EV' := eigsh (shifted H) k in
  eigen (shifted H) (snd EV') (fst EV') -> orthonormal (snd EV') ->
  let EV := diagH eigh eigsh H k true in
  sorted_list (fst EV) /\ eigen H (snd EV) (fst EV) /\ orthonormal (snd EV) /\
  Permutation (fst EV) (map (fun e => e - 100) (fst EV')).
Proof.
  intros SQ. unfold diagH, shift_offset. change (madd H (mscale (real 100) (meye (nrow H)))) with (shifted H). destruct (eigsh (shifted H) k) as [E V]. cbv zeta. cbn [fst snd].
  intros EG ON. pose proof (shifted_eigen H V E SQ EG) as EG'.
  split; [apply argsort_sorted|]. split; [apply take_eigen; [apply argsort_perm | exact EG']|].
  split; [|apply argsort_energies].
  apply (take_orthonormal V (map (fun e => e - 100) E)); [apply argsort_perm | apply EG' | exact ON].
Qed.

(** ** Norms *)
Lemma norms_columns S : norms (Columns S) = Ok (map (fun k => norm2 (nrow S) (col S k)) (seq 0 (ncol S))).
Proof. reflexivity. Qed.
Lemma norm2_nsq n psi : norm2 n psi = rsum n (fun i => nsq (psi i)).
Proof. unfold norm2, inner. rewrite fst_ksum. apply rsum_ext. intros i _. rewrite conj_mul_self. reflexivity. Qed.
Lemma norm2_ge n psi : 0 <= norm2 n psi.
Proof. rewrite norm2_nsq. apply rsum_ge. intros; apply nsq_ge. Qed.

(** ** Weights of subspaces *)
Lemma expect_mdiag n (A : cmat) d psi : meq A (mdiag n d) -> (forall i, (i < n)%nat -> snd (d i) = 0) ->
  expect n A psi = rsum n (fun i => fst (d i) * nsq (psi i)).
Proof.
  intros (M1 & M2 & M) R. unfold expect, inner. rewrite fst_ksum. apply rsum_ext. intros i Hi.
  assert (X : apply n A psi i = d i *c psi i).
  { unfold apply. rewrite (ksum_single n i).
    - rewrite M by (cbn in *; lia). cbn [mdiag ent]. rewrite Nat.eqb_refl. reflexivity.
    - exact Hi.
    - intros j Hj Ne. rewrite M by (cbn in *; lia). cbn [mdiag ent].
      replace (i =? j)%nat with false by (symmetry; apply Nat.eqb_neq; congruence). ring. }
  rewrite X. specialize (R i Hi). destruct (d i) as [a b]. cbn in R. subst b. unfold nsq. destruct (psi i) as [x y]. cbn. ring.
Qed.

Lemma total_index {A} (f : A -> R) (l : list A) d : total f l = total (fun t => f (nth t l d)) (seq 0 (length l)).
Proof.
  induction l as [|a l IH]; [reflexivity|]. rewrite total_cons. cbn [length seq]. rewrite total_cons. cbn [nth]. f_equal.
  rewrite <- seq_shift, total_map. exact IH.
Qed.
Lemma total_rsum_swap {A} (l : list A) n (f : A -> nat -> R) :
  total (fun a => rsum n (f a)) l = rsum n (fun i => total (fun a => f a i) l).
Proof.
  induction n as [|n IH]; cbn [rsum]; [apply total_zero; reflexivity|]. rewrite total_add, IH. reflexivity.
Qed.
Definition is_eq (x v : CR) : R := if cr_eq_dec x v then 1 else 0.
Lemma total_pick (g : CR -> R) x vs : NoDup vs -> In x vs -> total (fun v => is_eq x v * g v) vs = g x.
Proof.
  induction 1 as [|v vs Hn ND IH]; intros Hx; [destruct Hx|]. rewrite total_cons. unfold is_eq at 1.
  destruct (cr_eq_dec x v) as [->|Ne].
  - rewrite total_zero; [ring|]. intros w Hw. unfold is_eq. destruct (cr_eq_dec v w) as [->|]; [contradiction | ring].
  - rewrite IH; [ring|]. destruct Hx; [congruence | assumption].
Qed.

Lemma subspace_weights n (op M : cmat) : diagonal_mat n op -> nrow M = n ->
  exists ps vs ws, subspace_projs true op None = Ok (ps, vs) /\ subspace_overlaps (Columns M) ps = Ok ws /\
    length ws = length vs /\
    (forall w, In w ws -> length w = ncol M) /\
    (forall k t, (k < ncol M)%nat -> (t < length vs)%nat -> 
       nth k (nth t ws []) 0 = rsum n (fun i => is_eq (ent op i i) (nth t vs c0) * nsq (ent M i k))) /\
    (forall k, (k < ncol M)%nat -> total (fun w => nth k w 0) ws = norm2 n (col M k)) /\
    ((forall i, (i < n)%nat -> snd (ent op i i) = 0) -> forall k, (k < ncol M)%nat ->
       total (fun t => nth k (nth t ws []) 0 * fst (nth t vs c0)) (seq 0 (length vs)) = expect n op (col M k)).
Proof.
  intros HD HM. destruct (projs_spec n op None HD) as (ps & vs & E & L & _ & V & S & _).
  destruct (V eq_refl) as (ND & VS). clear V.
  assert (Dm : forall t, (t < length ps)%nat -> meq (mmul (madj (nth t ps (mzero 0 0))) (nth t ps (mzero 0 0)))
       (mdiag n (fun k => if keq_dec (ent op k k) (nth t vs k0) then k1 else k0))).
  { intros t Ht. rewrite L in Ht. destruct (S t Ht) as (idx & X). cbv zeta in X. apply X. }
  set (ws := map (fun P => map (fun k => expect n (mmul (madj P) P) (col M k)) (seq 0 (ncol M))) ps).
  exists ps, vs, ws. split; [exact E|].
  assert (W : subspace_overlaps (Columns M) ps = Ok ws).
  { unfold subspace_overlaps. apply rmap_all. intros P HP. cbn [as_columns].
    apply (In_nth _ _ (mzero 0 0)) in HP as (t & Ht & <-). destruct (Dm t Ht) as (D1 & D2 & _). cbn in D1, D2.
    rewrite exp_vals_spec; [rewrite HM; reflexivity | cbn; lia | cbn; lia]. }
  split; [exact W|]. split; [unfold ws; rewrite map_length; exact L|].
  split; [intros w Hw; unfold ws in Hw; apply in_map_iff in Hw as (P & <- & _); rewrite map_length, seq_length; reflexivity|].
  assert (EN : forall k t, (k < ncol M)%nat -> (t < length vs)%nat ->
       nth k (nth t ws []) 0 = rsum n (fun i => is_eq (ent op i i) (nth t vs c0) * nsq (ent M i k))).
  { intros k t Hk Ht. rewrite <- L in Ht.
    unfold ws. rewrite (nth_indep _ [] (map (fun k => expect n (mmul (madj (mzero 0 0)) (mzero 0 0)) (col M k)) (seq 0 (ncol M)))) by (rewrite map_length; exact Ht).
    rewrite (map_nth (fun P => map (fun k => expect n (mmul (madj P) P) (col M k)) (seq 0 (ncol M)))).
    set (P := nth t ps (mzero 0 0)).
    rewrite (nth_indep _ 0 (expect n (mmul (madj P) P) (col M O))) by (rewrite map_length, seq_length; exact Hk).
    rewrite (map_nth (fun k => expect n (mmul (madj P) P) (col M k))), seq_nth by exact Hk. cbn [Nat.add].
    rewrite (expect_mdiag n _ _ _ (Dm t Ht)).
    - apply rsum_ext. intros i Hi. unfold is_eq, col. destruct (keq_dec (ent op i i) (nth t vs k0)) as [e|e];
      destruct (cr_eq_dec (ent op i i) (nth t vs c0)) as [e'|e']; try contradiction; cbn; ring.
    - intros i Hi. destruct (keq_dec _ _); reflexivity. }
  split; [exact EN|]. 
  assert (LW : length ws = length vs) by (unfold ws; rewrite map_length; exact L).
  split.
  - intros k Hk. rewrite (total_index _ ws []), LW.
    rewrite (total_ext _ (fun t => rsum n (fun i => is_eq (ent op i i) (nth t vs c0) * nsq (ent M i k))))
      by (intros t Ht; apply in_seq in Ht; apply EN; [exact Hk | lia]).
    rewrite norm2_nsq, total_rsum_swap. apply rsum_ext. intros i Hi. unfold col.
    rewrite <- (total_index (fun v => is_eq (ent op i i) v * nsq (ent M i k)) vs c0).
    rewrite (total_pick (fun _ => nsq (ent M i k))); [reflexivity | exact ND | apply VS; exists i; split; [exact Hi | reflexivity]].
  - intros RE k Hk.
    rewrite (total_ext _ (fun t => rsum n (fun i => is_eq (ent op i i) (nth t vs c0) * (nsq (ent M i k) * fst (nth t vs c0))))).
    2:{ intros t Ht. apply in_seq in Ht. rewrite EN by (try exact Hk; lia).
        rewrite Rmult_comm. assert (Q : forall m c f, c * rsum m f = rsum m (fun i => c * f i)).
        { induction m as [|m IH]; intros; cbn [rsum]; [ring | rewrite <- IH; ring]. }
        rewrite Q. apply rsum_ext. intros; ring. }
    rewrite total_rsum_swap.
    rewrite (expect_mdiag n op (fun i => ent op i i) (col M k)).
    + apply rsum_ext. intros i Hi. unfold col.
      rewrite <- (total_index (fun v => is_eq (ent op i i) v * (nsq (ent M i k) * fst v)) vs c0).
      rewrite (total_pick (fun v => nsq (ent M i k) * fst v)); [ring | exact ND | apply VS; exists i; split; [exact Hi | reflexivity]].
    + destruct HD as ((D1 & D2) & D3). split; [exact D1|]. split; [exact D2|]. intros i j Hi Hj. cbn [mdiag ent].
      destruct (Nat.eqb_spec i j) as [->|Ne]; [reflexivity | apply D3; cbn in *; lia].
    + exact RE.
Qed.
