(** Energies of the sectors and energies of the whole. *)
From Coq Require Import List Arith Lia Reals Lra Bool Ring Permutation Sorted.
From Verif Require Import Scalars Sums Res Matrix SpecMat ModelPhase ModelSymmetry SpecSymmetry SymBase ModelThermal SpecThermal ThermalBase ThermalSectors
  ThermalBasis ThermalDiag ThermalBlocks FreeThermal FreeSpectrum ModelChain.
Import ListNotations.
Local Open Scope R_scope.

Lemma energies_perm H V V' E E' : hermitian (nrow V) H -> eigenbasis H V E -> eigenbasis H V' E' -> nrow V' = nrow V -> Permutation E E'.
Proof.
  intros hm e e' sm. apply exp_perm. intros b.
  assert (LE : ncol V = length E) by apply e. assert (LE' : ncol V' = length E') by apply e'.
  pose proof (trace_indep H V V' (meye (nrow V)) E E' hm e e' sm (fun x => exp (- b * x))) as X.
  rewrite (total_ext (fun k : nat => exp (- b * nth k E 0) * expect (nrow V) (meye (nrow V)) (col V k)) (fun k => exp (- b * nth k E 0)) (seq 0 (ncol V))) in X.
  2:{ intros k Hk. apply in_seq in Hk. rewrite (norm_one H V E e) by lia. ring. }
  rewrite (total_ext (fun k : nat => exp (- b * nth k E' 0) * expect (nrow V) (meye (nrow V)) (col V' k)) (fun k => exp (- b * nth k E' 0)) (seq 0 (ncol V'))) in X.
  2:{ intros k Hk. apply in_seq in Hk. rewrite <- sm, (norm_one H V' E' e') by lia. ring. }
  rewrite LE, LE' in X. rewrite (nth_total (fun x => exp (- b * x)) E), (nth_total (fun x => exp (- b * x)) E') in X. exact X.
Qed.

Lemma sorted_tail a l : sorted_list (a :: l) -> sorted_list l /\ forall x, In x l -> a <= x.
Proof.
  intros H. split; [intros i j Hij; apply (H (S i) (S j)); cbn; lia|].
  intros x Hx. apply (In_nth _ _ 0) in Hx as (k & Hk & <-). apply (H 0%nat (S k)). cbn. lia.
Qed.
Lemma sorted_same l l' : sorted_list l -> sorted_list l' -> Permutation l l' -> l = l'.
Proof.
  revert l'. induction l as [|a l IH]; intros l' S S' P; [apply Permutation_nil in P; congruence|].
  destruct l' as [|b l']; [apply Permutation_sym, Permutation_nil in P; discriminate|].
  destruct (sorted_tail a l S) as (T1 & L1). destruct (sorted_tail b l' S') as (T2 & L2).
  assert (a = b).
  { assert (A : In a (b :: l')) by (rewrite <- P; left; reflexivity). assert (B : In b (a :: l)) by (rewrite P; left; reflexivity).
    destruct A as [A|A]; [congruence|]. destruct B as [B|B]; [congruence|]. specialize (L1 b B). specialize (L2 a A). lra. }
  subst b. f_equal. apply IH; [exact T1|exact T2|]. apply Permutation_cons_inv in P. exact P.
Qed.

Theorem blocks_spectrum (N : nat) (H : cmat) (l : list block) V E : square N H -> hermitian N H ->
  splits N (map (fun x => fst (fst x)) l) -> block_diagonal (map (fun x => fst (fst x)) l) H ->
  (forall x, In x l -> eigenbasis (seen_in (fst (fst x)) H) (snd (fst x)) (snd x)) ->
  eigenbasis H V E -> nrow V = N -> sorted_list E ->
  Permutation (concat (map snd l)) E /\ np_sort (concat (map snd l)) = E.
Proof.
  intros SQ HH SP BD EB HV NV SE.
  assert (BIG : eigenbasis H (stack N (map bW l)) (concat (map bE l))) by (split; [apply big_eigen; assumption|split; [apply (big_orthonormal N H); assumption|apply (big_complete N H); assumption]]).
  assert (P : Permutation (concat (map snd l)) E).
  { apply (energies_perm H (stack N (map bW l)) V); [rewrite stack_nrow; exact HH|exact BIG|exact HV|rewrite stack_nrow; exact NV]. }
  split; [exact P|]. apply sorted_same; [apply argsort_sorted|exact SE|]. unfold np_sort. rewrite argsort_energies. exact P.
Qed.
