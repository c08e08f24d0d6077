(** Concrete cases that meet the hypotheses of C159-C161: the ring of ten spins of
    the script. *)
From Coq Require Import List Arith Lia ZArith Reals Lra Bool Permutation.
From Verif Require Import Scalars Res Matrix SpecMat ModelSpins ModelPhase ModelSymmetry SpecSymmetry ModelThermal SpecThermal ThermalDiag Spectral SpaceHubbard SpinAlg
  SymBase ModelChain SpecChain PropertiesChain.
Import ListNotations.
Local Open Scope R_scope.

Notation root := (fun k => real (sqrt (INR k))).
Lemma root_ok : roots_ok (K:=CR) root 1.
Proof. intros i Hi. replace i with 0%nat by lia. change ((0 + 1) * (1 - 0))%nat with 1%nat. cbv beta. change (INR 1) with 1. rewrite sqrt_1. rewrite kofnat_S, kofnat_0. split; apply injective_projections; cbn; ring. Qed.
Lemma ten_fits : (2 <= 10)%Z /\ (2 * 10 <= 100000000000000)%Z. Proof. lia. Qed.

(** C159: the symmetries of the ring of ten spins. *)
Example ex_symmetries : exists Sz T F I, ring_symmetries (2 ^ 10) 10 Sz T F I.
Proof. destruct (C161_ring root 10 1 (proj1 ten_fits) (proj2 ten_fits) root_ok) as (c & _ & _ & RS & _). exists (ch_sz c), (ch_tx c), (ch_flip c), (ch_inv c). exact RS. Qed.

(** A solver that is right about finitely many hermitian matrices. *)
Definition same_entries (A B : mat CR) : bool :=
  (nrow A =? nrow B)%nat && (ncol A =? ncol B)%nat &&
  forallb (fun i => forallb (fun j => if keq_dec (ent A i j) (ent B i j) then true else false) (seq 0 (ncol A))) (seq 0 (nrow A)).
Lemma same_entries_meq A B : same_entries A B = true -> meq A B.
Proof.
  unfold same_entries. rewrite !andb_true_iff, !Nat.eqb_eq, forallb_forall. intros ((E1 & E2) & E3). split; [exact E1|]. split; [exact E2|].
  intros i j Hi Hj. specialize (E3 i ltac:(apply in_seq; lia)). rewrite forallb_forall in E3. specialize (E3 j ltac:(apply in_seq; lia)).
  destruct (keq_dec (ent A i j) (ent B i j)); [assumption|discriminate].
Qed.
Lemma same_entries_refl A : same_entries A A = true.
Proof.
  unfold same_entries. rewrite !Nat.eqb_refl. cbn [andb]. apply forallb_forall. intros i _. apply forallb_forall. intros j _.
  destruct (keq_dec (ent A i j) (ent A i j)); [reflexivity|congruence].
Qed.
Lemma solver_exists (l : list (mat CR)) : (forall A, In A l -> ncol A = nrow A /\ hermitian (nrow A) A) ->
  exists eigh : mat CR -> list R * mat CR, forall A, In A l -> eigenbasis A (snd (eigh A)) (fst (eigh A)).
Proof.
  induction l as [|B l IH]; intros HL; [exists (fun _ => ([], mzero 0 0)); intros A []|].
  destruct IH as (f & Hf); [intros A HA; apply HL; right; exact HA|]. destruct (HL B (or_introl eq_refl)) as (SB & HB).
  destruct (spectral (nrow B) B HB eq_refl SB) as (V & E & EB).
  exists (fun A => if same_entries B A then (E, V) else f A). intros A HA. destruct (same_entries B A) eqn:Q; cbn [fst snd].
  - exact (eigenbasis_meq B A V E (same_entries_meq B A Q) EB).
  - destruct HA as [->|HA]; [rewrite same_entries_refl in Q; discriminate|]. apply Hf, HA.
Qed.

(** C160 and C161: there is a solver for the ten spins and all their sectors, and the script then finds
    no difference. *)
Example ex_ten : exists c ss eigh, ring_chain root 10 (real 1) = Ok c /\ reduced_chain (fun A => A) c = Ok ss /\
  (forall A, A = ch_ham c \/ In A (map (sector_matrix c) ss) -> eigenbasis A (snd (eigh A)) (fst (eigh A))) /\
  compared eigh (fun A _ => eigh A) c ss = Ok 0 /\ NoDup (map (fun s => (se_mz s, se_k s, se_spin s, se_space s)) ss).
Proof.
  destruct (C161_script root 10 1 (fun A => A) (proj1 ten_fits) (proj2 ten_fits) root_ok) as (c & ss & EC & ES & SP & LB & BD & HH & RUN).
  destruct (C161_ring root 10 1 (proj1 ten_fits) (proj2 ten_fits) root_ok) as (c' & EC' & NS & RS & SQ & _). assert (c' = c) by congruence. subst c'.
  destruct (solver_exists (ch_ham c :: map (sector_matrix c) ss)) as (eigh & SV).
  { intros A [<-|HA].
    - destruct SQ as (S1 & S2). split; [rewrite S1, S2; reflexivity|rewrite S1; exact HH].
    - apply in_map_iff in HA as (s & <- & Hs). split; [reflexivity|]. apply (LB s Hs). }
  exists c, ss, eigh. split; [exact EC|]. split; [exact ES|].
  assert (SV' : forall A, A = ch_ham c \/ In A (map (sector_matrix c) ss) -> eigenbasis A (snd (eigh A)) (fst (eigh A))) by (intros A [->|HA]; apply SV; [left; reflexivity|right; exact HA]).
  split; [exact SV'|]. split; [apply RUN; exact SV'|].
  unfold reduced_chain in ES. rewrite NS in ES. refine (C159_labels _ _ _ _ _ _ _ _ _ (proj1 RS) ES). change (Z.to_nat 10) with 10%nat. lia.
Qed.
