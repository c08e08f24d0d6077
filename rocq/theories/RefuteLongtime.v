(** Steps after which all energies come back into phase. *)
From Coq Require Import List Arith Lia Reals Lra Bool Permutation.
From Verif Require Import Scalars Res Sums Matrix SpecMat ModelGeometry ModelPhase ModelSymmetry SymBase ModelBase ModelThermal
  SpecThermal ThermalBase ThermalFacts ThermalBasis ThermalResponse SpecPrecess Precess SpecLongtime Longtime.
Import ListNotations.
Local Open Scope R_scope.

(** Two levels, energies -1 and 1. *)
Definition h2 : mat CR := Mat 2 2 (fun i j => if (i =? j)%nat then c0 else real (-1)).
Definition r2 : R := / sqrt 2.
Definition v2 : mat CR := Mat 2 2 (fun i k => if ((i =? 1) && (k =? 1))%nat then real (- r2) else real r2).
Definition e2 : list R := [-1; 1].
Definition o2 : mat CR := Mat 2 2 (fun i j => if ((i =? 0) && (j =? 0))%nat then c1 else c0).
Definition s2 : states := OneState 2 (fun i => if (i =? 0)%nat then k1 else k0).
Lemma r2_sq : r2 * r2 = / 2.
Proof. unfold r2. rewrite <- Rinv_mult. rewrite sqrt_sqrt by lra. reflexivity. Qed.
Lemma basis2 : eigenbasis h2 v2 e2.
Proof.
  pose proof r2_sq as Q. split; [|split].
  - split; [reflexivity|]. split; [reflexivity|]. split; [reflexivity|]. cbn [nrow ncol v2]. intros i k Hi Hk. assert (i = 0 \/ i = 1)%nat as [-> | ->] by lia; assert (k = 0 \/ k = 1)%nat as [-> | ->] by lia; apply injective_projections; cbn; ring.
  - unfold orthonormal. cbn [nrow ncol v2]. intros k l Hk Hl. assert (k = 0 \/ k = 1)%nat as [-> | ->] by lia; assert (l = 0 \/ l = 1)%nat as [-> | ->] by lia; apply injective_projections; cbn; lra.
  - unfold complete_basis. cbn [nrow ncol v2]. intros psi i Hi. assert (i = 0 \/ i = 1)%nat as [-> | ->] by lia; unfold inner, col; cbn; destruct (psi 0%nat) as (a, b), (psi 1%nat) as (c, d); apply injective_projections; cbn; symmetry; ring_simplify; replace (r2 ^ 2) with (/ 2) by (rewrite <- Q; ring); field.
Qed.
Lemma full_turn j : cexp (INR j * PI * (1 - -1)) = c1 /\ cexp (INR j * PI * (-1 - 1)) = c1.
Proof.
  assert (C : cos (INR j * PI * 2) = 1) by (replace (INR j * PI * 2) with (0 + 2 * INR j * PI) by ring; rewrite cos_period; apply cos_0).
  assert (S : sin (INR j * PI * 2) = 0) by (replace (INR j * PI * 2) with (0 + 2 * INR j * PI) by ring; rewrite sin_period; apply sin_0).
  replace (INR j * PI * (1 - -1)) with (INR j * PI * 2) by ring. replace (INR j * PI * (-1 - 1)) with (- (INR j * PI * 2)) by ring. unfold cexp. rewrite cos_neg, sin_neg, C, S. split; apply injective_projections; cbn; ring.
Qed.
Lemma zz2 k l : (k < 2)%nat -> (l < 2)%nat -> zz v2 o2 (col (as_columns s2) 0) k l = real (/ 4).
Proof.
  pose proof r2_sq as Q. assert (Q4 : r2 * r2 * (r2 * r2) = / 4) by (rewrite Q; lra). intros Hk Hl. assert (k = 0 \/ k = 1)%nat as [-> | ->] by lia; assert (l = 0 \/ l = 1)%nat as [-> | ->] by lia; unfold zz, elem, inner, apply, col; apply injective_projections; cbn; nra.
Qed.
Theorem resonant : exists H V E O st, eigenbasis H V E /\ nrow O = nrow V /\ ncol O = nrow V /\ dephased V O E (col (as_columns st) 0) = / 2 /\
  forall N Ms v, (1 <= N)%nat -> quench st V E (steps PI N) = Ok Ms -> exp_vals (Columns (nth 0 Ms (mzero 0 0))) O = Ok v -> mean v = 1.
Proof.
  exists h2, v2, e2, o2, s2. split; [exact basis2|]. split; [reflexivity|]. split; [reflexivity|]. split.
  - rewrite dephased_sum. cbn [length e2 seq total fold_right]. rewrite !zz2 by lia. unfold same. cbn [nth e2 fst real]. destruct (Req_EM_T (-1) (-1)); [|lra]. destruct (Req_EM_T (-1) 1); [lra|]. destruct (Req_EM_T 1 (-1)); [lra|]. destruct (Req_EM_T 1 1); [|lra]. lra.
  - intros N Ms v HN EQ EX. assert (LS : length (steps PI N) = N) by (unfold steps; rewrite map_length, seq_length; reflexivity). assert (K0 : (0 < ncol (as_columns s2))%nat) by (cbn; lia).
    rewrite (path_of v2 e2 s2 _ Ms 0 o2 EQ K0 eq_refl eq_refl) in EX. injection EX as <-. unfold mean. rewrite map_length, seq_length, LS, total_map.
    rewrite (total_ext _ (fun _ => 1)).
    + assert (T : forall l : list nat, total (fun _ => 1) l = INR (length l)) by (induction l as [|a l IH]; [reflexivity|]; cbn [total fold_right]; fold (total (fun _ : nat => 1) l); rewrite IH; cbn [length]; rewrite S_INR; ring).
      rewrite T, seq_length. field. apply not_0_INR. lia.
    + intros j Hj. apply in_seq in Hj. unfold steps. rewrite (map_seq_nth (fun j => INR j * PI)) by lia. rewrite (expect_at h2 v2 o2 e2 _ basis2). cbn [length e2 seq total fold_right]. rewrite !zz2 by lia. cbn [nth e2]. destruct (full_turn j) as (F1 & F2). rewrite F1, F2.
      replace (INR j * PI * (-1 - -1)) with 0 by ring. replace (INR j * PI * (1 - 1)) with 0 by ring. rewrite cexp_0. cbn. lra.
Qed.
