(** How many ground states antiferromagnets on two kinds of sites have. *)
From Coq Require Import List Arith Lia Reals Lra ZArith QArith Bool Permutation.
From Verif Require Import Scalars Res Matrix Sums SqMat SpecMat ModelBase ModelSpins SpecSpins Digits SpinOps SpinAlg SpinHam SpinApi SpinSwap HamProofs SpecPerm
  ModelGeometry ModelPhase ModelSymmetry SymBase ModelThermal SpecThermal ThermalBase ThermalFacts ThermalBasis Spectral Thermo SpecHeat SpecConvex Convex SpecSigns Signs SignsHeat SignsSpins SpecSectors Perron Sectors SectorsRun Ladder SpecSinglet Dimers Heis Singlet SingletRun.
Import ListNotations.
Local Open Scope R_scope.

Lemma other_zero H V E n psi e j : eigenbasis H V E -> nrow V = n -> smallest e E -> state_of n H e psi -> (j < length E)%nat -> nth j E 0 <> e -> share V n psi j = 0.
Proof.
  intros B R (IN & LE) ST Hj NE. pose proof (state_energy H n psi e ST) as EN. rewrite (share_energy H V E n B R), (share_sum H V E n B R), <- total_scale in EN.
  destruct (Req_dec (share V n psi j) 0) as [Q|Q]; [exact Q|]. exfalso.
  assert (P : 0 < total (fun k => share V n psi k * nth k E 0 + -1 * (e * share V n psi k)) (seq 0 (length E))).
  { apply (total_positive _ _ j); [|apply in_seq; lia|].
    - intros i Hi. apply in_seq in Hi. pose proof (share_pos V n psi i). assert (e <= nth i E 0) by (apply LE, nth_In; lia). nra.
    - pose proof (share_pos V n psi j). assert (e <= nth j E 0) by (apply LE, nth_In; exact Hj). assert (0 < (nth j E 0 - e) * share V n psi j) by (apply Rmult_lt_0_compat; lra). lra. }
  rewrite total_add, total_scale in P. lra.
Qed.
Lemma count_total (E : list R) e : INR (count_occ Req_EM_T E e) = total (fun j => if Req_EM_T (nth j E 0) e then 1 else 0) (seq 0 (length E)).
Proof.
  induction E as [|x E IH]; [reflexivity|]. cbn [length seq]. rewrite total_cons, <- seq_shift, total_map. cbn [nth count_occ]. destruct (Req_EM_T x e) as [Q|Q]; [rewrite S_INR|]; rewrite IH; ring.
Qed.
Lemma count_by H V E n e (G : nat -> nat -> CR) d : eigenbasis H V E -> nrow V = n -> smallest e E -> (forall t, (t < d)%nat -> state_of n H e (G t) /\ norm2 n (G t) = 1) ->
  (forall v, state_of n H e v -> norm2 n v = total (fun t => abs2 (inner n (G t) v)) (seq 0 d)) -> count_occ Req_EM_T E e = d.
Proof.
  intros B R SM GS GC. apply INR_eq. rewrite count_total. transitivity (total (fun j => total (fun t => share V n (G t) j) (seq 0 d)) (seq 0 (length E))).
  - apply total_ext. intros j Hj. apply in_seq in Hj. destruct (Req_EM_T (nth j E 0) e) as [Q|Q].
    + pose proof (col_state H V E n B R j ltac:(lia)) as ST. rewrite Q in ST. rewrite <- (unit1 H V E n B R j ltac:(lia)), (GC _ ST). apply total_ext. intros t _. unfold share. rewrite <- (inner_conj n (G t) (col V j)). unfold abs2. cbn. ring.
    + symmetry. rewrite (total_ext _ (fun _ => 0 * 0)); [rewrite total_scale; ring|]. intros t Ht. apply in_seq in Ht. destruct (GS t ltac:(lia)) as (ST & _). rewrite (other_zero H V E n (G t) e j B R SM ST ltac:(lia) Q). ring.
  - rewrite total_swap. rewrite (total_ext _ (fun _ => 1)).
    + clear. enough (W : forall m k, total (fun _ : nat => 1) (seq k m) = INR m) by apply W. induction m as [|m IH]; intros k; [reflexivity|]. cbn [seq]. rewrite total_cons, IH, S_INR. ring.
    + intros t Ht. apply in_seq in Ht. destruct (GS t ltac:(lia)) as (_ & N1). rewrite <- N1. symmetry. apply (share_sum H V E n B R).
Qed.
Lemma norm_total n psi : norm2 n psi = total (fun a => abs2 (psi a)) (seq 0 n).
Proof. unfold norm2, inner. rewrite fst_ksum, rsum_total. apply total_ext. intros a _. unfold abs2. cbn. ring. Qed.
Lemma pick_one k d x (y : R) : (k <= x)%nat -> (x < k + d)%nat -> total (fun t => if (x =? k + t)%nat then y else 0) (seq 0 d) = y.
Proof.
  intros H1 H2. assert (G : forall m u, (x < k + u)%nat -> total (fun t => if (x =? k + t)%nat then y else 0) (seq u m) = 0).
  { induction m as [|m IH]; intros u Hu; [reflexivity|]. cbn [seq]. rewrite total_cons, (IH (S u)) by lia. rewrite (proj2 (Nat.eqb_neq _ _)) by lia. ring. }
  assert (W : forall m u, (k + u <= x)%nat -> (x < k + u + m)%nat -> total (fun t => if (x =? k + t)%nat then y else 0) (seq u m) = y); [|apply W; lia].
  induction m as [|m IH]; intros u A B; [lia|]. cbn [seq]. rewrite total_cons. destruct (Nat.eqb_spec x (k + u)) as [Q|Q]; [rewrite G by lia; ring | rewrite (IH (S u)) by lia; ring].
Qed.
Section Count.
  Variables (rt : nat -> CR) (s : spins CR) (J : nat -> nat -> R) (part : nat -> bool).
  Hypothesis root : rt 1%nat = k1.
  Hypothesis half : sp_two s = 1%nat.
  Notation n := (sg_nsites (sp_geom s)).
  Notation D := (2 ^ n)%nat.
  Hypothesis iso : isotropic s J.
  Hypothesis kinds : two_kinds part n J.
  Hypothesis conn : connected_spins s.
  Variables (l : list (nat * nat)) (r : list nat).
  Hypothesis pr : pairing part n l r.
  Hypothesis one : forall p q, In p r -> In q r -> part p = part q.
  Notation k := (length l).
  Theorem levels_equal F V E e : sp_createH rt s None = Ok F -> eigenbasis F V E -> smallest e E -> count_occ Req_EM_T E e = (n - 2 * k + 1)%nat.
  Proof using All.
    intros made basis low. destruct (full_lowest rt s J part root half iso kinds conn l r pr one F V E e made basis low) as (LK & IN). pose proof (pair_count s part l r pr) as PC.
    destruct LK as ((chi & L & X & Pc) & MK) eqn:EK. clear EK. pose proof (highest rt s J part root half iso kinds conn k e chi l r pr eq_refl LK L X Pc) as HW.
    set (nrm := fun t => sqrt (norm2 D (lower s t chi))). set (G := fun t a => real (/ nrm t) *c lower s t chi a).
    assert (LO : forall t, (t < n - 2 * k + 1)%nat -> lives n (k + t) (lower s t chi) /\ eig s J e (lower s t chi) /\ present s (lower s t chi)) by (intros t Ht; apply (lowered s J k e chi t L X Pc HW); lia).
    assert (NP : forall t, (t < n - 2 * k + 1)%nat -> 0 < nrm t /\ nrm t * nrm t = norm2 D (lower s t chi)).
    { intros t Ht. destruct (LO t Ht) as (_ & _ & (a & Ha & NA)). assert (P : 0 < norm2 D (lower s t chi)).
      { rewrite norm_total. apply (total_positive _ _ a); [intros i _; unfold abs2; nra | apply in_seq; lia |]. unfold abs2. destruct (lower s t chi a) as (x, y). cbn. destruct (Req_dec x 0) as [->|]; [|nra]. destruct (Req_dec y 0) as [->|]; [exfalso; apply NA; reflexivity | nra]. }
      split; [apply sqrt_lt_R0, P | apply sqrt_sqrt; lra]. }
    assert (GE : forall t, (t < n - 2 * k + 1)%nat -> eig s J e (G t)).
    { intros t Ht a Ha. unfold G. rewrite act_scale. destruct (LO t Ht) as (_ & X1 & _). rewrite (X1 a Ha). ring. }
    assert (GL : forall t, (t < n - 2 * k + 1)%nat -> lives n (k + t) (G t)).
    { intros t Ht a Ha N. unfold G. destruct (LO t Ht) as (L1 & _). rewrite (L1 a Ha N). apply injective_projections; cbn; ring. }
    assert (GN : forall t, (t < n - 2 * k + 1)%nat -> norm2 D (G t) = 1).
    { intros t Ht. destruct (NP t Ht) as (P & Q). unfold norm2, G. rewrite (inner_scale D), (inner_scale_l D). cbn. change (fst (inner D (lower s t chi) (lower s t chi))) with (norm2 D (lower s t chi)). rewrite <- Q. field. lra. }
    apply (count_by F V E D e G); [exact basis | exact (full_rows rt s half F V E made basis) | exact low | |].
    - intros t Ht. split; [|apply GN, Ht]. apply (full_eig rt s J root half iso F e (G t) made), GE, Ht.
    - intros v ST. specialize (IN v ST). apply (full_eig rt s J root half iso F e v made) in ST. rewrite norm_total.
      rewrite (total_ext _ (fun a => total (fun t => if (digit_sum 2 n a =? k + t)%nat then abs2 (v a) else 0) (seq 0 (n - 2 * k + 1)))).
      + rewrite total_swap. apply total_ext. intros t Ht. apply in_seq in Ht. set (m := (k + t)%nat). pose proof (level rt s J part root half iso kinds conn l r pr one e t LK ltac:(lia)) as LM. fold m in LM.
        assert (PG : present s (G t)). { destruct (present_dec s (G t)) as [Q|Q]; [exact Q|]. exfalso. pose proof (GN t ltac:(lia)) as W. unfold norm2 in W. rewrite inner_zero_r in W by exact Q. cbn in W. lra. }
        destruct (ground_multiple rt s J part root half iso kinds conn m e (G t) (part_of s m v) LM (GL t ltac:(lia)) (GE t ltac:(lia)) PG (part_lives s m v) (part_eig s J m e v ST)) as (z & Z).
        assert (I1 : inner D (G t) v = z).
        { rewrite (inner_ext D (G t) (G t) v (fun a => v a)) by reflexivity. transitivity (inner D (G t) (fun a => z *c G t a)).
          - apply ksum_ext. intros a Ha. destruct (Nat.eq_dec (digit_sum 2 n a) m) as [Q|Q]; [rewrite <- (Z a Ha), (part_nonzero s m v a Q); reflexivity|]. rewrite (GL t ltac:(lia) a Ha Q). apply injective_projections; cbn; ring.
          - rewrite inner_scale. pose proof (GN t ltac:(lia)) as W. unfold norm2 in W. assert (IM : snd (inner D (G t) (G t)) = 0). { pose proof (inner_conj D (G t) (G t)) as C. apply (f_equal snd) in C. cbn in C. lra. } rewrite (surjective_pairing (inner D (G t) (G t))), W, IM. apply injective_projections; cbn; ring. }
        rewrite I1. transitivity (total (fun a => abs2 z * abs2 (G t a)) (seq 0 D)); [|rewrite total_scale, <- norm_total, (GN t ltac:(lia)); ring].
        apply total_ext. intros a Ha. apply in_seq in Ha. pose proof (Z a ltac:(lia)) as W. unfold part_of in W. fold m. destruct (digit_sum 2 n a =? m)%nat; [rewrite W; unfold abs2; cbn; ring|]. symmetry. transitivity (abs2 (z *c G t a)); [unfold abs2; cbn; ring|]. rewrite <- W. unfold abs2. cbn. ring.
      + intros a Ha. apply in_seq in Ha. destruct (CR_eq_dec (v a) c0) as [Q|Q].
        * rewrite Q. rewrite (total_ext _ (fun _ => 0 * 0)); [rewrite total_scale; unfold abs2; cbn; ring|]. intros t _. destruct (_ =? _)%nat; unfold abs2; cbn; ring.
        * destruct (IN a ltac:(lia) Q). symmetry. apply (pick_one k). exact H. lia.
  Qed.
End Count.
