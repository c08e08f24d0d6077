(** States with the right signs are the lowest ones, and overlap. *)
From Coq Require Import List Arith Lia Reals Lra Bool.
From Verif Require Import Scalars Res Matrix Sums ModelGeometry ModelPhase ModelSymmetry SymBase ModelBase ModelThermal SpecThermal ThermalBase ThermalFacts ThermalBasis Spectral Thermo SpecHeat SpecConvex Convex SpecSigns Signs.
From Verif Require SymAverage.
Import ListNotations.
Local Open Scope R_scope.

Lemma total_positive {A} (f : A -> R) l k : (forall i, In i l -> 0 <= f i) -> In k l -> 0 < f k -> 0 < total f l.
Proof.
  induction l as [|i l IH]; intros P IN F; [destruct IN|]. rewrite total_cons. assert (0 <= total f l) by (apply total_ge0; intros j Hj; apply P; right; exact Hj). destruct IN as [->|IN]; [lra|].
  pose proof (P i (or_introl eq_refl)). pose proof (IH (fun j Hj => P j (or_intror Hj)) IN F). lra.
Qed.
Section Perron.
  Variables (H V : mat CR) (E : list R) (n : nat) (eps : nat -> R).
  Hypothesis basis : eigenbasis H V E.
  Hypothesis rows : nrow V = n.
  Hypothesis some : n <> 0%nat.
  Hypothesis sgn : signs n eps.
  Hypothesis low : lowers n eps H.
  Lemma smallest_exists : exists k, (k < length E)%nat /\ smallest (nth k E 0) E.
  Proof using basis rows some.
    clear sgn low. assert (NE : E <> []) by (apply (E_some H V E basis); rewrite rows; exact some). clear - NE. induction E as [|x l IH]; [congruence|]. destruct l as [|y l].
    - exists 0%nat. split; [cbn; lia|]. split; [left; reflexivity|]. intros z [<-|[]]. cbn. lra.
    - destruct (IH ltac:(discriminate)) as (k & Hk & (I & S)). destruct (Rle_dec x (nth k (y :: l) 0)) as [L|L].
      + exists 0%nat. split; [cbn; lia|]. split; [left; reflexivity|]. intros z [<-|Hz]; [cbn; lra|]. specialize (S z Hz). change (x <= z). lra.
      + exists (Datatypes.S k). split; [cbn in *; lia|]. change (nth (Datatypes.S k) (x :: y :: l) 0) with (nth k (y :: l) 0). split; [right; exact I|]. intros z [<-|Hz]; [lra | apply S, Hz].
  Qed.
  (** A state of one energy with the signs everywhere has the lowest energy. *)
  Theorem signs_lowest psi e : state_of n H e psi -> (forall a, (a < n)%nat -> snd (psi a) = 0 /\ 0 < eps a * fst (psi a)) -> smallest e E.
  Proof using All.
    intros ST POS. destruct smallest_exists as (k & Hk & SM). set (e0 := nth k E 0) in *. pose proof (col_state H V E n basis rows k Hk) as S0. fold e0 in S0.
    pose proof (upright_state H V E n eps basis rows sgn low _ e0 SM S0) as SU. set (phi := upright eps (col V k)) in *.
    assert (OV : 0 < fst (inner n phi psi)).
    { unfold inner. rewrite fst_ksum, rsum_total.
      assert (NZ : exists a, (a < n)%nat /\ size (col V k a) <> 0).
      { destruct basis as ((L & _) & ON & _). pose proof (ON k k ltac:(lia) ltac:(lia)) as O2. rewrite rows, Nat.eqb_refl in O2.
        assert (AL : forall m, (exists a, (a < m)%nat /\ size (col V k a) <> 0) \/ forall a, (a < m)%nat -> size (col V k a) = 0).
        { induction m as [|m IH]; [right; intros; lia|]. destruct IH as [(a & Ha & NA)|IH]; [left; exists a; split; [lia | exact NA]|]. destruct (Req_EM_T (size (col V k m)) 0) as [Z|Z]; [right | left; exists m; split; [lia | exact Z]].
          intros a Ha. destruct (Nat.eq_dec a m) as [->|]; [exact Z | apply IH; lia]. }
        destruct (AL n) as [?|Z]; [assumption|]. exfalso. unfold inner in O2. rewrite ksum_zero in O2; [apply (f_equal fst) in O2; cbn in O2; lra|].
        intros i Hi. rewrite (size_zero _ (Z i Hi)). apply injective_projections; cbn; ring. }
      destruct NZ as (a & Ha & NA). apply (total_positive _ _ a); [|apply in_seq; lia|].
      - intros b Hb. apply in_seq in Hb. destruct (POS b ltac:(lia)) as (Q1 & Q2). pose proof (size_pos (col V k b)). unfold phi, upright. cbn. rewrite Q1. nra.
      - destruct (POS a Ha) as (Q1 & Q2). pose proof (size_pos (col V k a)). unfold phi, upright. cbn. rewrite Q1. nra. }
    assert (Q : real e *c inner n phi psi = real e0 *c inner n phi psi).
    { rewrite <- inner_scale. rewrite (inner_ext n phi phi (fun i => real e *c psi i) (apply n H psi)); [|reflexivity | intros i Hi; symmetry; apply ST, Hi].
      rewrite (inner_apply_herm n H phi psi (H_herm H V E n basis rows)). rewrite (inner_ext n (apply n H phi) (fun i => real e0 *c phi i) psi psi); [|intros i Hi; apply SU, Hi | reflexivity].
      rewrite <- (inner_conj n psi). rewrite inner_scale. rewrite <- (inner_conj n psi phi). apply injective_projections; cbn; ring. }
    apply (f_equal fst) in Q. cbn in Q. assert (e = e0) by nra. subst e. exact SM.
  Qed.
End Perron.

(** Ground states of two Hamiltonians with the same signs are not orthogonal. *)
Theorem grounds_overlap (H1 V1 H2 V2 : mat CR) (E1 E2 : list R) (n : nat) (eps : nat -> R) psi phi e1 e2 :
  eigenbasis H1 V1 E1 -> eigenbasis H2 V2 E2 -> nrow V1 = n -> nrow V2 = n -> signs n eps -> lowers n eps H1 -> lowers n eps H2 ->
  (forall a b, (a < n)%nat -> (b < n)%nat -> joined n H1 a b) -> (forall a b, (a < n)%nat -> (b < n)%nat -> joined n H2 a b) ->
  smallest e1 E1 -> smallest e2 E2 -> state_of n H1 e1 psi -> state_of n H2 e2 phi -> (exists a, (a < n)%nat /\ psi a <> c0) -> (exists a, (a < n)%nat /\ phi a <> c0) -> inner n psi phi <> c0.
Proof.
  intros B1 B2 R1 R2 SG L1 L2 J1 J2 M1 M2 S1 S2 (a & Ha & NA) N2 Z.
  destruct (upright_phase H1 V1 E1 n eps B1 R1 SG L1 J1 psi e1 M1 S1) as (z1 & Z1 & P1). destruct (upright_phase H2 V2 E2 n eps B2 R2 SG L2 J2 phi e2 M2 S2) as (z2 & Z2 & P2).
  assert (X : inner n psi phi = (conj z1 *c z2) *c real (total (fun i => size (psi i) * size (phi i)) (seq 0 n))).
  { rewrite <- rsum_total. transitivity (ksum n (fun i => (conj z1 *c z2) *c real (size (psi i) * size (phi i)))).
    - apply ksum_ext. intros i Hi. rewrite (P1 i Hi) at 1. rewrite (P2 i Hi) at 1. pose proof (sign_sq n eps i SG Hi) as Q. destruct z1 as (a1, b1), z2 as (a2, b2).
      apply injective_projections; cbn; [transitivity ((eps i * eps i) * ((a1 * a2 + b1 * b2) * (size (psi i) * size (phi i)))) | transitivity ((eps i * eps i) * ((a1 * b2 - b1 * a2) * (size (psi i) * size (phi i))))]; try ring; rewrite Q; ring.
    - rewrite ksum_mul_l. f_equal. apply injective_projections; [rewrite fst_ksum; reflexivity|]. clear. induction n as [|m IH]; [reflexivity|]. cbn in *. rewrite IH. ring. }
  assert (T : 0 < total (fun i => size (psi i) * size (phi i)) (seq 0 n)).
  { apply (total_positive _ _ a); [intros i _; apply Rmult_le_pos; apply size_pos | apply in_seq; lia|]. apply Rmult_lt_0_compat.
    - destruct (size_pos (psi a)) as [|Q]; [assumption|]. exfalso. apply NA, size_zero. symmetry. exact Q.
    - destruct (size_pos (phi a)) as [|Q]; [assumption|]. exfalso. apply (nodeless H2 V2 E2 n eps B2 R2 SG L2 J2 phi e2 a M2 S2 N2 Ha), size_zero. symmetry. exact Q. }
  rewrite Z in X. unfold abs2 in Z1, Z2. destruct z1 as (a1, b1), z2 as (a2, b2). cbn in Z1, Z2. set (t := total _ _) in *. 
  pose proof (f_equal fst X) as X1. pose proof (f_equal snd X) as X2. cbn in X1, X2.
  assert (A1 : a1 * a2 + b1 * b2 = 0) by nra. assert (A2 : a1 * b2 - b1 * a2 = 0) by nra.
  assert ((a1 * a1 + b1 * b1) * (a2 * a2 + b2 * b2) = (a1 * a2 + b1 * b2) * (a1 * a2 + b1 * b2) + (a1 * b2 - b1 * a2) * (a1 * b2 - b1 * a2)) by ring. rewrite Z1, Z2, A1, A2 in H. lra.
Qed.
