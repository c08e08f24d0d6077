(** Responses to changes of couplings: proofs. *)
From Coq Require Import List Arith Lia Reals Lra Bool.
From Verif Require Import Scalars Res Sums Matrix ModelGeometry ModelPhase ModelSymmetry SymBase ModelBase ModelThermal SpecThermal ThermalBase ThermalFacts ThermalBasis Spectral Thermo SpecHeat HeatCore SpecConvex Convex.
From Verif Require SymAverage.
Import ListNotations.
Local Open Scope R_scope.

Lemma smallest_sorted E : E <> [] -> sorted_list E -> smallest (nth 0 E 0) E.
Proof. intros NE SO. split; [apply nth_In; destruct E; [congruence | cbn; lia]|]. intros x Hx. apply (In_nth _ _ 0) in Hx as (k & Hk & <-). apply SO. lia. Qed.
Lemma smallest_same a b E : smallest a E -> smallest b E -> a = b.
Proof. intros (I1 & L1) (I2 & L2). apply Rle_antisym; auto. Qed.

Section Two.
  Variables (H1 V1 H2 V2 : mat CR) (E1 E2 : list R).
  Hypothesis b1 : eigenbasis H1 V1 E1.
  Hypothesis b2 : eigenbasis H2 V2 E2.
  Hypothesis same : nrow V2 = nrow V1.
  Hypothesis some : nrow V1 <> 0%nat.
  Notation n := (nrow V1).

  Lemma back T x : allowed T E2 -> exp_vals_thermal V2 (msub H2 H1) E2 T = Ok x -> exp_vals_thermal V2 (msub H1 H2) E2 T = Ok (- x).
  Proof using b1 b2 same some.
    intros HT EX. destruct b1 as ((_ & S1 & S2 & _) & _). destruct b2 as ((_ & S3 & S4 & _) & _).
    rewrite (average_sum H2 V2 E2 T (msub H1 H2) 1 (fun _ => -1) (fun _ => x) (fun _ => msub H2 H1)); [cbn; f_equal; ring | exact b2 | congruence | exact HT | cbn [msub nrow]; congruence | cbn [msub ncol]; congruence | | | intros; exact EX].
    - intros _ _. cbn [msub nrow ncol]. split; congruence.
    - intros i j _ _. cbn [msub ent ksum]. apply injective_projections; cbn; ring.
  Qed.
  Theorem free_energy_bounds T x1 x2 : 0 < T -> exp_vals_thermal V1 (msub H2 H1) E1 T = Ok x1 -> exp_vals_thermal V2 (msub H2 H1) E2 T = Ok x2 ->
    x2 <= free_energy T E2 - free_energy T E1 <= x1.
  Proof using b1 b2 same some.
    intros TP EX1 EX2. pose proof (bogoliubov H1 V1 H2 V2 E1 E2 n b1 b2 eq_refl same some T x1 TP EX1) as A.
    pose proof (bogoliubov H2 V2 H1 V1 E2 E1 n b2 b1 same eq_refl some T (- x2) TP (back T x2 ltac:(left; lra) EX2)) as B. lra.
  Qed.
  Theorem lowest_bounds e1 e2 x1 x2 : sorted_list E1 -> sorted_list E2 -> apart gap13 E1 -> apart gap13 E2 -> smallest e1 E1 -> smallest e2 E2 ->
    exp_vals_thermal V1 (msub H2 H1) E1 0 = Ok x1 -> exp_vals_thermal V2 (msub H2 H1) E2 0 = Ok x2 -> x2 <= e2 - e1 <= x1.
  Proof using b1 b2 same some.
    intros S1 S2 A1 A2 M1 M2 EX1 EX2. pose proof (lowest_bound H1 V1 H2 V2 E1 E2 n b1 b2 eq_refl same some e1 e2 x1 S1 A1 M1 M2 EX1) as A.
    pose proof (lowest_bound H2 V2 H1 V1 E2 E1 n b2 b1 same eq_refl some e2 e1 (- x2) S2 A2 M2 M1 (back 0 x2 ltac:(right; split; assumption) EX2)) as B. lra.
  Qed.
  Theorem average_falls T x1 x2 : 0 <= T -> allowed T E1 -> allowed T E2 -> exp_vals_thermal V1 (msub H2 H1) E1 T = Ok x1 -> exp_vals_thermal V2 (msub H2 H1) E2 T = Ok x2 -> x2 <= x1.
  Proof using b1 b2 same some.
    intros TP A1 A2 EX1 EX2. destruct TP as [TP|TZ].
    - pose proof (free_energy_bounds T x1 x2 TP EX1 EX2). lra.
    - subst T. destruct A1 as [A1|(S1 & A1)]; [congruence|]. destruct A2 as [A2|(S2 & A2)]; [congruence|].
      pose proof (lowest_bounds _ _ x1 x2 S1 S2 A1 A2 (smallest_sorted E1 (E_some H1 V1 E1 b1 some) S1) (smallest_sorted E2 (E_some H2 V2 E2 b2 ltac:(congruence)) S2) EX1 EX2). lra.
  Qed.
End Two.

(** The free energy and the lowest energy are concave. *)
Section Concave.
  Variables (H1 V1 H2 V2 V : mat CR) (E1 E2 E : list R) (s : R).
  Hypothesis b1 : eigenbasis H1 V1 E1.
  Hypothesis b2 : eigenbasis H2 V2 E2.
  Hypothesis b : eigenbasis (between s H1 H2) V E.
  Hypothesis r1 : nrow V1 = nrow V.
  Hypothesis r2 : nrow V2 = nrow V.
  Hypothesis some : nrow V <> 0%nat.
  Hypothesis inside : 0 <= s <= 1.
  Lemma between_average T : allowed T E -> exists x, exp_vals_thermal V (msub H1 (between s H1 H2)) E T = Ok (- s * x) /\ exp_vals_thermal V (msub H2 (between s H1 H2)) E T = Ok ((1 - s) * x).
  Proof using b1 b2 b r1 r2 some.
    intros HT. pose proof b1 as ((_ & S1 & S2 & _) & _). pose proof b2 as ((_ & S3 & S4 & _) & _). pose proof b as ((L & S5 & S6 & _) & _). cbn [between madd mscale nrow ncol] in S5, S6.
    destruct (average_weights V E T HT) as (w & _ & W). assert (TT : (if Req_EM_T T 0 then 0 else T) = T) by (destruct (Req_EM_T T 0); congruence). rewrite TT in W.
    pose proof (E_some _ V E b some) as NE.
    assert (FD : fits V (msub H2 H1) E) by (repeat split; cbn [msub nrow ncol]; congruence). exists (total (fun k => w k * expect (nrow V) (msub H2 H1) (col V k)) (seq 0 (length E))).
    specialize (W (msub H2 H1) FD).
    assert (G : forall c D, nrow D = nrow V -> ncol D = nrow V -> (forall i j, ent D i j = real c *c ent (msub H2 H1) i j) -> exp_vals_thermal V D E T = Ok (c * total (fun k => w k * expect (nrow V) (msub H2 H1) (col V k)) (seq 0 (length E)))).
    { intros c D D1 D2 ED. rewrite (average_sum _ V E T D 1 (fun _ => c) (fun _ => total (fun k => w k * expect (nrow V) (msub H2 H1) (col V k)) (seq 0 (length E))) (fun _ => msub H2 H1) b some HT D1 D2).
      - cbn [seq]. rewrite total_cons, total_nil. f_equal. ring.
      - intros _ _. split; apply FD.
      - intros i j _ _. rewrite ED. cbn [ksum]. apply injective_projections; cbn; ring.
      - intros _ _. exact W. }
    split; apply G; cbn [between madd mscale msub nrow ncol ent]; try congruence; intros i j; apply injective_projections; cbn; ring.
  Qed.
  Theorem free_energy_concave T : 0 < T -> (1 - s) * free_energy T E1 + s * free_energy T E2 <= free_energy T E.
  Proof using b1 b2 b r1 r2 some inside.
    intros TP. destruct (between_average T ltac:(left; lra)) as (x & X1 & X2).
    pose proof (bogoliubov (between s H1 H2) V H1 V1 E E1 (nrow V) b b1 eq_refl r1 some T _ TP X1) as A.
    pose proof (bogoliubov (between s H1 H2) V H2 V2 E E2 (nrow V) b b2 eq_refl r2 some T _ TP X2) as B.
    assert ((1 - s) * free_energy T E1 <= (1 - s) * (free_energy T E + - s * x)) by (apply Rmult_le_compat_l; lra).
    assert (s * free_energy T E2 <= s * (free_energy T E + (1 - s) * x)) by (apply Rmult_le_compat_l; lra). lra.
  Qed.
  Theorem lowest_concave e1 e2 e : smallest e1 E1 -> smallest e2 E2 -> smallest e E -> (1 - s) * e1 + s * e2 <= e.
  Proof using b1 b2 b r1 r2 some inside.
    intros M1 M2 M. destruct (In_nth E e 0 (proj1 M)) as (k & Hk & EK). pose proof (ev_H1 _ V E b k Hk) as X. rewrite EK in X.
    assert (Y : expect (nrow V) (between s H1 H2) (col V k) = (1 - s) * expect (nrow V) H1 (col V k) + s * expect (nrow V) H2 (col V k)).
    { rewrite (expect_sum (nrow V) (between s H1 H2) 2 (fun a => if (a =? 0)%nat then 1 - s else s) (fun a => if (a =? 0)%nat then H1 else H2)).
      - cbn [seq]. rewrite !total_cons, total_nil. cbn [Nat.eqb]. ring.
      - intros i j _ _. cbn [between madd mscale ent ksum Nat.eqb]. apply injective_projections; cbn; ring. }
    pose proof (variational H1 V1 E1 (nrow V) b1 r1 (col V k) e1 M1) as A. pose proof (variational H2 V2 E2 (nrow V) b2 r2 (col V k) e2 M2) as B.
    assert (U : norm2 (nrow V) (col V k) = 1) by (apply (unit1 (between s H1 H2) V E (nrow V) b eq_refl k Hk)). rewrite U in A, B.
    assert ((1 - s) * e1 <= (1 - s) * expect (nrow V) H1 (col V k)) by (apply Rmult_le_compat_l; lra).
    assert (s * e2 <= s * expect (nrow V) H2 (col V k)) by (apply Rmult_le_compat_l; lra). lra.
  Qed.
End Concave.
