(** Hamiltonians that differ by signs of the basis states and by a factor. *)
From Coq Require Import List Arith Lia Reals Lra Bool Permutation.
From Verif Require Import Scalars Res Matrix Sums SqMat SpecMat ModelBase ModelGeometry ModelPhase ModelSymmetry SymBase ModelThermal SpecThermal ThermalBase ThermalFacts ThermalBasis Precess.
From Verif Require SymAverage ChainSpectrum.
Import ListNotations.
Local Open Scope R_scope.

(** Evolution depends on the Hamiltonian only. *)
Lemma evolve_unique H V V' E E' psi t i : eigenbasis H V E -> eigenbasis H V' E' -> (i < nrow V)%nat -> evolve V E psi t i = evolve V' E' psi t i.
Proof.
  intros B B' Hi. assert (same : nrow V' = nrow V) by (destruct B as ((_ & X & _) & _), B' as ((_ & X' & _) & _); congruence).
  pose proof (SymAverage.eigenbasis_hermitian _ _ _ B) as HM. assert (C : complete_basis V) by apply B. assert (C' : complete_basis V') by apply B'.
  rewrite (evolve_expand V E), (evolve_expand V' E'). set (n := nrow V) in *. rewrite same.
  rewrite (ksum_ext (ncol V') _ (fun l => ksum (ncol V) (fun k => col V k i *c (cexp (- (t * nth k E 0)) *c (inner n (col V k) (col V' l) *c inner n (col V' l) psi))))).
  - rewrite ksum_swap. apply ksum_ext. intros k Hk. rewrite !ksum_mul_l. f_equal. f_equal. pose proof (complete_inner V' (col V k) psi C') as Q. rewrite same in Q. exact Q.
  - intros l Hl. pose proof (C (col V' l) i Hi) as Q. cbn beta in Q. rewrite Q at 1. rewrite <- ksum_mul_r. apply ksum_ext. intros k Hk. fold n. fold (col V k i). change (ent V i k) with (col V k i).
    destruct (Req_EM_T (nth k E 0) (nth l E' 0)) as [->|NE]; [ring|].
    assert (Z : inner n (col V k) (col V' l) = c0).
    { destruct (Req_EM_T (nsq (inner n (col V k) (col V' l))) 0) as [Q0|Q0]; [apply nsq_0, Q0|]. exfalso. apply NE. apply (overlap_energy H V V' E E' HM B B' same k l Hk Hl). intros X. apply Q0. apply nsq_0. exact X. }
    rewrite Z. ring.
Qed.

Lemma evolve_scale V E z psi t i : evolve V E (fun p => z *c psi p) t i = z *c evolve V E psi t i.
Proof. rewrite !evolve_expand, <- ksum_mul_l. apply ksum_ext. intros k Hk. rewrite inner_scale. ring. Qed.
Lemma evolve_ext V E psi phi t i : (forall p, (p < nrow V)%nat -> psi p = phi p) -> evolve V E psi t i = evolve V E phi t i.
Proof. intros Q. rewrite !evolve_expand. apply ksum_ext. intros k Hk. rewrite (inner_ext (nrow V) (col V k) (col V k) psi phi) by (reflexivity || exact Q). reflexivity. Qed.

Section Gauge.
  Variables (n : nat) (u : nat -> R) (r : R) (H H' V : mat CR) (E : list R).
  Hypothesis sq : forall p, (p < n)%nat -> u p * u p = 1.
  Hypothesis rows : nrow V = n.
  Hypothesis r1 : nrow H' = n.
  Hypothesis r2 : ncol H' = n.
  Hypothesis rel : forall p q, (p < n)%nat -> (q < n)%nat -> ent H' p q = real (r * (u p * u q)) *c ent H p q.
  Hypothesis basis : eigenbasis H V E.
  Definition Vg : mat CR := Mat n (length E) (fun p k => real (u p) *c ent V p k).
  Definition Eg : list R := map (Rmult r) E.
  Lemma nth_Eg k : nth k Eg 0 = r * nth k E 0.
  Proof using. unfold Eg. replace 0 with (r * 0) at 1 by ring. apply map_nth. Qed.
  Lemma len_E : ncol V = length E. Proof using basis. apply basis. Qed.
  Lemma in_g k psi : (k < length E)%nat -> inner n (col Vg k) psi = inner n (col V k) (fun p => real (u p) *c psi p).
  Proof using. intros Hk. unfold inner. apply ksum_ext. intros p Hp. unfold col. cbn [ent Vg]. rewrite kconj_mul, real_conj. ring. Qed.
  Lemma back p z : (p < n)%nat -> real (u p) *c (real (u p) *c z) = z.
  Proof using sq. intros Hp. transitivity (real (u p * u p) *c z); [apply injective_projections; cbn; ring|]. rewrite (sq p Hp). apply injective_projections; cbn; ring. Qed.
  Theorem gauge_basis : eigenbasis H' Vg Eg.
  Proof using sq rows r1 r2 rel basis.
    pose proof len_E as CV. destruct basis as ((_ & _ & _ & EV) & ON & CO). split; [|split].
    - split; [unfold Eg; rewrite map_length; reflexivity|]. split; [exact r1|]. split; [exact r2|]. cbn [nrow ncol Vg]. intros p k Hp Hk.
      specialize (EV p k ltac:(lia) ltac:(lia)). rewrite rows in EV. unfold apply in *. unfold col in *. cbn [ent Vg]. rewrite nth_Eg.
      rewrite (ksum_ext n _ (fun q => real (r * u p) *c (ent H p q *c ent V q k))).
      2:{ intros q Hq. rewrite rel by assumption. transitivity (real (r * u p) *c (ent H p q *c (real (u q) *c (real (u q) *c ent V q k)))); [apply injective_projections; cbn; ring|]. rewrite back by exact Hq. reflexivity. }
      rewrite ksum_mul_l. etransitivity; [apply f_equal2; [reflexivity | exact EV]|]. apply injective_projections; cbn; ring.
    - intros k l Hk Hl. cbn [nrow ncol Vg] in *. rewrite in_g by exact Hk. rewrite <- (ON k l) by lia. rewrite rows. apply inner_ext; [reflexivity|]. intros p Hp. unfold col. cbn [ent Vg]. apply back, Hp.
    - intros psi p Hp. cbn [nrow ncol Vg] in *. pose proof (CO (fun p => real (u p) *c psi p) p ltac:(lia)) as Q. cbn beta in Q. rewrite rows, CV in Q.
      rewrite (ksum_ext (length E) _ (fun k => real (u p) *c (ent V p k *c inner n (col V k) (fun p => real (u p) *c psi p)))) by (intros k Hk; rewrite in_g by exact Hk; cbn [ent Vg]; ring).
      rewrite ksum_mul_l. etransitivity; [|apply f_equal2; [reflexivity | exact Q]]. symmetry. apply back, Hp.
  Qed.
  Lemma evolve_gauge psi t p : (p < n)%nat -> evolve Vg Eg (fun q => real (u q) *c psi q) t p = real (u p) *c evolve V E psi (r * t) p.
  Proof using sq rows basis.
    intros Hp. rewrite !evolve_expand. rewrite len_E. cbn [ncol nrow Vg]. rewrite <- ksum_mul_l. apply ksum_ext. intros k Hk. rewrite in_g by exact Hk. rewrite nth_Eg, rows. unfold col at 1 3. cbn [ent Vg].
    rewrite (inner_ext n (col V k) (col V k) _ psi) by (try reflexivity; intros q Hq; apply back, Hq). replace (t * (r * nth k E 0)) with (r * t * nth k E 0) by ring. ring.
  Qed.
  (** Operators that get a sign. *)
  Variables (O : mat CR) (c : R).
  Hypothesis weight : forall p q, (p < n)%nat -> (q < n)%nat -> real (u p * u q) *c ent O p q = real c *c ent O p q.
  Lemma expect_weight phi : expect n O (fun p => real (u p) *c phi p) = c * expect n O phi.
  Proof using weight.
    unfold expect. transitivity (fst (real c *c inner n phi (apply n O phi))); [|cbn; ring]. f_equal. unfold inner, apply. rewrite <- ksum_mul_l. apply ksum_ext. intros p Hp.
    rewrite <- !ksum_mul_l. apply ksum_ext. intros q Hq. rewrite kconj_mul, real_conj. transitivity (conj (phi p) *c ((real (u p * u q) *c ent O p q) *c phi q)); [apply injective_projections; cbn; ring|].
    rewrite (weight p q Hp Hq). ring.
  Qed.
  Lemma expect_cols k : (k < length E)%nat -> expect n O (col Vg k) = c * expect n O (col V k).
  Proof using weight. intros Hk. rewrite <- expect_weight. reflexivity. Qed.
  Variables (V2 : mat CR) (E2 : list R).
  Hypothesis basis2 : eigenbasis H' V2 E2.
  Hypothesis o1 : nrow O = n.
  Hypothesis o2 : ncol O = n.
  Lemma rows_2 : nrow V2 = n. Proof using r1 basis2. destruct basis2 as ((_ & X & _) & _). rewrite <- X. exact r1. Qed.
  Theorem gauge_energies : Permutation Eg E2.
  Proof using sq rows r1 r2 rel basis basis2.
    apply (ChainSpectrum.energies_perm H' Vg V2); [apply (SymAverage.eigenbasis_hermitian _ _ _ gauge_basis) | exact gauge_basis | exact basis2 | exact rows_2].
  Qed.
  Lemma fits_all : E <> [] -> fits V O E /\ fits Vg O Eg /\ E2 <> [].
  Proof using sq rows r1 r2 rel basis basis2 o1 o2.
    intros NE. split; [|split].
    - repeat split; try congruence. apply len_E.
    - repeat split; cbn [nrow ncol Vg]; try congruence; unfold Eg; [rewrite map_length; reflexivity | intros Q; apply map_eq_nil in Q; congruence].
    - intros Q. pose proof gauge_energies as P. rewrite Q in P. apply Permutation_sym, Permutation_nil in P. apply map_eq_nil in P. congruence.
  Qed.
  Theorem gauge_average T x : r <> 0 -> T <> 0 -> exp_vals_thermal V O E T = Ok x -> exp_vals_thermal V2 O E2 (r * T) = Ok (c * x).
  Proof using sq rows r1 r2 rel basis basis2 o1 o2 weight.
    intros NR NT EX. assert (NE : E <> []). { intros ->. unfold exp_vals_thermal, thermal_weights in EX. cbn in EX. discriminate EX. }
    destruct (fits_all NE) as (FV & FG & NE2). assert (NRT : r * T <> 0) by (apply Rmult_integral_contrapositive_currified; assumption).
    rewrite <- (thermal_basis H' Vg V2 O Eg E2 (r * T) (SymAverage.eigenbasis_hermitian _ _ _ gauge_basis) gauge_basis basis2 rows_2 FG NE2 (or_introl NRT)).
    rewrite (thermal_finite V O E T FV NT) in EX. injection EX as <-. rewrite (thermal_finite Vg O Eg (r * T) FG NRT). f_equal.
    unfold boltzmann, levels. rewrite !total_map. cbn [energy value fst snd]. pose proof len_E as LE. cbn [nrow ncol Vg]. rewrite rows. rewrite ?(map_length (Rmult r) E : length Eg = length E).
    rewrite (total_ext _ (fun k => c * (exp (- nth k E 0 / T) * expect n O (col V k)))).
    - rewrite total_scale. rewrite (total_ext (fun k => exp (- nth k Eg 0 / (r * T))) (fun k => exp (- nth k E 0 / T))).
      + unfold Rdiv. ring.
      + intros k Hk. rewrite nth_Eg. f_equal. field. auto.
    - intros k Hk. apply in_seq in Hk. rewrite expect_cols, nth_Eg by lia. replace (- (r * nth k E 0) / (r * T)) with (- nth k E 0 / T) by (field; auto). ring.
  Qed.
  Theorem gauge_cold x : r = 1 -> sorted_list E -> sorted_list E2 -> apart gap13 E -> exp_vals_thermal V O E 0 = Ok x -> exp_vals_thermal V2 O E2 0 = Ok (c * x).
  Proof using sq rows r1 r2 rel basis basis2 o1 o2 weight.
    intros R1 S1 S2 AP EX. assert (NE : E <> []). { intros ->. unfold exp_vals_thermal, thermal_weights in EX. cbn in EX. discriminate EX. }
    destruct (fits_all NE) as (FV & FG & NE2). assert (EE : Eg = E). { unfold Eg. rewrite R1. transitivity (map (fun x => x) E); [apply map_ext; intros; ring | apply map_id]. } rewrite EE in FG. assert (BG : eigenbasis H' Vg E) by (pose proof gauge_basis as Q; rewrite EE in Q; exact Q).
    rewrite <- (thermal_basis H' Vg V2 O E E2 0 (SymAverage.eigenbasis_hermitian _ _ _ BG) BG basis2 rows_2 FG NE2 (or_intror (Logic.conj S1 (Logic.conj S2 AP)))).
    rewrite (thermal_zero V O E FV S1 AP) in EX. injection EX as <-. rewrite (thermal_zero Vg O E FG S1 AP). f_equal.
    unfold average_at, levels. rewrite !total_map. unfold at_energy. cbn [energy value fst snd nrow ncol Vg]. rewrite rows.
    rewrite (total_ext _ (fun k => c * ((if Req_EM_T (nth k E 0) (nth 0 E 0) then 1 else 0) * expect n O (col V k)))).
    - rewrite total_scale. unfold Rdiv. ring.
    - intros k Hk. apply in_seq in Hk. rewrite expect_cols by lia. ring.
  Qed.
  (** Motion that starts from one configuration. *)
  Lemma gauge_path psi p0 t : (forall q, (q < n)%nat -> q <> p0 -> psi q = c0) -> expect n O (evolve V2 E2 psi t) = c * expect n O (evolve V E psi (r * t)).
  Proof using sq rows r1 r2 rel basis basis2 weight.
    clear o1 o2. intros S. destruct (Nat.lt_ge_cases p0 n) as [L|L].
    - rewrite <- expect_weight. transitivity (expect n O (fun p => real (u p0) *c (real (u p) *c evolve V E psi (r * t) p))).
      + apply expect_ext. intros p Hp. rewrite <- (evolve_unique H' Vg V2 Eg E2 psi t p gauge_basis basis2 ltac:(exact Hp)). rewrite <- evolve_gauge by exact Hp. rewrite <- evolve_scale. apply evolve_ext. cbn [nrow Vg].
        intros q Hq. destruct (Nat.eq_dec q p0) as [->|NE]; [rewrite back by exact L; reflexivity | rewrite (S q Hq NE); ring].
      + unfold expect. rewrite (inner_ext n _ (fun p => real (u p0) *c (real (u p) *c evolve V E psi (r * t) p)) _ (fun p => real (u p0) *c apply n O (fun p => real (u p) *c evolve V E psi (r * t) p) p)).
        * rewrite inner_scale. rewrite <- (inner_conj n), inner_scale, kconj_mul, real_conj, inner_conj. rewrite back by exact L. reflexivity.
        * reflexivity.
        * intros p Hp. unfold apply. rewrite <- ksum_mul_l. apply ksum_ext. intros q Hq. ring.
    - assert (Z : forall q, (q < n)%nat -> psi q = c0) by (intros q Hq; apply S; lia).
      assert (ZE : forall W F s p, nrow W = n -> evolve W F psi s p = c0).
      { intros W F s p RW. rewrite (evolve_ext W F psi (fun q => c0 *c psi q)) by (intros q Hq; rewrite Z by congruence; ring). rewrite evolve_scale. ring. }
      assert (Z0 : forall phi, (forall p, (p < n)%nat -> phi p = c0) -> expect n O phi = 0).
      { intros phi W. rewrite (expect_ext n O phi (fun _ => c0)) by exact W. unfold expect, inner. rewrite ksum_zero; [reflexivity|]. intros p Hp. apply injective_projections; cbn; ring. }
      rewrite !Z0 by (intros; apply ZE; try exact rows; apply rows_2). ring.
  Qed.
End Gauge.

(** A real Hamiltonian does not distinguish the two directions of time. *)
Section Real.
  Variables (n : nat) (H V O : mat CR) (E : list R).
  Hypothesis rows : nrow V = n.
  Hypothesis rl : forall p q, (p < n)%nat -> (q < n)%nat -> conj (ent H p q) = ent H p q.
  Hypothesis rlO : forall p q, (p < n)%nat -> (q < n)%nat -> conj (ent O p q) = ent O p q.
  Hypothesis basis : eigenbasis H V E.
  Definition Vc : mat CR := Mat n (length E) (fun p k => conj (ent V p k)).
  Lemma in_c k psi : inner n (col Vc k) psi = conj (inner n (col V k) (fun p => conj (psi p))).
  Proof using. unfold inner. rewrite ksum_conj. apply ksum_ext. intros p Hp. unfold col. cbn [ent Vc]. rewrite kconj_mul, !kconj_inv. reflexivity. Qed.
  Lemma conj_basis : eigenbasis H Vc E.
  Proof using rows rl basis.
    pose proof (len_E H V E basis) as CV. destruct basis as ((_ & R1 & R2 & EV) & ON & CO). split; [|split].
    - split; [reflexivity|]. split; [cbn; congruence|]. split; [cbn; congruence|]. cbn [nrow ncol Vc]. intros p k Hp Hk.
      specialize (EV p k ltac:(lia) ltac:(lia)). rewrite rows in EV. apply (f_equal kconj) in EV. rewrite kconj_mul in EV. unfold apply, col in *. cbn [ent Vc] in *.
      etransitivity; [|etransitivity; [exact EV|]].
      + rewrite ksum_conj. apply ksum_ext. intros q Hq. rewrite kconj_mul, rl by assumption. reflexivity.
      + f_equal. change (conj (real (nth k E 0)) = real (nth k E 0)). apply real_conj.
    - intros k l Hk Hl. cbn [nrow ncol Vc] in *. rewrite in_c. rewrite (inner_ext n (col V k) (col V k) _ (col V l)) by (try reflexivity; intros p Hp; unfold col; cbn [ent Vc]; apply kconj_inv).
      pose proof (ON k l ltac:(lia) ltac:(lia)) as Q. rewrite rows in Q. etransitivity; [apply f_equal; exact Q|]. destruct (k =? l)%nat; apply injective_projections; cbn; ring.
    - intros psi p Hp. cbn [nrow ncol Vc] in *. pose proof (CO (fun p => conj (psi p)) p ltac:(lia)) as Q. cbn beta in Q. rewrite rows, CV in Q. apply (f_equal kconj) in Q. rewrite kconj_inv, ksum_conj in Q.
      etransitivity; [exact Q|]. apply ksum_ext. intros k Hk. rewrite kconj_mul, in_c. reflexivity.
  Qed.
  Lemma evolve_conj psi t p : (p < n)%nat -> evolve V E psi (- t) p = conj (evolve V E (fun q => conj (psi q)) t p).
  Proof using rows rl basis.
    intros Hp. rewrite (evolve_unique H V Vc E E (fun q => conj (psi q)) t p basis conj_basis ltac:(rewrite rows; exact Hp)).
    rewrite !evolve_expand. rewrite (len_E H V E basis). cbn [ncol nrow Vc]. rewrite ksum_conj. apply ksum_ext. intros k Hk. rewrite !kconj_mul. rewrite in_c, kconj_inv. unfold col at 1 3. cbn [ent Vc]. rewrite kconj_inv, rows.
    rewrite (inner_ext n (col V k) (col V k) (fun p => conj (conj (psi p))) psi) by (reflexivity || (intros; apply kconj_inv)).
    f_equal. f_equal. unfold cexp. replace (- (- t * nth k E 0)) with (- - (t * nth k E 0)) by ring. rewrite cos_neg, sin_neg. apply injective_projections; cbn; ring.
  Qed.
  Lemma expect_conj phi : expect n O (fun p => conj (phi p)) = expect n O phi.
  Proof using rlO.
    unfold expect. transitivity (fst (conj (inner n phi (apply n O phi)))); [|cbn; ring]. f_equal. unfold inner, apply. rewrite ksum_conj. apply ksum_ext. intros p Hp. rewrite kconj_mul. f_equal. rewrite ksum_conj. apply ksum_ext. intros q Hq.
    rewrite kconj_mul, rlO by assumption. reflexivity.
  Qed.
  Theorem back_and_forth psi p0 t : (forall q, (q < n)%nat -> q <> p0 -> psi q = c0) -> expect n O (evolve V E psi (- t)) = expect n O (evolve V E psi t).
  Proof using rows rl rlO basis.
    intros S. rewrite (expect_ext n O _ (fun p => conj (evolve V E (fun q => conj (psi q)) t p))) by (intros p Hp; apply evolve_conj, Hp). rewrite expect_conj.
    assert (U : expect n O (fun p => conj (psi p0) *c evolve V E (fun q => kb (q =? p0)%nat) t p) = expect n O (fun p => psi p0 *c evolve V E (fun q => kb (q =? p0)%nat) t p)).
    { unfold expect. assert (Q : forall z, inner n (fun p => z *c evolve V E (fun q => kb (q =? p0)%nat) t p) (apply n O (fun p => z *c evolve V E (fun q => kb (q =? p0)%nat) t p)) =
        real (nsq z) *c inner n (evolve V E (fun q => kb (q =? p0)%nat) t) (apply n O (evolve V E (fun q => kb (q =? p0)%nat) t))).
      { intros z. rewrite (inner_ext n _ (fun p => z *c evolve V E (fun q => kb (q =? p0)%nat) t p) _ (fun p => z *c apply n O (evolve V E (fun q => kb (q =? p0)%nat) t) p)).
        - rewrite inner_scale, <- (inner_conj n), inner_scale, kconj_mul, inner_conj. rewrite <- mul_conj. ring.
        - reflexivity.
        - intros p Hp. unfold apply. rewrite <- ksum_mul_l. apply ksum_ext. intros q Hq. ring. }
      rewrite !Q, nsq_conj. reflexivity. }
    etransitivity; [|etransitivity; [exact U|]].
    - apply expect_ext. intros p Hp. rewrite <- evolve_scale. apply evolve_ext. rewrite rows. intros q Hq. destruct (Nat.eqb_spec q p0) as [->|NE]; [cbn [kb]; ring | rewrite (S q Hq NE); cbn [kb]; apply injective_projections; cbn; ring].
    - apply expect_ext. intros p Hp. rewrite <- evolve_scale. apply evolve_ext. rewrite rows. intros q Hq. destruct (Nat.eqb_spec q p0) as [->|NE]; [cbn [kb]; ring | rewrite (S q Hq NE); cbn [kb]; ring].
  Qed.
End Real.
