(** Thermal averages of observables related by a unitary that commutes with the
    Hamiltonian: proofs. *)
From Coq Require Import List Arith Lia Reals Lra Bool QArith Setoid Morphisms Ring.
From Verif Require Import Scalars Res Matrix Sums SqMat ModelBase ModelFermions OpsProofs
  FockProofs SwapProofs ModelGeometry ModelPhase ModelSymmetry SymBase ModelThermal SpecThermal ThermalBase ThermalBasis.
Import ListNotations.
Local Open Scope nat_scope.

Lemma inner_sapply N (A : sq CR N) a b : inner N a (sapply A b) = inner N (sapply (sadj A) a) b.
Proof.
  unfold inner, sapply, sadj.
  transitivity (ksum N (fun i => ksum N (fun j => conj (a i) *c (A i j *c b j)))).
  { apply ksum_ext. intros i Hi. rewrite <- ksum_mul_l. reflexivity. }
  rewrite ksum_swap. apply ksum_ext. intros j Hj. rewrite ksum_conj. rewrite <- ksum_mul_r. apply ksum_ext. intros i Hi.
  rewrite kconj_mul, kconj_inv. ring.
Qed.

(** A matrix with a complete orthonormal set of eigenvectors and real energies is
    Hermitian. *)
Lemma eigenbasis_entry H V E i j : eigenbasis H V E -> i < nrow V -> j < nrow V ->
  ent H i j = ksum (ncol V) (fun k => ent V i k *c (@kmul CR _ (nth k E 0%R, 0%R) (conj (ent V j k)))).
Proof.
  intros ((L & R1 & R2 & EV) & ON & CB) Hi Hj.
  transitivity (apply (nrow V) H (fun l => kb (l =? j)) i).
  { unfold apply. rewrite (ksum_single (nrow V) j); [rewrite Nat.eqb_refl; cbn [kb]; ring | exact Hj |].
    intros l Hl Ne. rewrite (proj2 (Nat.eqb_neq l j)) by exact Ne. cbn [kb]. ring. }
  transitivity (apply (nrow V) H (fun l => ksum (ncol V) (fun k => col V k l *c inner (nrow V) (col V k) (fun l => kb (l =? j)))) i).
  { apply apply_ext. intros l Hl. apply (CB (fun l => kb (l =? j)) l Hl). }
  rewrite apply_sum. apply ksum_ext. intros k Hk. rewrite EV by assumption.
  assert (X : inner (nrow V) (col V k) (fun l => kb (l =? j)) = conj (ent V j k)).
  { unfold inner, col. rewrite (ksum_single (nrow V) j); [rewrite Nat.eqb_refl; cbn [kb]; ring | exact Hj |].
    intros l Hl Ne. rewrite (proj2 (Nat.eqb_neq l j)) by exact Ne. cbn [kb]. ring. }
  rewrite X. ring.
Qed.
Lemma eigenbasis_hermitian H V E : eigenbasis H V E -> hermitian (nrow V) H.
Proof.
  intros B i j Hi Hj. rewrite (eigenbasis_entry H V E i j B Hi Hj), (eigenbasis_entry H V E j i B Hj Hi), ksum_conj.
  apply ksum_ext. intros k Hk. rewrite !kconj_mul, kconj_inv.
  assert (X : conj (nth k E 0%R, 0%R) = (nth k E 0%R, 0%R)) by (apply injective_projections; cbn; ring).
  rewrite X. ring.
Qed.

Definition unitary_sq {N} (W : sq CR N) : Prop := seqv (smul W (sadj W)) s1 /\ seqv (smul (sadj W) W) s1.

Section Sym.
  Variable N : nat.
  Variables (H V : mat CR) (E : list R) (W : sq CR N).
  Hypothesis basis : eigenbasis H V E.
  Hypothesis rows : nrow V = N.
  Hypothesis unit : unitary_sq W.
  Hypothesis comm : seqv (smul W (ent H)) (smul (ent H) W).

  Definition moved : mat CR := Mat N (ncol V) (fun i k => sapply W (col V k) i).

  Lemma sapply_one v i : i < N -> sapply (N:=N) (s1 (K:=CR)) v i = v i.
  Proof using.
    clear. intros Hi. unfold sapply, s1. rewrite (ksum_single N i); [rewrite Nat.eqb_refl; cbn [kb]; ring | exact Hi |].
    intros l Hl Ne. rewrite (proj2 (Nat.eqb_neq i l)) by congruence. cbn [kb]. ring.
  Qed.
  Lemma moved_inner a b : inner N (sapply W a) (sapply W b) = inner N a b.
  Proof using unit.
    rewrite inner_sapply. apply inner_ext; [|reflexivity]. intros i Hi. rewrite <- sapply_mul.
    rewrite (sapply_ext _ s1 a a) by (try exact Hi; try reflexivity; apply unit). apply sapply_one. exact Hi.
  Qed.
  Lemma moved_basis : eigenbasis H moved E.
  Proof using basis rows unit comm.
    destruct basis as ((L & R1 & R2 & EV) & ON & CB). rewrite rows in *. unfold eigenbasis, eigen, orthonormal, complete_basis. cbn [moved nrow ncol].
    split; [split; [exact L | split; [exact R1 | split; [exact R2|]]]|split].
    - intros i k Hi Hk. change (apply N H (col moved k) i) with (sapply (N:=N) (ent H) (sapply W (col V k)) i).
      rewrite <- sapply_mul. rewrite (sapply_ext _ (smul W (ent H)) (col V k) (col V k)) by (try exact Hi; try reflexivity; symmetry; exact comm).
      rewrite sapply_mul. rewrite (sapply_ext W W _ (fun l => @kmul CR _ (nth k E 0%R, 0%R) (ent V l k))) by (try exact Hi; try reflexivity; intros l Hl; apply EV; assumption).
      cbn [moved ent]. unfold sapply. rewrite <- ksum_mul_l. apply ksum_ext. intros l Hl. unfold col. ring.
    - intros k l Hk Hl. change (inner N (sapply W (col V k)) (sapply W (col V l)) = kb (k =? l)). rewrite moved_inner.
      unfold orthonormal in ON. rewrite rows in ON. apply ON; assumption.
    - intros psi i Hi.
      transitivity (sapply W (sapply (sadj W) psi) i).
      { rewrite <- sapply_mul. rewrite (sapply_ext _ s1 psi psi) by (try exact Hi; try reflexivity; apply unit). symmetry. apply sapply_one. exact Hi. }
      unfold complete_basis in CB. rewrite rows in CB.
      rewrite (sapply_ext W W _ (fun l => ksum (ncol V) (fun k => ent V l k *c inner N (col V k) (sapply (sadj W) psi)))) by
        (try exact Hi; try reflexivity; intros l Hl; apply (CB (sapply (sadj W) psi) l Hl)).
      unfold sapply at 1. etransitivity.
      { apply ksum_ext. intros l Hl. rewrite <- ksum_mul_l. reflexivity. }
      rewrite ksum_swap. apply ksum_ext. intros k Hk.
      transitivity (ksum N (fun l => (W i l *c ent V l k) *c inner N (col V k) (sapply (sadj W) psi))).
      { apply ksum_ext. intros l Hl. ring. }
      rewrite ksum_mul_r. f_equal. rewrite inner_sapply. apply inner_ext; [|reflexivity].
      intros j Hj. apply sapply_ext; [exact Hj | apply sadj_inv | reflexivity].
  Qed.
  Lemma moved_expect (O O' : mat CR) k : seqv (smul (ent O) W) (smul W (ent O')) ->
    expect N O (col moved k) = expect N O' (col V k).
  Proof using unit.
    intros C. unfold expect. f_equal.
    change (inner N (sapply W (col V k)) (sapply (N:=N) (ent O) (sapply W (col V k))) = inner N (col V k) (sapply (N:=N) (ent O') (col V k))).
    rewrite <- (moved_inner (col V k) (sapply (N:=N) (ent O') (col V k))). apply inner_ext; [reflexivity|].
    intros i Hi. rewrite <- !sapply_mul. apply sapply_ext; [exact Hi | exact C | reflexivity].
  Qed.

  Theorem symmetric_average (O O' : mat CR) T : square N O -> square N O' -> seqv (smul (ent O) W) (smul W (ent O')) ->
    (0 < N) -> T <> 0%R \/ (sorted_list E /\ apart gap13 E) ->
    exp_vals_thermal V O E T = exp_vals_thermal V O' E T.
  Proof using basis rows unit comm.
    intros [S1 S2] [S1' S2'] C Np HT.
    assert (NE : E <> []).
    { intros ->. destruct basis as ((L & _) & _ & CB). cbn in L. rewrite <- rows in Np.
      pose proof (CB (fun _ => c1) 0 Np) as X. rewrite L in X. cbn [ksum] in X. apply c1_neq_0. exact X. }
    assert (L : ncol V = length E) by apply basis.
    assert (F : fits V O E) by (repeat split; congruence).
    assert (F' : fits V O' E) by (repeat split; congruence).
    rewrite (thermal_basis H V moved O E E T (eigenbasis_hermitian H V E basis) basis moved_basis);
      [| cbn; congruence | exact F | exact NE | destruct HT as [HT|(A & B)]; [left; exact HT | right; repeat split; assumption]].
    assert (FM : fits moved O E) by (repeat split; cbn; congruence).
    assert (LV : levels E moved O = levels E V O').
    { unfold levels. cbn [moved nrow]. rewrite rows. apply map_ext. intros k. f_equal. apply moved_expect. exact C. }
    destruct (Req_EM_T T 0) as [->|T0].
    - destruct HT as [HT|(A & B)]; [congruence|]. rewrite !thermal_zero by assumption. rewrite LV. reflexivity.
    - rewrite !thermal_finite by assumption. rewrite LV. reflexivity.
  Qed.
End Sym.

(** Averages are linear, and the average of one is one. *)
Lemma total_lin {A} (w f : A -> R) a b l : (total (fun x => w x * (a + b * f x)) l = a * total w l + b * total (fun x => w x * f x) l)%R.
Proof. induction l as [|x l IH]; [rewrite !total_nil; ring|]. rewrite !total_cons, IH. ring. Qed.

Theorem average_linear H V E T (O O' : mat CR) (a b : R) : eigenbasis H V E -> (0 < nrow V) ->
  square (nrow V) O -> square (nrow V) O' -> T <> 0%R \/ (sorted_list E /\ apart gap13 E) ->
  (forall i j, i < nrow V -> j < nrow V -> ent O' i j = real a *c kb (i =? j) +c real b *c ent O i j) ->
  forall x, exp_vals_thermal V O E T = Ok x -> exp_vals_thermal V O' E T = Ok (a + b * x)%R.
Proof.
  intros B Np [S1 S2] [S1' S2'] HT EN x X. set (n := nrow V) in *.
  assert (NE : E <> []).
  { intros ->. destruct B as ((L & _) & _ & CB). cbn in L.
    pose proof (CB (fun _ => c1) 0 Np) as Y. rewrite L in Y. cbn [ksum] in Y. apply c1_neq_0. exact Y. }
  assert (L : ncol V = length E) by apply B.
  assert (F : fits V O E) by (repeat split; (exact S1 || exact S2 || exact S1' || exact S2' || congruence)).
  assert (F' : fits V O' E) by (repeat split; (exact S1 || exact S2 || exact S1' || exact S2' || congruence)).
  assert (EX : forall k, k < length E -> expect n O' (col V k) = (a + b * expect n O (col V k))%R).
  { intros k Hk. unfold expect.
    assert (Y : inner n (col V k) (apply n O' (col V k)) = real a *c inner n (col V k) (col V k) +c real b *c inner n (col V k) (apply n O (col V k))).
    { unfold inner. rewrite <- !ksum_mul_l, <- ksum_add. apply ksum_ext. intros i Hi.
      assert (Z : apply n O' (col V k) i = real a *c col V k i +c real b *c apply n O (col V k) i).
      { unfold apply. rewrite <- ksum_mul_l. rewrite (ksum_ext n _ (fun j => real a *c (kb (i =? j) *c col V k j) +c real b *c (ent O i j *c col V k j))) by (intros j Hj; rewrite EN by assumption; ring).
        rewrite ksum_add. f_equal. rewrite ksum_mul_l. f_equal. apply (sapply_one n (col V k) i Hi). }
      rewrite Z. ring. }
    rewrite Y. destruct B as (_ & ON & _). rewrite ON by (rewrite L; exact Hk). rewrite Nat.eqb_refl. cbn. ring. }
  destruct (Req_EM_T T 0) as [->|T0].
  - destruct HT as [HT|(A1 & A2)]; [congruence|]. rewrite thermal_zero in X |- * by assumption. injection X as <-. f_equal.
    unfold average_at, levels. rewrite !total_map. cbn [energy value fst snd]. fold n.
    set (w := fun k : nat => at_energy (nth 0 E 0%R) (nth k E 0%R, expect n O (col V k))).
    assert (P : (0 < total w (seq 0 (length E)))%R).
    { pose proof (average_den_pos (nth 0 E 0%R) (levels E V O)) as Y. unfold levels in Y. rewrite total_map in Y. apply Y.
      rewrite map_map. cbn [energy fst]. rewrite <- list_seq. apply nth_In. destruct E; [congruence|cbn; lia]. }
    rewrite (total_ext _ (fun k => (w k * (a + b * expect n O (col V k)))%R)) by (intros k Hk; apply in_seq in Hk; rewrite EX by lia; reflexivity).
    rewrite total_lin.
    change (total (fun k => at_energy (nth 0 E 0%R) (nth k E 0%R, expect n O' (col V k))) (seq 0 (length E))) with (total w (seq 0 (length E))).
    change (total (fun k => (at_energy (nth 0 E 0%R) (nth k E 0%R, expect n O (col V k)) * expect n O (col V k))%R) (seq 0 (length E)))
      with (total (fun k => (w k * expect n O (col V k))%R) (seq 0 (length E))).
    change (total (fun k => at_energy (nth 0 E 0%R) (nth k E 0%R, expect n O (col V k))) (seq 0 (length E))) with (total w (seq 0 (length E))).
    field. lra.
  - rewrite thermal_finite in X |- * by assumption. injection X as <-. f_equal.
    unfold boltzmann. assert (P := boltzmann_den_pos T (levels E V O)). unfold levels in *. rewrite !total_map in *. cbn [energy value fst snd] in *. fold n.
    assert (P' := P ltac:(destruct E; [congruence|discriminate])). clear P.
    rewrite (total_ext _ (fun k => (exp (- nth k E 0%R / T) * (a + b * expect n O (col V k)))%R)) by (intros k Hk; apply in_seq in Hk; rewrite EX by lia; reflexivity).
    rewrite (total_lin (fun k => exp (- nth k E 0%R / T))). field. lra.
Qed.
Lemma average_exists H V E T (O : mat CR) : eigenbasis H V E -> (0 < nrow V) -> square (nrow V) O ->
  T <> 0%R \/ (sorted_list E /\ apart gap13 E) -> exists x, exp_vals_thermal V O E T = Ok x.
Proof.
  intros B Np [S1 S2] HT.
  assert (NE : E <> []).
  { intros ->. destruct B as ((L & _) & _ & CB). cbn in L.
    pose proof (CB (fun _ => c1) 0 Np) as Y. rewrite L in Y. cbn [ksum] in Y. apply c1_neq_0. exact Y. }
  assert (F : fits V O E) by (repeat split; try congruence; apply B).
  destruct (Req_EM_T T 0) as [->|T0].
  - destruct HT as [HT|(A1 & A2)]; [congruence|]. eexists. apply thermal_zero; assumption.
  - eexists. apply thermal_finite; assumption.
Qed.
Lemma expect_adj n O v : expect n (madj O) v = expect n O v.
Proof.
  unfold expect. assert (X : inner n v (apply n (madj O) v) = conj (inner n v (apply n O v))).
  { rewrite inner_conj. change (inner n v (sapply (N:=n) (sadj (ent O)) v) = inner n (sapply (N:=n) (ent O) v) v).
    rewrite inner_sapply. apply inner_ext; [|reflexivity]. intros i Hi. apply sapply_ext; [exact Hi | apply sadj_inv | reflexivity]. }
  rewrite X. reflexivity.
Qed.
Lemma average_adjoint H V E T (O : mat CR) : eigenbasis H V E -> (0 < nrow V) -> square (nrow V) O ->
  T <> 0%R \/ (sorted_list E /\ apart gap13 E) -> exp_vals_thermal V O E T = exp_vals_thermal V (madj O) E T.
Proof.
  intros B Np [S1 S2] HT.
  assert (NE : E <> []).
  { intros ->. destruct B as ((L & _) & _ & CB). cbn in L.
    pose proof (CB (fun _ => c1) 0 Np) as Y. rewrite L in Y. cbn [ksum] in Y. apply c1_neq_0. exact Y. }
  assert (F : fits V O E) by (repeat split; try congruence; apply B).
  assert (F' : fits V (madj O) E) by (repeat split; cbn; try congruence; apply B).
  assert (LV : levels E V (madj O) = levels E V O) by (unfold levels; apply map_ext; intros k; rewrite expect_adj; reflexivity).
  destruct (Req_EM_T T 0) as [->|T0].
  - destruct HT as [HT|(A1 & A2)]; [congruence|]. rewrite !thermal_zero by assumption. rewrite LV. reflexivity.
  - rewrite !thermal_finite by assumption. rewrite LV. reflexivity.
Qed.
