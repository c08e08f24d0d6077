(** Thermal averages, partition function and spectrum of fermions without
    interactions: proofs about the functions of the interface. *)
From Coq Require Import List Arith Lia Reals Lra Bool QArith Qabs Setoid Morphisms.
From Verif Require Import Scalars Res Matrix Sums SqMat CarAlgebra ModelBase ModelFermions SpecFock SpecHubbard OpsProofs
  FockProofs FermiOps SwapProofs HamProofs HamSym
  ModelGeometry ModelPhase ModelSymmetry SymBase ModelThermal SpecThermal ThermalBase ThermalBasis ThermalSectors FreeKms SpecFermiGas SpecFree FreeFermi FreeWick.
Import ListNotations.
Local Open Scope nat_scope.
Arguments Nat.pow : simpl never.

Lemma sq2 (a b c d : CR) : square 2 (mlit 2 2 [[a; b]; [c; d]]).
Proof. split; reflexivity. Qed.

Lemma ksum_hop n (t : nat -> nat -> CR) (v : nat -> CR) (W : nat -> nat -> CR) :
  ksum n (fun i => ksum n (fun j => (if i =? j then v i else kopp (if j <? i then t i j else t j i)) *c W i j)) =
  ksum n (fun i => ksum i (fun j => kopp (t i j *c (W i j +c W j i)))) +c ksum n (fun i => v i *c W i i).
Proof.
  rewrite (ksum_ext n _ (fun i => (ksum n (fun j => if j <? i then kopp (t i j *c W i j) else c0)
     +c ksum n (fun j => if i <? j then kopp (t j i *c W i j) else c0)) +c v i *c W i i)).
  - rewrite !ksum_add. f_equal. rewrite (ksum_swap n n (fun i j => if i <? j then kopp (t j i *c W i j) else c0)).
    rewrite <- ksum_add. apply ksum_ext. intros i Hi. rewrite !(ksum_le n i) by lia. rewrite <- ksum_add.
    apply ksum_ext. intros j Hj. ring.
  - intros i Hi. rewrite <- ksum_add.
    rewrite <- (ksum_kb n i (fun j => v i *c W i j)) by exact Hi. rewrite <- ksum_add. apply ksum_ext. intros j Hj.
    rewrite (Nat.eqb_sym i j).
    destruct (Nat.eqb_spec j i) as [->|Ne]; [rewrite Nat.ltb_irrefl; cbn [kb]; ring|].
    destruct (Nat.ltb_spec j i), (Nat.ltb_spec i j); try lia; cbn [kb]; ring.
Qed.

Lemma nth_total (g : R -> R) l : total (fun a => g (nth a l 0%R)) (seq 0 (length l)) = total g l.
Proof.
  induction l as [|x l IH]; [reflexivity|]. cbn [length seq]. rewrite !total_cons. cbn [nth]. f_equal.
  rewrite <- IH. rewrite <- seq_shift. unfold total. clear IH. generalize (seq 0 (length l)). intros s. induction s as [|y s IH]; [reflexivity|]. cbn. rewrite IH. reflexivity.
Qed.
Lemma filled_conj T U e i j : filled T U e j i = conj (filled T U e i j).
Proof.
  unfold filled. rewrite ksum_conj. apply ksum_ext. intros a Ha. rewrite !kconj_mul, kconj_inv.
  change (kconj (re (fermi_weight T (nth a e 0%R)))) with (conj (real (fermi_weight T (nth a e 0%R)))). rewrite real_conj.
  change (re (fermi_weight T (nth a e 0%R))) with (real (fermi_weight T (nth a e 0%R))). ring.
Qed.
Lemma filled_real T U e i : filled T U e i i = real (fst (filled T U e i i)).
Proof.
  pose proof (filled_conj T U e i i) as X. apply (f_equal snd) in X. cbn in X.
  destruct (filled T U e i i) as [a b]. cbn in *. unfold real. f_equal. lra.
Qed.
Lemma mul_conj_abs2 (z : CR) : z *c conj z = real (abs2 z).
Proof. destruct z as [a b]. unfold abs2. apply injective_projections; cbn; ring. Qed.

Section Interface.
  Variable f : fermions CR.
  Notation ns := (fg_nsites (f_geom f)).
  Notation m := (f_nspecies f).
  Notation nl := (nlog (f_sys f)).
  Notation N := (2 ^ nlog (f_sys f)).
  Notation q i k := (lsite (f_sys f) i k).
  Hypothesis free : non_interacting f.
  Variables (H V : mat CR) (E : list R) (T : R).
  Hypothesis ham : createH f None = Ok H.
  Hypothesis basis : eigenbasis H V E.
  Hypothesis T0 : T <> 0%R.
  Notation om := (omega N V E T).
  Notation Z := (Zp E T).

  Lemma read_off A X c : square N A -> seqv (N:=N) (ent A) X -> om X = real Z *c c -> exp_vals_thermal V A E T = Ok (fst c).
  Proof using free ham basis T0.
    intros (S1 & S2) AX OX. pose proof (V_rows f free H V E ham basis) as VR.
    rewrite thermal_finite; [|repeat split; [congruence | congruence | apply basis | apply (E_ne f free H V E ham basis)] | exact T0].
    rewrite <- (boltzmann_omega N V E T VR A S1 S2), (omega_ext N V E T _ X AX), OX. f_equal.
    pose proof (Z_pos f free H V E T ham basis). cbn. field. lra.
  Qed.

  Variables (k : nat) (U : mat CR) (e : list R).
  Hypothesis Hk : k < m.
  Hypothesis modes_k : eigenbasis (particle_matrix f k) U e.
  Notation G := (filled T U e).

  Lemma density_avg i A : i < ns -> single_site_op (f_sys f) i k n_op Boson = Ok A ->
    exp_vals_thermal V A E T = Ok (fst (G i i)).
  Proof using free ham basis T0 Hk modes_k.
    intros Hi EA. destruct (single_ok (f_sys f) i k n_op Boson (f_two f) ltac:(discriminate) Hi Hk (sq2 _ _ _ _)) as (A' & EA' & SA & VA).
    rewrite EA in EA'. injection EA' as <-. apply (read_off A _ _ SA VA).
    exact (om_number f free H V E T ham basis T0 k U e Hk modes_k i Hi).
  Qed.
  Lemma bond_avg i j k' A : i < ns -> j < ns -> k' < m -> two_site_op (f_sys f) i k j k' cdag_op c_op Fermion = Ok A ->
    exp_vals_thermal V A E T = Ok (if k' =? k then fst (G i j) else 0%R).
  Proof using free ham basis T0 Hk modes_k.
    intros Hi Hj Hk' EA. destruct (two_ok (f_sys f) i k j k' cdag_op c_op Fermion (f_two f) ltac:(discriminate) Hi Hk Hj Hk' (sq2 _ _ _ _) (sq2 _ _ _ _)) as (A' & EA' & SA & VA).
    rewrite EA in EA'. injection EA' as <-.
    rewrite (read_off A _ _ SA VA (om_green f free H V E T ham basis T0 k U e Hk modes_k i j k' Hi Hj Hk')).
    f_equal. destruct (k' =? k); cbn; ring.
  Qed.
  Lemma pair_avg i j A : i < ns -> j < ns -> two_site_op (f_sys f) i k j k n_op n_op Boson = Ok A ->
    exp_vals_thermal V A E T = Ok (fst (G i i) * fst (G j j) + (if i =? j then fst (G i i) else 0) - abs2 (G i j))%R.
  Proof using free ham basis T0 Hk modes_k.
    intros Hi Hj EA. destruct (two_ok (f_sys f) i k j k n_op n_op Boson (f_two f) ltac:(discriminate) Hi Hk Hj Hk (sq2 _ _ _ _) (sq2 _ _ _ _)) as (A' & EA' & SA & VA).
    rewrite EA in EA'. injection EA' as <-.
    rewrite (read_off A _ (real (fst (G i i) * fst (G j j) + (if i =? j then fst (G i i) else 0) - abs2 (G i j))) SA VA); [reflexivity|].
    etransitivity; [exact (om_pair f free H V E T ham basis T0 k U e Hk modes_k i j k Hi Hj Hk)|].
    rewrite (om_number f free H V E T ham basis T0 k U e Hk modes_k j Hj), Nat.eqb_refl. cbn [kb].
    transitivity (real Z *c (G i i *c G j j +c kb (i =? j) *c G i j +c kopp (G i j *c G j i))); [ring|]. f_equal.
    rewrite (filled_conj T U e i j), mul_conj_abs2, (filled_real T U e i), (filled_real T U e j).
    destruct (Nat.eqb_spec i j) as [->|Ne]; cbn [kb].
    - rewrite (filled_real T U e j). apply injective_projections; cbn; ring.
    - apply injective_projections; cbn; ring.
  Qed.
End Interface.

Section TwoSpecies.
  Variable f : fermions CR.
  Notation ns := (fg_nsites (f_geom f)).
  Notation m := (f_nspecies f).
  Notation nl := (nlog (f_sys f)).
  Notation N := (2 ^ nlog (f_sys f)).
  Notation q i k := (lsite (f_sys f) i k).
  Hypothesis free : non_interacting f.
  Variables (H V : mat CR) (E : list R) (T : R).
  Hypothesis ham : createH f None = Ok H.
  Hypothesis basis : eigenbasis H V E.
  Hypothesis T0 : T <> 0%R.
  Notation om := (omega N V E T).
  Notation Z := (Zp E T).
  Variables (U : nat -> mat CR) (e : nat -> list R).
  Hypothesis modes : forall k, k < m -> eigenbasis (particle_matrix f k) (U k) (e k).

  Lemma species_avg k k' i j A : k < m -> k' < m -> k <> k' -> i < ns -> j < ns -> two_site_op (f_sys f) i k j k' n_op n_op Boson = Ok A ->
    exp_vals_thermal V A E T = Ok (fst (filled T (U k) (e k) i i) * fst (filled T (U k') (e k') j j))%R.
  Proof using free ham basis T0 modes.
    intros Hk Hk' Ne Hi Hj EA. destruct (two_ok (f_sys f) i k j k' n_op n_op Boson (f_two f) ltac:(discriminate) Hi Hk Hj Hk' (sq2 _ _ _ _) (sq2 _ _ _ _)) as (A' & EA' & SA & VA).
    rewrite EA in EA'. injection EA' as <-.
    rewrite (read_off f free H V E T ham basis T0 A _ (filled T (U k) (e k) i i *c filled T (U k') (e k') j j) SA VA).
    - rewrite (filled_real T (U k)), (filled_real T (U k')), <- real_mul. reflexivity.
    - etransitivity; [exact (om_pair f free H V E T ham basis T0 k _ _ Hk (modes k Hk) i j k' Hi Hj Hk')|].
      rewrite (om_number f free H V E T ham basis T0 k' _ _ Hk' (modes k' Hk') j Hj).
      rewrite (proj2 (Nat.eqb_neq k' k)) by congruence. cbn [kb]. ring.
  Qed.

  (** The Hamiltonian as a sum of pairs of operators. *)
  Lemma H_pairs : seqv (N:=N) (ent H) (fun a b => ksum m (fun k => ksum ns (fun i => ksum ns (fun j =>
      ent (particle_matrix f k) i j *c smul (Cd nl (q i k)) (Ca nl (q j k)) a b)))).
  Proof using free ham.
    destruct (H_facts f free H ham) as (_ & _ & HH). rewrite HH. intros a b Ha Hb. destruct free as [F1 F2]. unfold HS2.
    transitivity (ksum m (fun k => ksum ns (fun i => ksum i (fun j => kopp (teff f i j k *c hop f (q i k) (q j k) a b)))
       +c ksum ns (fun i => (ksub (f_pot f i k) (f_mus f k)) *c Nn nl (q i k) a b))).
    - rewrite ksum_add.
      rewrite (ksum_zero ns (fun i => f_us f i *c _)) by (intros i Hi; rewrite F1 by exact Hi; ring).
      rewrite (ksum_zero ns (fun i => ksum (S i) _)) by (intros i Hi; apply ksum_zero; intros j Hj; apply ksum_zero; intros k Hk; rewrite F2 by lia; ring).
      assert (A1 : ksum m (fun k => ksum ns (fun i => ksum i (fun j => kopp (teff f i j k *c hop f (q i k) (q j k) a b)))) =
        ksum ns (fun i => ksum i (fun j => ksum m (fun k => kopp (teff f i j k *c hop f (q i k) (q j k) a b))))).
      { rewrite ksum_swap. apply ksum_ext. intros i Hi. apply ksum_swap. }
      rewrite A1. rewrite (ksum_swap m ns).
      rewrite (ksum_ext ns (fun j => ksum m (fun i => ksub (f_pot f j i) (f_mus f i) *c Nn nl (q j i) a b))
        (fun i => ksum m (fun k => f_pot f i k *c Nn nl (q i k) a b) +c kopp (ksum m (fun k => f_mus f k *c Nn nl (q i k) a b)))).
      + rewrite ksum_add, ksum_opp. ring.
      + intros i Hi. rewrite <- ksum_opp, <- ksum_add. apply ksum_ext. intros k Hk. ring.
    - apply ksum_ext. intros k Hk. unfold particle_matrix, one_particle. cbn [ent].
      etransitivity; [|symmetry; exact (ksum_hop ns (fun i j => teff f i j k) (fun i => ksub (f_pot f i k) (f_mus f k)) (fun i j => smul (Cd nl (q i k)) (Ca nl (q j k)) a b))].
      f_equal. apply ksum_ext. intros i Hi. f_equal. symmetry. apply (Cd_Ca nl (q i k) (q_lt f i k Hi Hk) a b Ha Hb).
  Qed.

  Lemma levels_trace k : k < m -> ksum ns (fun i => ksum ns (fun j => ent (particle_matrix f k) i j *c filled T (U k) (e k) i j)) =
    real (total (fun x => x * fermi_weight T x)%R (e k)).
  Proof using modes.
    intros Hk. pose proof (modes k Hk) as MK. destruct MK as ((UC & UR & _ & EV) & ON & _).
    change (nrow (particle_matrix f k)) with ns in UR.
    transitivity (ksum (length (e k)) (fun a => real (nth a (e k) 0 * fermi_weight T (nth a (e k) 0))%R)).
    - unfold filled.
      rewrite (ksum_ext ns _ (fun i => ksum (length (e k)) (fun a => real (fermi_weight T (nth a (e k) 0%R)) *c conj (ent (U k) i a) *c
        ksum ns (fun j => ent (particle_matrix f k) i j *c ent (U k) j a)))).
      + rewrite ksum_swap. apply ksum_ext. intros a Ha.
        rewrite (ksum_ext ns _ (fun i => real (fermi_weight T (nth a (e k) 0%R)) *c real (nth a (e k) 0%R) *c (conj (ent (U k) i a) *c ent (U k) i a))).
        * rewrite (ksum_mul_l ns). rewrite <- UC in Ha. pose proof (ON a a Ha Ha) as O1. unfold inner, col in O1. rewrite <- UR in O1. rewrite O1.
          rewrite Nat.eqb_refl. cbn [kb]. rewrite real_mul. ring.
        * intros i Hi. unfold apply in EV. rewrite <- UR, UC in EV. pose proof (EV i a Hi Ha) as X. unfold col in X. rewrite X.
          change (nth a (e k) 0%R, 0%R) with (real (nth a (e k) 0%R)). ring.
      + intros i Hi. rewrite (ksum_ext ns _ (fun j => ksum (length (e k)) (fun a => real (fermi_weight T (nth a (e k) 0%R)) *c conj (ent (U k) i a) *c (ent (particle_matrix f k) i j *c ent (U k) j a)))).
        * rewrite ksum_swap. apply ksum_ext. intros a Ha. apply (ksum_mul_l ns).
        * intros j Hj. rewrite <- ksum_mul_l. apply ksum_ext. intros a Ha. change re with real. ring.
    - rewrite (real_total (length (e k)) (fun a => nth a (e k) 0 * fermi_weight T (nth a (e k) 0%R))%R). f_equal.
      apply (nth_total (fun x => x * fermi_weight T x)%R).
  Qed.

  Lemma om_H : om (ent H) = real Z *c real (total (fun k => total (fun x => x * fermi_weight T x) (e k)) (seq 0 m))%R.
  Proof using free ham basis T0 modes.
    rewrite (omega_ext N V E T _ _ H_pairs), omega_sum.
    rewrite <- (real_total m (fun k => total (fun x => x * fermi_weight T x)%R (e k))), <- ksum_mul_l. apply ksum_ext. intros k Hk.
    rewrite omega_sum, <- (levels_trace k Hk), <- ksum_mul_l. apply ksum_ext. intros i Hi.
    rewrite omega_sum, <- ksum_mul_l. apply ksum_ext. intros j Hj.
    etransitivity; [apply (omega_scale N V E T (ent (particle_matrix f k) i j) (smul (Cd nl (q i k)) (Ca nl (q j k))))|].
    rewrite (om_green f free H V E T ham basis T0 k _ _ Hk (modes k Hk) i j k Hi Hj Hk), Nat.eqb_refl. cbn [kb]. ring.
  Qed.
  Lemma energy_avg : exp_vals_thermal V H E T = Ok (total (fun k => total (fun x => x * fermi_weight T x) (e k)) (seq 0 m))%R.
  Proof using free ham basis T0 modes.
    destruct (H_facts f free H ham) as (H1 & H2 & _).
    assert (SH : square N H) by (split; assumption).
    rewrite (read_off f free H V E T ham basis T0 H _ _ SH (fun _ _ _ _ => eq_refl) om_H). reflexivity.
  Qed.
End TwoSpecies.
