(** The plane waves are the eigenvectors of a particle on a periodic lattice. *)
From Coq Require Import List Arith Lia Reals Lra ZArith Bool.
From Verif Require Import Scalars Res Sums Matrix ModelFermions ModelPhase ModelSymmetry SymBase GeoPhase SymZn SpecThermal ThermalBase ThermalBasis
  SpecFermiGas ModelFermiGas FermiBase FermiGrid FermiModes FermiGas FermiGreen FermiCorr SpecGeometry SpecFree SpecFreeLattice.
Import ListNotations.
Local Open Scope R_scope.

(** Sums around a ring. *)
Definition ringwise (n : nat) (F : Z -> CR) : Prop := forall z w, ((z - w) mod Z.of_nat n = 0)%Z -> F z = F w.
Lemma ring_pick n F z : (1 <= n)%nat -> ringwise n F ->
  ksum n (fun x => kb ((z - Z.of_nat x) mod Z.of_nat n =? 0)%Z *c F (Z.of_nat x)) = F z.
Proof.
  intros Hn HF. pose proof (Z.mod_pos_bound z (Z.of_nat n) ltac:(lia)) as B.
  assert (DM := Z.div_mod z (Z.of_nat n) ltac:(lia)).
  rewrite (ksum_single n (Z.to_nat (z mod Z.of_nat n))).
  - rewrite Z2Nat.id by lia.
    assert (E : ((z - z mod Z.of_nat n) mod Z.of_nat n = 0)%Z) by (apply Z.mod_divide; [lia|]; exists (z / Z.of_nat n)%Z; lia).
    rewrite E. cbn [Z.eqb kb]. rewrite (HF z (z mod Z.of_nat n)%Z E). ring.
  - lia.
  - intros x Hx Ne. destruct (Z.eqb_spec ((z - Z.of_nat x) mod Z.of_nat n) 0) as [E|E]; [|cbn [kb]; ring].
    exfalso. apply Ne. apply Z.mod_divide in E as [c Hc]; [|lia].
    assert (MX : (z mod Z.of_nat n = Z.of_nat x)%Z); [|lia].
    replace z with (Z.of_nat x + c * Z.of_nat n)%Z by lia. rewrite Z.mod_add by lia. apply Z.mod_small. lia.
Qed.
Definition stepb (n : nat) (d : Z) : bool := ((d - 1) mod Z.of_nat n =? 0)%Z || ((d + 1) mod Z.of_nat n =? 0)%Z.
Lemma step_kb n d : (3 <= n)%nat -> kb (stepb n d) = kb ((d - 1) mod Z.of_nat n =? 0)%Z +c kb ((d + 1) mod Z.of_nat n =? 0)%Z.
Proof.
  intros Hn. unfold stepb. destruct (Z.eqb_spec ((d - 1) mod Z.of_nat n) 0) as [E1|], (Z.eqb_spec ((d + 1) mod Z.of_nat n) 0) as [E2|]; cbn [orb kb]; try ring.
  exfalso. apply Z.mod_divide in E1 as [a Ha]; [|lia]. apply Z.mod_divide in E2 as [b Hb]; [|lia].
  assert (Q : (2 = (b - a) * Z.of_nat n)%Z) by (rewrite Z.mul_sub_distr_r; lia). destruct (Z_le_gt_dec (b - a) 0); nia.
Qed.
Lemma ring_nb n F x : (3 <= n)%nat -> ringwise n F ->
  ksum n (fun y => kb (stepb n (x - Z.of_nat y)) *c F (Z.of_nat y)) = F (x + 1)%Z +c F (x - 1)%Z.
Proof.
  intros Hn HF. rewrite <- (ring_pick n F (x + 1)), <- (ring_pick n F (x - 1)) by (assumption || lia). rewrite <- ksum_add.
  apply ksum_ext. intros y Hy. rewrite step_kb by exact Hn.
  replace (x - Z.of_nat y - 1)%Z with (x - 1 - Z.of_nat y)%Z by lia. replace (x - Z.of_nat y + 1)%Z with (x + 1 - Z.of_nat y)%Z by lia. ring.
Qed.

(** Sites and modes are numbered alike. *)
Section Waves.
  Variables (s : shape) (n : nat).
  Notation c := (depth s n).
  Definition spot (k : nat) : nat * nat := (k / c, k mod c)%nat.
  Definition place (k : nat) : Z * Z := (Z.of_nat (fst (spot k)), Z.of_nat (snd (spot k))).
  Hypothesis Hn : (1 <= n)%nat.
  Lemma c_pos : (1 <= c)%nat. Proof. destruct s; cbn; lia. Qed.
  Lemma spot_mul x y : (y < c)%nat -> spot (x * c + y) = (x, y).
  Proof using.
    clear Hn. intros Hy. unfold spot. rewrite Nat.div_add_l by lia. rewrite (Nat.div_small y) by exact Hy. rewrite Nat.add_0_r. f_equal.
    rewrite Nat.add_comm, Nat.mod_add by lia. apply Nat.mod_small. exact Hy.
  Qed.
  Lemma modes_sum (F : nat * nat -> CR) : klsum (modes s n) F = ksum (n * c) (fun k => F (spot k)).
  Proof using.
    clear Hn. rewrite ksum_prod. unfold modes. rewrite klsum_prod, klsum_seq. apply ksum_ext. intros x Hx.
    transitivity (ksum c (fun y => F (x, y))).
    - destruct s; cbn [depth]; [cbn [klsum ksum]; ring | apply klsum_seq].
    - apply ksum_ext. intros y Hy. rewrite spot_mul by exact Hy. reflexivity.
  Qed.
  Lemma modes_count : length (modes s n) = (n * c)%nat.
  Proof using. clear Hn. rewrite modes_length. reflexivity. Qed.
  Lemma spot_in k : (k < n * c)%nat -> In (spot k) (modes s n).
  Proof using.
    clear Hn. intros Hk. unfold modes, spot. apply in_prod_iff. split.
    - apply in_seq. split; [lia|]. cbn. apply Nat.div_lt_upper_bound; [intros X; rewrite X in Hk; lia | lia].
    - destruct s; cbn [depth] in *; [left; rewrite Nat.mod_1_r; reflexivity|]. apply in_seq. split; [lia|]. apply Nat.mod_upper_bound. nia.
  Qed.
  Lemma site_place k : (site_x (Z.of_nat c) k, site_y (Z.of_nat c) k) = place k.
  Proof using. clear Hn. unfold place, spot, site_x, site_y. cbn [fst snd]. rewrite Nat2Z.inj_div, Nat2Z.inj_mod. reflexivity. Qed.

  (** Periodicity of the plane waves. *)
  Lemma wave_ring j z w : ((z - w) mod Z.of_nat n = 0)%Z -> wave (momentum n j * IZR z) = wave (momentum n j * IZR w).
  Proof using Hn.
    intros E. apply Z.mod_divide in E as [q Hq]; [|lia]. assert (z = w + q * Z.of_nat n)%Z as -> by lia.
    rewrite plus_IZR, mult_IZR, <- INR_IZR_INZ. unfold momentum.
    replace (2 * PI * INR j / INR n * (IZR w + IZR q * INR n)) with (2 * PI * INR j / INR n * IZR w + 2 * PI * IZR (Z.of_nat j * q)).
    - apply wave_period.
    - rewrite mult_IZR, <- INR_IZR_INZ. field. apply not_0_INR. lia.
  Qed.
  Lemma plane_sub r r' p : plane s n (fst r - fst r', snd r - snd r')%Z p = plane s n r p *c conj (plane s n r' p).
  Proof using.
    clear Hn. rewrite <- plane_neg. destruct s; cbn [plane fst snd]; rewrite <- wave_add; f_equal; rewrite !minus_IZR, !opp_IZR; ring.
  Qed.

  (** Neighbours on the lattice. *)
  Definition nextb (r r' : Z * Z) : bool :=
    match s with
    | Chain => stepb n (fst r - fst r')
    | Square => (stepb n (fst r - fst r') && (snd r =? snd r')%Z) || ((fst r =? fst r')%Z && stepb n (snd r - snd r'))
    end.
  Lemma stepb_0 : (3 <= n)%nat -> stepb n 0 = false.
  Proof using.
    clear Hn. intros H. unfold stepb. destruct (Z.eqb_spec ((0 - 1) mod Z.of_nat n) 0) as [E|], (Z.eqb_spec ((0 + 1) mod Z.of_nat n) 0) as [E'|]; try reflexivity; exfalso.
    all: try (apply Z.mod_divide in E as [q Hq]; [|lia]; destruct (Z_le_gt_dec q (-1)); nia). all: apply Z.mod_divide in E' as [q Hq]; [|lia]; destruct (Z_le_gt_dec q 0); nia.
  Qed.
  Lemma next_sum k p : (3 <= n)%nat -> (k < n * c)%nat ->
    ksum (n * c) (fun l => kb (nextb (place k) (place l)) *c plane s n (place l) p) = real (- level_of s n p) *c plane s n (place k) p.
  Proof using Hn.
    intros H3 Hk. rewrite <- plane_nb, ksum_prod.
    rewrite (ksum_ext n _ (fun x => ksum c (fun y => kb (nextb (place k) (Z.of_nat x, Z.of_nat y)) *c plane s n (Z.of_nat x, Z.of_nat y) p)))
      by (intros x Hx; apply ksum_ext; intros y Hy; unfold place at 2 3; rewrite spot_mul by exact Hy; reflexivity).
    assert (B1 : (fst (spot k) < n)%nat /\ (snd (spot k) < c)%nat).
    { unfold spot. cbn. pose proof c_pos. split; [apply Nat.div_lt_upper_bound; lia | apply Nat.mod_upper_bound; lia]. }
    unfold place, nextb. destruct (spot k) as [x0 y0]. cbn [fst snd] in *. destruct s; cbn [depth nextb neighbours klsum fst snd plane] in *.
    - rewrite (ksum_ext n _ (fun x => kb (stepb n (Z.of_nat x0 - Z.of_nat x)) *c wave (momentum n (fst p) * IZR (Z.of_nat x)))) by (intros; cbn [ksum]; ring).
      rewrite (ring_nb n (fun z => wave (momentum n (fst p) * IZR z)) (Z.of_nat x0) H3 (wave_ring (fst p))). ring.
    - set (A := fun z => wave (momentum n (fst p) * IZR z)). set (B := fun z => wave (momentum n (snd p) * IZR z)).
      assert (AB : forall z w, wave (momentum n (fst p) * IZR z + momentum n (snd p) * IZR w) = A z *c B w) by (intros; apply wave_add).
      rewrite !AB.
      rewrite (ksum_ext n _ (fun x => (kb (stepb n (Z.of_nat x0 - Z.of_nat x)) *c A (Z.of_nat x)) *c B (Z.of_nat y0)
        +c (kb (x =? x0)%nat *c A (Z.of_nat x)) *c (B (Z.of_nat y0 + 1)%Z +c B (Z.of_nat y0 - 1)%Z))).
      + rewrite ksum_add, !(ksum_mul_r n). rewrite (ring_nb n A (Z.of_nat x0) H3 (wave_ring (fst p))).
        assert (PK : forall i (F : nat -> CR), (i < n)%nat -> ksum n (fun j => kb (j =? i)%nat *c F j) = F i).
        { intros i F Hi. rewrite (ksum_single n i) by (try exact Hi; intros j Hj Ne; rewrite (proj2 (Nat.eqb_neq j i)) by exact Ne; cbn [kb]; ring).
          rewrite Nat.eqb_refl. cbn [kb]. ring. }
        rewrite (PK x0 (fun x => A (Z.of_nat x))) by (apply B1). ring.
      + intros x Hx. rewrite <- (ring_nb n B (Z.of_nat y0) H3 (wave_ring (snd p))).
        assert (PK : forall i (F : nat -> CR), (i < n)%nat -> ksum n (fun j => kb (j =? i)%nat *c F j) = F i).
        { intros i F Hi. rewrite (ksum_single n i) by (try exact Hi; intros j Hj Ne; rewrite (proj2 (Nat.eqb_neq j i)) by exact Ne; cbn [kb]; ring).
          rewrite Nat.eqb_refl. cbn [kb]. ring. }
        rewrite <- (PK y0 (fun y => B (Z.of_nat y))) by (apply B1). rewrite <- !(ksum_mul_l n), <- ksum_add. apply ksum_ext. intros y Hy.
        rewrite AB.
        destruct (Nat.eqb_spec x x0) as [->|Nx], (Nat.eqb_spec y y0) as [->|Ny].
        * rewrite !Z.eqb_refl, !Z.sub_diag, (stepb_0 H3). cbn [andb orb kb]. ring.
        * rewrite (proj2 (Z.eqb_neq (Z.of_nat y0) (Z.of_nat y))) by lia. rewrite Z.eqb_refl, Z.sub_diag, (stepb_0 H3). cbn [andb orb kb]. ring.
        * rewrite (proj2 (Z.eqb_neq (Z.of_nat x0) (Z.of_nat x))) by lia. rewrite Z.eqb_refl, Z.sub_diag, (stepb_0 H3). rewrite andb_true_r. cbn [andb]. rewrite orb_false_r. cbn [kb]. ring.
        * rewrite (proj2 (Z.eqb_neq (Z.of_nat y0) (Z.of_nat y))) by lia. rewrite (proj2 (Z.eqb_neq (Z.of_nat x0) (Z.of_nat x))) by lia. rewrite andb_false_r. cbn [andb orb kb]. ring.
  Qed.

  (** The eigenvectors. *)
  Definition waves : mat CR := Mat (n * c) (n * c) (fun i a => real (/ sqrt (INR (n * c))) *c plane s n (place i) (spot a)).
  Definition band (t mu : R) : list R := map (fun a => t * level_of s n (spot a) - mu) (seq 0 (n * c)).
  Lemma norm_sq : / sqrt (INR (n * c)) * / sqrt (INR (n * c)) = / INR (n * c).
  Proof using Hn.
    assert (0 < INR (n * c)) by (apply lt_0_INR; pose proof c_pos; nia).
    rewrite <- Rinv_mult. rewrite sqrt_sqrt by lra. reflexivity.
  Qed.
  Lemma waves_eigen (h : mat CR) t mu : (3 <= n)%nat -> nrow h = (n * c)%nat -> ncol h = (n * c)%nat ->
    (forall i j, (i < n * c)%nat -> (j < n * c)%nat -> ent h i j = (if (i =? j)%nat then real (- mu) else c0) +c real (- t) *c kb (nextb (place i) (place j))) ->
    eigenbasis h waves (band t mu).
  Proof using Hn.
    intros H3 R1 R2 HE. assert (NP : 0 < INR (n * c)) by (apply lt_0_INR; pose proof c_pos; nia).
    split; [|split].
    - unfold eigen, waves, band. cbn [nrow ncol]. rewrite map_length, seq_length. repeat split; try assumption.
      intros i a Hi Ha. unfold apply, col. cbn [ent].
      rewrite (nth_indep _ 0 ((fun a => t * level_of s n (spot a) - mu) 0%nat)) by (rewrite map_length, seq_length; exact Ha).
      rewrite (map_nth (fun a => t * level_of s n (spot a) - mu)), seq_nth by exact Ha. cbn [Nat.add].
      set (e := level_of s n (spot a)). set (w := real (/ sqrt (INR (n * c)))).
      rewrite (ksum_ext (n * c) _ (fun j => kb (j =? i)%nat *c (real (- mu) *c (w *c plane s n (place i) (spot a)))
          +c real (- t) *c w *c (kb (nextb (place i) (place j)) *c plane s n (place j) (spot a)))).
      + rewrite ksum_add, (ksum_mul_l (n * c)), next_sum by assumption.
        rewrite (ksum_single (n * c) i) by (try exact Hi; intros j Hj Ne; rewrite (proj2 (Nat.eqb_neq j i)) by exact Ne; cbn [kb]; ring).
        rewrite Nat.eqb_refl. cbn [kb]. fold e. change (t * e - mu, 0) with (real (t * e - mu)).
        replace (real (t * e - mu)) with (real t *c real e +c real (- mu)) by (apply injective_projections; cbn; ring).
        replace (real (- t)) with (kopp (real t)) by (apply injective_projections; cbn; ring).
        replace (real (- e)) with (kopp (real e)) by (apply injective_projections; cbn; ring). ring.
      + intros j Hj. rewrite HE by assumption. rewrite (Nat.eqb_sym i j). destruct (Nat.eqb_spec j i) as [->|]; cbn [kb]; ring.
    - intros a b Ha Hb. cbn [nrow ncol waves] in *. unfold inner, col, waves. cbn [ent].
      rewrite (ksum_ext (n * c) _ (fun i => real (/ INR (n * c)) *c (plane s n (place i) (spot b) *c conj (plane s n (place i) (spot a))))).
      + rewrite (ksum_mul_l (n * c)).
        pose proof (sites_orth s n (spot b) (spot a) Hn (spot_in b Hb) (spot_in a Ha)) as X. unfold sites in X.
        rewrite klsum_map, modes_sum in X.
        etransitivity; [apply f_equal; exact X|]. rewrite modes_count.
        destruct (Nat.eqb_spec a b) as [->|Ne].
        * replace (eqp (spot b) (spot b)) with true by (symmetry; apply eqp_spec; reflexivity). rewrite <- real_mul.
          replace (/ INR (n * c) * INR (n * c)) with 1 by (field; lra). reflexivity.
        * replace (eqp (spot b) (spot a)) with false; [cbn [kb]; ring|]. symmetry. apply Bool.not_true_is_false. intros E. apply eqp_spec in E. apply Ne.
          unfold spot in E. injection E as E1 E2. rewrite (Nat.div_mod a c), (Nat.div_mod b c) by (pose proof c_pos; lia). congruence.
      + intros i Hi. rewrite (@kconj_mul CR _), real_conj.
        transitivity (real (/ sqrt (INR (n * c))) *c real (/ sqrt (INR (n * c))) *c (plane s n (place i) (spot b) *c conj (plane s n (place i) (spot a)))); [ring|].
        rewrite <- real_mul, norm_sq. reflexivity.
    - intros psi i Hi. cbn [nrow ncol waves] in *. unfold inner, col, waves. cbn [ent].
      rewrite (ksum_ext (n * c) _ (fun a => ksum (n * c) (fun j => (real (/ INR (n * c)) *c psi j) *c
          (plane s n (place i) (spot a) *c conj (plane s n (place j) (spot a)))))).
      + rewrite ksum_swap. rewrite (ksum_single (n * c) i).
        * rewrite (ksum_mul_l (n * c)). rewrite <- (modes_sum (fun p => plane s n (place i) p *c conj (plane s n (place i) p))).
          rewrite (klsum_ext _ _ (plane s n (fst (place i) - fst (place i), snd (place i) - snd (place i))%Z)) by (intros; symmetry; apply plane_sub).
          rewrite plane_orth, modes_count by exact Hn. rewrite !Z.sub_diag.
          assert (same_site s n (0, 0)%Z = true) as -> by (destruct s; cbn [same_site fst snd]; unfold back; rewrite !Z.mod_0_l by lia; reflexivity).
          transitivity (psi i *c (real (/ INR (n * c)) *c real (INR (n * c)))); [|ring]. rewrite <- real_mul.
          replace (/ INR (n * c) * INR (n * c)) with 1 by (field; lra). change (real 1) with c1. ring.
        * exact Hi.
        * intros j Hj Ne. rewrite (ksum_mul_l (n * c)). rewrite <- (modes_sum (fun p => plane s n (place i) p *c conj (plane s n (place j) p))).
          rewrite (klsum_ext _ _ (plane s n (fst (place i) - fst (place j), snd (place i) - snd (place j))%Z)) by (intros; symmetry; apply plane_sub).
          rewrite plane_orth by exact Hn.
          assert (same_site s n (fst (place i) - fst (place j), snd (place i) - snd (place j))%Z = false) as ->; [|ring].
          apply Bool.not_true_is_false. intros E. apply Ne. clear - E Hi Hj Hn. pose proof c_pos as CP.
          assert (BK : forall a b, (a < n)%nat -> (b < n)%nat -> back n (Z.of_nat a - Z.of_nat b) = true -> a = b).
          { intros a b Ha Hb X. unfold back in X. apply Z.eqb_eq in X. apply Z.mod_divide in X as [q Hq]; [|lia].
            assert (q = 0)%Z by (destruct (Z_lt_le_dec q 0); [nia|destruct (Z_lt_le_dec 0 q); [nia|lia]]). subst q. lia. }
          unfold place, spot in E. cbn [fst snd] in E.
          assert (i / c < n)%nat by (apply Nat.div_lt_upper_bound; lia). assert (j / c < n)%nat by (apply Nat.div_lt_upper_bound; lia).
          rewrite (Nat.div_mod i c), (Nat.div_mod j c) by lia.
          destruct s; cbn [same_site fst snd depth] in *.
          -- apply BK in E; try assumption. rewrite E, !Nat.mod_1_r. reflexivity.
          -- apply andb_prop in E as [E1 E2]. apply BK in E1; try assumption. apply BK in E2; try (apply Nat.mod_upper_bound; lia). congruence.
      + intros a Ha. rewrite <- ksum_mul_l. apply ksum_ext. intros j Hj. rewrite (@kconj_mul CR _), real_conj.
        rewrite <- norm_sq, real_mul. ring.
  Qed.

  (** Occupations. *)
  Lemma waves_filled T t mu i j : T <> 0 -> t <> 0 -> (i < n * c)%nat -> (j < n * c)%nat ->
    filled T waves (band t mu) i j =
    c_mean (fun p => plane s n (fst (place j) - fst (place i), snd (place j) - snd (place i))%Z p *c real (occupation (t / T) (mu / t) (level_of s n p))) (modes s n).
  Proof using Hn.
    intros T0 t0 Hi Hj. assert (NP : 0 < INR (n * c)) by (apply lt_0_INR; pose proof c_pos; nia).
    unfold filled, c_mean, band. rewrite map_length, seq_length, modes_sum, modes_count, <- ksum_mul_l. apply ksum_ext. intros a Ha.
    rewrite (nth_indep _ 0 ((fun a => t * level_of s n (spot a) - mu) 0%nat)) by (rewrite map_length, seq_length; exact Ha).
    rewrite (map_nth (fun a => t * level_of s n (spot a) - mu)), seq_nth by exact Ha. cbn [Nat.add].
    rewrite plane_sub. unfold waves. cbn [ent]. rewrite (@kconj_mul CR _).
    assert (F : fermi_weight T (t * level_of s n (spot a) - mu) = occupation (t / T) (mu / t) (level_of s n (spot a))).
    { unfold fermi_weight, occupation. replace (- (1 / T) * (t * level_of s n (spot a) - mu - 0)) with (- (t / T) * (level_of s n (spot a) - mu / t)) by (field; split; assumption). reflexivity. }
    rewrite F. change (re (occupation (t / T) (mu / t) (level_of s n (spot a)))) with (real (occupation (t / T) (mu / t) (level_of s n (spot a)))).
    change (kconj (real (/ sqrt (INR (n * c))))) with (conj (real (/ sqrt (INR (n * c))))). rewrite real_conj.
    change ((1 / INR (n * c), 0) : CR) with (real (1 / INR (n * c))). replace (1 / INR (n * c)) with (/ INR (n * c)) by (field; lra).
    rewrite <- norm_sq, real_mul. ring.
  Qed.
End Waves.
