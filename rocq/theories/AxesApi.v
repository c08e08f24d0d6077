(** Energies and thermal averages of spins 1/2 described along other axes. *)
From Coq Require Import List Arith Lia Reals Lra Bool Permutation.
From Verif Require Convex SymAverage ChainSpectrum.
From Verif Require Import Scalars Res Matrix Sums SqMat SpecMat ModelBase ModelSpins SpecSpins Digits SpinOps SpinHam SpinApi SpinSym ModelGeometry ModelPhase ModelSymmetry SymBase ModelThermal SpecThermal ThermalBase ThermalBasis
  SpecSigns Signs SignsSpins Sectors Ladder SpecAxes Axes AxesTurn AxesRun AxesMirror.
Import ListNotations.
Local Open Scope R_scope.

Section Api.
  Variables (rt : nat -> CR) (s s' : spins CR) (p : axis -> axis) (g : nat -> axis -> R) (F F' V V2 : mat CR) (E E2 : list R).
  Hypothesis root : rt 1%nat = k1.
  Hypothesis half : sp_two s = 1%nat.
  Hypothesis rd : redescribed p g s s'.
  Hypothesis al : allowed p g s.
  Hypothesis made : sp_createH rt s None = Ok F.
  Hypothesis made' : sp_createH rt s' None = Ok F'.
  Hypothesis basis : eigenbasis F V E.
  Hypothesis basis2 : eigenbasis F' V2 E2.
  Notation n := (sg_nsites (sp_geom s)).
  Notation D := (2 ^ n)%nat.
  Lemma both : exists W, eigenbasis F' W E /\ ncol W = ncol V /\ carries rt n p g V W.
  Proof using root half rd al made made' basis.
    destruct al as [rot|(rs & mi)].
    - apply (turned_all rt n s s' p g F F' V E root half eq_refl rd rot made made' basis).
    - apply (mirrored_all rt n root s s' p g F F' V E half eq_refl rd rs mi made made' basis).
  Qed.
  Lemma rows1 : nrow V = D. Proof using half made basis. destruct (full_size rt n s F half eq_refl made) as (A & _). destruct basis as ((_ & B & _) & _). congruence. Qed.
  Lemma rows2 W E' : eigenbasis F' W E' -> nrow W = D.
  Proof using half rd made'. intros ((_ & B & _) & _). destruct rd as (R1 & R2 & _). destruct (full_size rt n s' F' (eq_trans R2 half) R1 made') as (A & _). congruence. Qed.
  Theorem same_energies : Permutation E E2 /\ (sorted_list E -> sorted_list E2 -> E = E2).
  Proof using root half rd al made made' basis basis2.
    destruct both as (W & BW & _). assert (P : Permutation E E2).
    { apply (ChainSpectrum.energies_perm F' W V2); [apply (SymAverage.eigenbasis_hermitian _ _ _ BW) | exact BW | exact basis2 | rewrite (rows2 _ _ basis2), (rows2 _ _ BW); reflexivity]. }
    split; [exact P|]. intros S1 S2. apply ChainSpectrum.sorted_same; assumption.
  Qed.
  Notation steady T := (T <> 0 \/ (sorted_list E /\ sorted_list E2 /\ apart gap13 E)).
  Lemma some_level : E <> [].
  Proof using half made basis.
    intros Q. destruct basis as ((B1 & _) & _ & B6). rewrite Q in B1. cbn in B1. unfold complete_basis in B6. rewrite B1, rows1 in B6. specialize (B6 (fun _ => c1) 0%nat ltac:(apply Nat.neq_0_lt_0, Nat.pow_nonzero; discriminate)).
    apply (f_equal fst) in B6. cbn in B6. lra.
  Qed.
  Lemma scaled_average W O O' c T : eigenbasis F' W E -> ncol W = ncol V -> (nrow O = D /\ ncol O = D) -> (nrow O' = D /\ ncol O' = D) ->
    (forall k, (k < ncol V)%nat -> expect D O' (col W k) = c * expect D O (col V k)) ->
    forall x, steady T -> exp_vals_thermal V O E T = Ok x -> exp_vals_thermal V2 O' E2 T = Ok (c * x).
  Proof using half rd made made' basis basis2.
    intros BW NC (O1 & O2) (O3 & O4) X x HT EX. pose proof rows1 as RV. pose proof (rows2 _ _ BW) as RW. pose proof (rows2 _ _ basis2) as R2.
    assert (LE : ncol V = length E) by apply basis. assert (LE2 : ncol V2 = length E2) by apply basis2.
    assert (P : Permutation E E2).
    { apply (ChainSpectrum.energies_perm F' W V2); [apply (SymAverage.eigenbasis_hermitian _ _ _ BW) | exact BW | exact basis2 | congruence]. }
    assert (NE : E2 <> []). { intros Q. rewrite Q in P. apply Permutation_sym, Permutation_nil in P. exact (some_level P). }
    assert (FV : fits V O E) by (repeat split; congruence || exact some_level). assert (FW : fits W O' E) by (repeat split; congruence || exact some_level).
    rewrite <- (thermal_basis F' W V2 O' E E2 T (SymAverage.eigenbasis_hermitian _ _ _ BW) BW basis2 ltac:(congruence) FW NE HT).
    destruct (Req_EM_T T 0) as [->|NT].
    - destruct HT as [HT|(S1 & S2 & AP)]; [congruence|]. rewrite (thermal_zero V O E FV S1 AP) in EX. injection EX as <-. rewrite (thermal_zero W O' E FW S1 AP). f_equal.
      unfold average_at, levels. rewrite !total_map. unfold at_energy. cbn [energy value fst snd]. rewrite RW, RV.
      rewrite (total_ext _ (fun k => c * ((if Req_EM_T (nth k E 0) (nth 0 E 0) then 1 else 0) * expect D O (col V k)))).
      + rewrite total_scale. unfold Rdiv. ring.
      + intros k Hk. apply in_seq in Hk. rewrite X by lia. ring.
    - rewrite (thermal_finite V O E T FV NT) in EX. injection EX as <-. rewrite (thermal_finite W O' E T FW NT). f_equal.
      unfold boltzmann, levels. rewrite !total_map. cbn [energy value fst snd]. rewrite RW, RV.
      rewrite (total_ext _ (fun k => c * (exp (- nth k E 0 / T) * expect D O (col V k)))).
      + rewrite total_scale. unfold Rdiv. ring.
      + intros k Hk. apply in_seq in Hk. rewrite X by lia. ring.
  Qed.
  Lemma sys_1 : sp_sys s = dsys 2 n. Proof using half. unfold sp_sys. rewrite half. reflexivity. Qed.
  Lemma sys_2 : sp_sys s' = dsys 2 n. Proof using half rd. destruct rd as (R1 & R2 & _). unfold sp_sys. rewrite R1, R2, half. reflexivity. Qed.
  Lemma along_square a : square 2 (spin_along rt a). Proof using. destruct a; split; reflexivity. Qed.
  Lemma site_expect i a O psi : (i < n)%nat -> single_site_op (dsys 2 n) i 0 (spin_along rt a) Boson = Ok O ->
    (nrow O = D /\ ncol O = D) /\ expect D O psi = fst (inner D psi (st n i (ent (spin_along rt a)) psi)).
  Proof using.
    intros Hi EO. destruct (single_elem 2 ltac:(discriminate) n i (spin_along rt a) (along_square a) Hi (or_introl eq_refl)) as (T & ET & SQ & VT). rewrite EO in ET. injection ET as <-.
    split; [exact SQ|]. unfold expect. f_equal. apply inner_ext; [reflexivity|]. intros x Hx. rewrite <- (site_acts n i _ psi x Hi Hx). unfold apply. apply ksum_ext. intros y Hy. rewrite (VT x y Hx Hy). reflexivity.
  Qed.
  Lemma pair_expect i j a b O psi : (i < n)%nat -> (j < n)%nat -> i <> j -> two_site_op (dsys 2 n) i 0 j 0 (spin_along rt a) (spin_along rt b) Boson = Ok O ->
    (nrow O = D /\ ncol O = D) /\ expect D O psi = fst (inner D psi (st n i (ent (spin_along rt a)) (st n j (ent (spin_along rt b)) psi))).
  Proof using.
    intros Hi Hj N EO. destruct (two_elem 2 ltac:(discriminate) n i j (spin_along rt a) (spin_along rt b) (along_square a) (along_square b) Hi Hj N) as (T & ET & SQ & VT). rewrite EO in ET. injection ET as <-.
    split; [exact SQ|]. unfold expect. f_equal. apply inner_ext; [reflexivity|]. intros x Hx. rewrite <- (pair_acts n i j _ _ psi x Hi Hj N Hx). unfold apply. apply ksum_ext. intros y Hy. rewrite (VT x y Hx Hy). reflexivity.
  Qed.
  Theorem same_sites : forall i a O O' T x, (i < n)%nat -> single_site_op (sp_sys s) i 0 (spin_along rt a) Boson = Ok O -> single_site_op (sp_sys s') i 0 (spin_along rt (p a)) Boson = Ok O' ->
    steady T -> exp_vals_thermal V O E T = Ok x -> exp_vals_thermal V2 O' E2 T = Ok (g i a * x).
  Proof using root half rd al made made' basis basis2.
    intros i a O O' T x Hi EO EO' HT EX. rewrite sys_1 in EO. rewrite sys_2 in EO'. destruct both as (W & BW & NC & C).
    refine (scaled_average W O O' (g i a) T BW NC (proj1 (site_expect i a O (fun _ => c1) Hi EO)) (proj1 (site_expect i (p a) O' (fun _ => c1) Hi EO')) _ x HT EX).
    intros k Hk. rewrite (proj2 (site_expect i a O _ Hi EO)), (proj2 (site_expect i (p a) O' _ Hi EO')). apply (C k Hk). exact Hi.
  Qed.
  Theorem same_pairs : forall i j a b O O' T x, (i < n)%nat -> (j < n)%nat -> i <> j ->
    two_site_op (sp_sys s) i 0 j 0 (spin_along rt a) (spin_along rt b) Boson = Ok O -> two_site_op (sp_sys s') i 0 j 0 (spin_along rt (p a)) (spin_along rt (p b)) Boson = Ok O' ->
    steady T -> exp_vals_thermal V O E T = Ok x -> exp_vals_thermal V2 O' E2 T = Ok (g i a * g j b * x).
  Proof using root half rd al made made' basis basis2.
    intros i j a b O O' T x Hi Hj N EO EO' HT EX. rewrite sys_1 in EO. rewrite sys_2 in EO'. destruct both as (W & BW & NC & C).
    refine (scaled_average W O O' (g i a * g j b) T BW NC (proj1 (pair_expect i j a b O (fun _ => c1) Hi Hj N EO)) (proj1 (pair_expect i j (p a) (p b) O' (fun _ => c1) Hi Hj N EO')) _ x HT EX).
    intros k Hk. rewrite (proj2 (pair_expect i j a b O _ Hi Hj N EO)), (proj2 (pair_expect i j (p a) (p b) O' _ Hi Hj N EO')). apply (C k Hk); assumption.
  Qed.
End Api.

(** Averages that vanish. *)
Section Vanish.
  Variables (rt : nat -> CR) (s : spins CR) (c : axis) (F V : mat CR) (E : list R).
  Hypothesis root : rt 1%nat = k1.
  Hypothesis half : sp_two s = 1%nat.
  Hypothesis rs : real_spins s.
  Hypothesis only : forall a i, a <> c -> (i < sg_nsites (sp_geom s))%nat -> field_along s a i = (0, 0).
  Hypothesis made : sp_createH rt s None = Ok F.
  Hypothesis basis : eigenbasis F V E.
  Notation n := (sg_nsites (sp_geom s)).
  Notation steady T := (T <> 0 \/ (sorted_list E /\ apart gap13 E)).
  Definition minus_one (e a : axis) : R := match e, a with AX, AX | AY, AY | AZ, AZ => -1 | _, _ => 1 end.
  Lemma minus_own e : minus_one e e = -1. Proof using. destruct e; reflexivity. Qed.
  Lemma minus_else e a : a <> e -> minus_one e a = 1. Proof using. clear. destruct e, a; intros N; reflexivity || (exfalso; apply N; reflexivity). Qed.
  Lemma axis_dec (a b : axis) : {a = b} + {a <> b}. Proof using. decide equality. Qed.
  Lemma flip_same e : e <> c -> redescribed (fun a => a) (fun _ => minus_one e) s s.
  Proof using only.
    intros N. split; [reflexivity|]. split; [reflexivity|]. split.
    - intros i j a Hij. generalize (coupling_along s a i j). intros z. destruct e, a; apply injective_projections; cbn; ring.
    - intros i a Hi. destruct (axis_dec a e) as [->|M]; [rewrite (only e i N Hi) | rewrite (minus_else e a M); generalize (field_along s a i); intros z]; apply injective_projections; cbn; ring.
  Qed.
  Lemma flip_allowed e : allowed (fun a => a) (fun _ => minus_one e) s.
  Proof using rs.
    right. split; [exact rs|]. intros i Hi. split; [intros a; destruct e, a; cbn; lra|]. left. split; [intros a; reflexivity | destruct e; cbn; lra].
  Qed.
  Lemma steady_two T : steady T -> T <> 0 \/ (sorted_list E /\ sorted_list E /\ apart gap13 E). Proof using. clear. tauto. Qed.
  Theorem vanish_site a i O T x : a <> c -> (i < n)%nat -> single_site_op (sp_sys s) i 0 (spin_along rt a) Boson = Ok O -> steady T -> exp_vals_thermal V O E T = Ok x -> x = 0.
  Proof using All.
    intros N Hi EO HT EX. pose proof (same_sites rt s s _ _ F F V V E E root half (flip_same a N) (flip_allowed a) made made basis basis i a O O T x Hi EO EO (steady_two T HT) EX) as Q.
    rewrite EX in Q. injection Q as Q. rewrite minus_own in Q. lra.
  Qed.
  Theorem vanish_pair a b i j O T x : a <> b -> (i < n)%nat -> (j < n)%nat -> i <> j -> two_site_op (sp_sys s) i 0 j 0 (spin_along rt a) (spin_along rt b) Boson = Ok O -> steady T -> exp_vals_thermal V O E T = Ok x -> x = 0.
  Proof using All.
    intros N Hi Hj M EO HT EX.
    assert (G : forall e, e <> c -> minus_one e a * minus_one e b = -1 -> x = 0).
    { intros e Ne X. pose proof (same_pairs rt s s _ _ F F V V E E root half (flip_same e Ne) (flip_allowed e) made made basis basis i j a b O O T x Hi Hj M EO EO (steady_two T HT) EX) as Q.
      rewrite EX in Q. injection Q as Q. rewrite X in Q. lra. }
    destruct (axis_dec a c) as [->|Na].
    - apply (G b); [congruence|]. rewrite minus_own, minus_else by congruence. lra.
    - apply (G a Na). rewrite minus_own, minus_else by congruence. lra.
  Qed.
End Vanish.
