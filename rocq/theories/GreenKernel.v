(** Trapezoidal integrals of spectral functions and the kernels. *)
From Coq Require Import List Arith Lia Reals Lra ZArith Bool Ring.
From Verif Require Import Scalars Res Sums ModelPhase ModelSymmetry SymBase SpecThermal ThermalBase SpecFermiGas ModelFermiGas FermiBase FermiModes ModelGreen SpecGreen.
Import ListNotations.
Local Open Scope R_scope.

(** ** Lists of results *)
Lemma rmap_test {A B} (bad : A -> bool) (v : A -> B) e f l :
  (forall a, f a = if bad a then Raise e else Ok (v a)) -> rmap f l = if existsb bad l then Raise e else Ok (map v l).
Proof.
  intros H. induction l as [|a l IH]; [reflexivity|]. cbn [rmap existsb map]. rewrite H. destruct (bad a); [reflexivity|].
  cbn [orb]. rewrite IH. destruct (existsb bad l); reflexivity.
Qed.
Lemma rmap_after {A B C} (f : A -> res C) (k : A -> res B) (h : B -> C) l :
  (forall a, f a = (r <- k a ;; Ok (h r))) -> rmap f l = (K <- rmap k l ;; Ok (map h K)).
Proof.
  intros H. induction l as [|a l IH]; [reflexivity|]. cbn [rmap]. rewrite H. destruct (k a); [|reflexivity]. cbn [bind]. rewrite IH.
  destruct (rmap k l); reflexivity.
Qed.
Lemma existsb_combine {A B} (f : A -> bool) (g : A * B -> bool) l m : length m = length l -> (forall p, g p = f (fst p)) ->
  existsb g (combine l m) = existsb f l.
Proof.
  intros H Hg. revert m H. induction l as [|a l IH]; intros [|b m] H; try discriminate; [reflexivity|].
  cbn. rewrite Hg. cbn. f_equal. apply IH. injection H as H. exact H.
Qed.

(** ** Trapezoidal sums *)
Lemma trapz_cons x x' xs y y' ys :
  trapz (x :: x' :: xs) (y :: y' :: ys) = real ((x' - x) / 2) *c (y +c y') +c trapz (x' :: xs) (y' :: ys).
Proof. reflexivity. Qed.
Lemma trapz_spec xs ys : length ys = length xs -> trapz xs ys = trapezoid xs (fun i => nth i ys c0).
Proof.
  revert ys. induction xs as [|x xs IH]; intros [|y ys] H; try discriminate; [reflexivity|].
  injection H as H. destruct xs as [|x' xs], ys as [|y' ys]; try discriminate; [reflexivity|].
  rewrite trapz_cons, IH by exact H. unfold trapezoid. cbn [length]. replace (S (S (length xs)) - 1)%nat with (S (length xs)) by lia.
  replace (S (length xs) - 1)%nat with (length xs) by lia. cbn [seq]. rewrite <- seq_shift.
  change (klsum (0%nat :: ?l) ?f) with (f 0%nat +c klsum l f). rewrite klsum_map. reflexivity.
Qed.
Lemma trapezoid_ext xs y z : (forall i, (i < length xs)%nat -> y i = z i) -> trapezoid xs y = trapezoid xs z.
Proof. intros H. apply klsum_ext. intros i Hi. apply in_seq in Hi. rewrite !H by lia. reflexivity. Qed.
Lemma trapezoid_real xs y : trapezoid xs (fun i => real (y i)) = real (r_trapezoid xs y).
Proof.
  unfold trapezoid, r_trapezoid. induction (seq 0 (length xs - 1)) as [|i l IH]; [reflexivity|].
  change (klsum (i :: l) ?f) with (f i +c klsum l f). rewrite IH, total_cons, real_add. f_equal.
  change (((nth (S i) xs 0 - nth i xs 0) / 2, 0) : CR) with (real ((nth (S i) xs 0 - nth i xs 0) / 2)).
  rewrite <- real_add, <- real_mul. reflexivity.
Qed.

(** ** The weights of the kernels *)
Fixpoint half_widths (p : R) (xs : list R) : list R :=
  match xs with
  | x :: ((x' :: _) as t) => / 2 * (x' - p) :: half_widths x t
  | [x] => [/ 2 * (x - p)]
  | [] => []
  end.
Lemma half_widths_length p xs : length (half_widths p xs) = length xs.
Proof. revert p. induction xs as [|x [|x' t] IH]; intros p; [reflexivity|reflexivity|]. change (S (length (half_widths x (x' :: t))) = S (length (x' :: t))). rewrite IH. reflexivity. Qed.
Lemma half_widths_sum p x xs ys : length ys = length (x :: xs) ->
  klsum (combine (half_widths p (x :: xs)) ys) (fun d => real (fst d) *c snd d) =
  real ((x - p) / 2) *c nth 0 ys c0 +c trapz (x :: xs) ys.
Proof.
  revert p x ys. induction xs as [|x' xs IH]; intros p x [|y ys] H; try discriminate; injection H as H.
  - destruct ys; [|discriminate]. cbn [half_widths combine trapz nth]. change (klsum [?a] ?f) with (f a +c c0). cbn [fst snd].
    replace (/ 2 * (x - p)) with ((x - p) / 2) by field. reflexivity.
  - destruct ys as [|y' ys]; [discriminate|]. change (half_widths p (x :: x' :: xs)) with (/ 2 * (x' - p) :: half_widths x (x' :: xs)).
    cbn [combine]. change (klsum (?a :: ?l) ?f) with (f a +c klsum l f). rewrite IH by exact H. rewrite trapz_cons. cbn [nth fst snd].
    replace (/ 2 * (x' - p)) with ((x - p) / 2 + (x' - x) / 2) by field. rewrite real_add. ring.
Qed.
Lemma half_widths_nth p xs i : (2 <= length xs)%nat -> (i < length xs)%nat ->
  nth i (half_widths p xs) 0 =
  / 2 * (nth (if (i =? length xs - 1)%nat then i else S i) xs 0 - (if (i =? 0)%nat then p else nth (i - 1) xs 0)).
Proof.
  intros _. revert p i. induction xs as [|x [|x' t] IH]; intros p i Hi; [cbn in Hi; lia| |].
  - destruct i; [|cbn in Hi; lia]. reflexivity.
  - change (half_widths p (x :: x' :: t)) with (/ 2 * (x' - p) :: half_widths x (x' :: t)). destruct i as [|i].
    + reflexivity.
    + cbn [nth]. rewrite IH by (cbn [length] in *; lia). cbn [length]. replace (S (S (length t)) - 1)%nat with (S (length t)) by lia.
      replace (S (length t) - 1)%nat with (length t) by lia. cbn [Nat.eqb]. replace (S i - 1)%nat with i by lia.
      destruct (i =? length t)%nat; destruct i; cbn [Nat.eqb nth]; rewrite ?Nat.sub_succ, ?Nat.sub_0_r; reflexivity.
Qed.
Lemma frq_diffs_ok x xs : xs <> [] -> frq_diffs (x :: xs) = Ok (half_widths x (x :: xs)).
Proof.
  intros H. unfold frq_diffs. assert (L : (2 <= length (x :: xs))%nat) by (destruct xs; [contradiction|cbn; lia]).
  destruct (Nat.ltb_spec (length (x :: xs)) 2); [lia|]. f_equal.
  apply (nth_ext _ _ 0 0); [rewrite map_length, seq_length, half_widths_length; reflexivity|].
  rewrite map_length, seq_length. intros i Hi. rewrite half_widths_nth by assumption.
  assert (N : forall f, nth i (map f (seq 0 (length (x :: xs)))) 0 = f i).
  { intros f. rewrite (nth_indep _ 0 (f 0%nat)) by (rewrite map_length, seq_length; exact Hi). rewrite map_nth, seq_nth by exact Hi. reflexivity. }
  rewrite N.
  destruct (Nat.eqb_spec i (length (x :: xs) - 1)) as [E|E].
  - destruct (Nat.eqb_spec i 0); [lia|]. rewrite <- E. replace (length (x :: xs) - 2)%nat with (i - 1)%nat by lia. reflexivity.
  - destruct (Nat.eqb_spec i 0) as [-> |]; [reflexivity|]. replace (i + 1)%nat with (S i) by lia. reflexivity.
Qed.
Lemma frq_diffs_short xs : (length xs < 2)%nat -> frq_diffs xs = Raise IndexError.
Proof. intros H. unfold frq_diffs. destruct (Nat.ltb_spec (length xs) 2); [reflexivity|lia]. Qed.
Lemma weights_sum xs d ys : (2 <= length xs)%nat -> length ys = length xs -> frq_diffs xs = Ok d ->
  length d = length xs /\ klsum (combine d ys) (fun p => real (fst p) *c snd p) = trapz xs ys.
Proof.
  intros L Hy E. destruct xs as [|x xs]; [cbn in L; lia|]. rewrite frq_diffs_ok in E by (destruct xs; [cbn in L; lia|discriminate]).
  assert (E' : d = half_widths x (x :: xs)) by congruence. subst d. split; [apply half_widths_length|]. rewrite half_widths_sum by exact Hy.
  replace ((x - x) / 2) with 0 by field. rewrite real_0. ring.
Qed.
Lemma frq_diffs_some xs : (2 <= length xs)%nat -> exists d, frq_diffs xs = Ok d.
Proof. destruct xs as [|x [|x' xs]]; intros H; [cbn in H; lia|cbn in H; lia|]. eexists. apply frq_diffs_ok. discriminate. Qed.

(** ** Imaginary frequencies *)
Definition zero_den (z : CR) : bool := if Req_EM_T (fst z * fst z + snd z * snd z) 0 then true else false.
Definition over (x : R) (z : CR) : CR := quotient x z.
Lemma r_over_c_test x z : r_over_c x z = if zero_den z then Raise NotFinite else Ok (over x z).
Proof. unfold r_over_c, zero_den, over, quotient. destruct Req_EM_T; reflexivity. Qed.
Lemma over_scale x z : over x z = over 1 z *c real x.
Proof. unfold over, quotient, real. apply injective_projections; cbn; unfold Rdiv; ring. Qed.
Lemma over_ok x z : zero_den z = false -> is_quotient (real x) z (over x z).
Proof.
  unfold zero_den. destruct z as [a b]. cbn [fst snd]. destruct Req_EM_T as [|H]; [discriminate|]. intros _. split.
  - intros E. injection E as -> ->. apply H. ring.
  - unfold over, quotient, real. apply injective_projections; cbn; field; exact H.
Qed.
Lemma zero_den_false z : z <> c0 -> zero_den z = false.
Proof. intros H. unfold zero_den. destruct Req_EM_T as [E|]; [|reflexivity]. exfalso. apply H. apply nsq_0. exact E. Qed.
Lemma quotient_unique x z q r : is_quotient x z q -> is_quotient x z r -> q = r.
Proof.
  intros (Hz & E) (_ & F). apply nsq_pos in Hz. 
  assert (G : q *c z *c conj z = r *c z *c conj z) by (rewrite E, F; reflexivity).
  replace (q *c z *c conj z) with (real (nsq z) *c q) in G by (rewrite <- mul_conj; ring).
  replace (r *c z *c conj z) with (real (nsq z) *c r) in G by (rewrite <- mul_conj; ring).
  destruct q as [a b], r as [c d]. unfold real in G. cbn in G. unfold cr_mul in G. cbn in G. injection G as G1 G2. f_equal; nra.
Qed.

Section Frq.
  Variables (ms os sp : list R).
  Hypothesis HL : length sp = length os.

  Lemma imagfrq_row wn :
    (integrand <- rmap (fun oa => r_over_c (snd oa) (- fst oa, wn)) (combine os sp) ;;
     Ok (cr_mul (trapz os integrand) (real (1 / (2 * PI))))) =
    if existsb (fun o => zero_den (- o, wn)) os then Raise NotFinite
    else Ok (trapz os (map (fun oa => over (snd oa) (- fst oa, wn)) (combine os sp)) *c real (1 / (2 * PI))).
  Proof.
    rewrite (rmap_test (fun oa => zero_den (- fst oa, wn)) (fun oa => over (snd oa) (- fst oa, wn)) NotFinite)
      by (intros; apply r_over_c_test).
    rewrite (existsb_combine (fun o => zero_den (- o, wn))) by (auto). destruct existsb; reflexivity.
  Qed.

  Lemma frq_kernel : (2 <= length os)%nat ->
    imagfrq_spectralfn ms os sp = (K <- imagfrq_kernel ms os ;; Ok (map (fun row => row_times row sp) K)).
  Proof.
    intros L. unfold imagfrq_spectralfn, imagfrq_kernel. rewrite HL, Nat.eqb_refl. cbn [negb].
    destruct (frq_diffs_some os L) as (d & Hd). rewrite Hd. cbn [bind]. apply rmap_after. intros wn. rewrite imagfrq_row.
    assert (W : length d = length os).
    { destruct (weights_sum os d (repeat c0 (length os)) L) as [W _]; [apply repeat_length|exact Hd|exact W]. }
    rewrite (rmap_test (fun od => zero_den (- fst od, wn))
      (fun od => real (1 / (2 * PI)) *c over 1 (- fst od, wn) *c real (snd od)) NotFinite).
    2: { intros od. rewrite r_over_c_test. destruct zero_den; reflexivity. }
    rewrite (existsb_combine (fun o => zero_den (- o, wn))) by (auto). destruct existsb; [reflexivity|]. cbn [bind]. f_equal.
    destruct (weights_sum os d (map (fun oa => over (snd oa) (- fst oa, wn)) (combine os sp)) L) as [_ S].
    { rewrite map_length, combine_length, HL. apply Nat.min_id. }
    { exact Hd. }
    rewrite <- S. unfold row_times. rewrite <- klsum_mul_r. clear S Hd L HL.
    revert d sp W. induction os as [|o t IH]; intros [|x d] [|a s] W; try discriminate; try reflexivity.
    cbn [combine map]. change (klsum (?a :: ?l) ?f) with (f a +c klsum l f). cbn [fst snd].
    rewrite IH by (injection W as W; exact W). f_equal. rewrite (over_scale a). change ((a, 0) : CR) with (real a). ring.
  Qed.

  Lemma frq_direct : (forall wn o, In wn ms -> In o os -> wn = 0 -> o = 0 -> False) -> exists G,
    imagfrq_spectralfn ms os sp = Ok G /\ length G = length ms /\
    forall j, (j < length ms)%nat -> exists y,
      (forall i, (i < length os)%nat -> is_quotient (nth i sp 0, 0) (- nth i os 0, nth j ms 0) (y i)) /\
      nth j G k0 = @kmul CR _ (1 / (2 * PI), 0) (trapezoid os y).
  Proof.
    intros H. unfold imagfrq_spectralfn. rewrite HL, Nat.eqb_refl. cbn [negb].
    assert (Z : forall wn, In wn ms -> forall o, In o os -> zero_den (- o, wn) = false).
    { intros wn Hw o Ho. apply zero_den_false. intros E. injection E as E1 E2. apply (H wn o); auto. lra. }
    pose (g := fun wn => trapz os (map (fun oa => over (snd oa) (- fst oa, wn)) (combine os sp)) *c real (1 / (2 * PI))).
    exists (map g ms). split; [|split; [apply map_length|]].
    - apply rmap_total. intros wn Hw. rewrite imagfrq_row. destruct existsb eqn:E; [|reflexivity].
      apply existsb_exists in E as (o & Ho & E). rewrite Z in E by assumption. discriminate.
    - intros j Hj. exists (fun i => over (nth i sp 0) (- nth i os 0, nth j ms 0)). split.
      + intros i Hi. apply over_ok. apply Z; apply nth_In; assumption.
      + rewrite (nth_indep _ k0 (g 0)) by (rewrite map_length; exact Hj). rewrite map_nth. unfold g. rewrite trapz_spec.
        2: { rewrite map_length, combine_length, HL. apply Nat.min_id. }
        change ((1 / (2 * PI), 0) : CR) with (real (1 / (2 * PI))).
        rewrite (trapezoid_ext os _ (fun i => over (nth i sp 0) (- nth i os 0, nth j ms 0))); [ring|].
        intros i Hi. set (F := fun oa => over (snd oa) (- fst oa, nth j ms 0)).
        rewrite (nth_indep _ c0 (F (0, 0))) by (rewrite map_length, combine_length, HL, Nat.min_id; exact Hi). rewrite map_nth.
        rewrite combine_nth by (symmetry; exact HL). reflexivity.
  Qed.
End Frq.

(** ** Imaginary times *)
Definition sign_of (fmt : format) : R := match fmt with Fermion => 1 | _ => -1 end.
Lemma statistics_ok fmt : fmt <> OtherFormat -> statistics fmt = Ok (sign_of fmt).
Proof. destruct fmt; try reflexivity. contradiction. Qed.
Definition zero_r (y : R) : bool := if Req_EM_T y 0 then true else false.
Lemma r_over_r_test x y : r_over_r x y = if zero_r y then Raise NotFinite else Ok (x / y).
Proof. unfold r_over_r, zero_r. destruct Req_EM_T; reflexivity. Qed.

Section Time.
  Variables (ts : list R) (b : R) (os sp : list R) (fmt : format).
  Hypothesis HL : length sp = length os.
  Hypothesis HF : fmt <> OtherFormat.
  Let bad (o : R) : bool := zero_r (1 + sign_of fmt * exp (- b * o)).
  Let val (t : R) (oa : R * R) : R := snd oa * exp (- (fst oa * t)) / (1 + sign_of fmt * exp (- b * fst oa)).

  Lemma imagtime_row t :
    (integrand <- rmap (fun oa => r_over_r (snd oa * exp (- (fst oa * t))) (1 + sign_of fmt * exp (- b * fst oa))) (combine os sp) ;;
     Ok (- fst (trapz os (map real integrand)) / (2 * PI))) =
    if existsb bad os then Raise NotFinite
    else Ok (- fst (trapz os (map real (map (val t) (combine os sp)))) / (2 * PI)).
  Proof.
    rewrite (rmap_test (fun oa => bad (fst oa)) (val t) NotFinite) by (intros; apply r_over_r_test).
    rewrite (existsb_combine bad) by (auto). destruct existsb; reflexivity.
  Qed.

  Lemma time_kernel : (2 <= length os)%nat ->
    imagtime_spectralfn ts b os sp fmt = (K <- imagtime_kernel ts b os fmt ;; Ok (map (fun row => r_row_times row sp) K)).
  Proof.
    intros L. unfold imagtime_spectralfn, imagtime_kernel. rewrite statistics_ok by exact HF. cbn [bind]. rewrite HL, Nat.eqb_refl. cbn [negb].
    destruct (frq_diffs_some os L) as (d & Hd). rewrite Hd. cbn [bind]. apply rmap_after. intros t. rewrite imagtime_row.
    assert (W : length d = length os).
    { destruct (weights_sum os d (repeat c0 (length os)) L) as [W _]; [apply repeat_length|exact Hd|exact W]. }
    rewrite (rmap_test (fun od => bad (fst od))
      (fun od => - 1 / (2 * PI) * (exp (- fst od * t) / (1 + sign_of fmt * exp (- b * fst od))) * snd od) NotFinite).
    2: { intros od. rewrite r_over_r_test. fold (bad (fst od)). destruct bad; reflexivity. }
    rewrite (existsb_combine bad) by (auto). destruct existsb; [reflexivity|]. cbn [bind]. f_equal.
    destruct (weights_sum os d (map real (map (val t) (combine os sp))) L) as [_ S].
    { rewrite !map_length, combine_length, HL. apply Nat.min_id. }
    { exact Hd. }
    rewrite <- S. unfold r_row_times. clear S Hd L HL.
    replace (- fst (klsum (combine d (map real (map (val t) (combine os sp)))) (fun p => real (fst p) *c snd p)) / (2 * PI)) with
      (total (fun p => - 1 / (2 * PI) * fst p * snd p) (combine d (map (val t) (combine os sp)))).
    - revert d sp W. induction os as [|o l IH]; intros [|x d] [|a s] W; try discriminate; try reflexivity.
      cbn [combine map]. rewrite !total_cons. cbn [fst snd]. rewrite IH by (injection W as W; exact W). f_equal.
      unfold val. cbn [fst snd]. replace (- o * t) with (- (o * t)) by ring. unfold Rdiv. ring.
    - generalize (map (val t) (combine os sp)) as l. clear. induction d as [|x d IH]; intros [|y l]; cbn [combine map]; try (cbn; unfold Rdiv; ring).
      rewrite total_cons, IH. change (klsum (?a :: ?l) ?f) with (f a +c klsum l f). cbn [fst snd]. rewrite <- real_mul.
      change (fst (real (x * y) +c ?s)) with (x * y + fst s). unfold Rdiv. ring.
  Qed.

  Lemma time_direct : (forall o, In o os -> 1 + sign_of fmt * exp (- (b * o)) <> 0) ->
    imagtime_spectralfn ts b os sp fmt =
    Ok (map (fun t => - (1 / (2 * PI)) * r_trapezoid os (fun i => nth i sp 0 * thermal_factor (sign_of fmt) b t (nth i os 0))) ts).
  Proof.
    intros H. unfold imagtime_spectralfn. rewrite statistics_ok by exact HF. cbn [bind]. rewrite HL, Nat.eqb_refl. cbn [negb].
    apply rmap_total. intros t _. rewrite imagtime_row.
    assert (E : existsb bad os = false).
    { apply not_true_is_false. intros E. apply existsb_exists in E as (o & Ho & E). unfold bad, zero_r in E.
      destruct Req_EM_T as [E'|]; [|discriminate]. apply (H o Ho). rewrite <- E'. repeat f_equal. ring. }
    rewrite E. f_equal. rewrite trapz_spec by (rewrite !map_length, combine_length, HL; apply Nat.min_id).
    rewrite (trapezoid_ext os _ (fun i => real (nth i sp 0 * thermal_factor (sign_of fmt) b t (nth i os 0)))).
    - rewrite trapezoid_real. unfold real. cbn [fst]. unfold Rdiv. ring.
    - intros i Hi. assert (L : (i < length (combine os sp))%nat) by (rewrite combine_length, HL, Nat.min_id; exact Hi).
      rewrite (nth_indep _ c0 (real (val t (0, 0)))) by (rewrite !map_length; exact L).
      rewrite map_nth, map_nth, combine_nth by (symmetry; exact HL). unfold val, thermal_factor. cbn [fst snd]. f_equal.
      replace (- (nth i os 0 * t)) with (- (t * nth i os 0)) by ring. replace (- b * nth i os 0) with (- (b * nth i os 0)) by ring.
      unfold Rdiv. ring.
  Qed.
End Time.
