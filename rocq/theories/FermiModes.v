(** Grids of wave vectors in one and two dimensions, and sums over them. *)
From Coq Require Import List Arith Lia Reals Lra ZArith Bool Permutation Sorting.
From Verif Require Import Scalars Res Sums Matrix ModelPhase ModelSymmetry SymBase GeoPhase SymZn SpecThermal ThermalBase
  SpecFermiGas ModelFermiGas FermiBase FermiGrid CharTable.
Import ListNotations.
Local Open Scope R_scope.

Lemma row_major_concat kxs kys : concat (map (fun ky => map (fun kx => (kx, ky)) kxs) kys) = row_major kxs kys.
Proof. symmetry. apply flat_map_concat_map. Qed.
Lemma row_major_perm kxs kys : Permutation (row_major kxs kys) (list_prod kxs kys).
Proof.
  revert kys. induction kxs as [|a A IH]; intros B.
  - cbn. induction B as [|b B IHB]; cbn; [reflexivity|assumption].
  - cbn [list_prod]. rewrite <- IH. clear IH. induction B as [|b B IHB]; cbn; [reflexivity|].
    constructor. rewrite IHB. rewrite !app_assoc. apply Permutation_app_tail. apply Permutation_app_comm.
Qed.
Lemma list_prod_perm {A B} (l l' : list A) (m m' : list B) :
  Permutation l l' -> Permutation m m' -> Permutation (list_prod l m) (list_prod l' m').
Proof.
  intros H1 H2. transitivity (list_prod l m').
  - clear H1. induction l as [|a l IH]; cbn; [reflexivity|]. apply Permutation_app; [apply Permutation_map; assumption|assumption].
  - clear H2. induction H1 as [|a l l' H IH|a b l|l1 l2 l3 H IH H' IH']; cbn; [reflexivity|apply Permutation_app_head; assumption| |].
    + rewrite !app_assoc. apply Permutation_app_tail. apply Permutation_app_comm.
    + etransitivity; eassumption.
Qed.
Lemma list_prod_map {A B C D} (f : A -> C) (g : B -> D) l m :
  list_prod (map f l) (map g m) = map (fun p => (f (fst p), g (snd p))) (list_prod l m).
Proof.
  induction l as [|a l IH]; cbn; [reflexivity|]. rewrite map_app, !map_map, IH. reflexivity.
Qed.

(** ** Completeness of the grids *)
Lemma momentum_n n j : (0 < n)%nat -> wave (momentum n j * INR n) = c1.
Proof.
  intros Hn. rewrite (INR_IZR_INZ n), wave_mod by assumption. rewrite Z_mod_same_full. cbn. apply root_0.
Qed.
Lemma axl_good n : (1 <= n)%nat -> good_axis (- PI) n (axl n).
Proof.
  intros Hn. split; [apply axl_length|]. split; [apply axl_increasing|]. split; [|split; [|split]].
  - intros k Hk. apply axl_in in Hk as (j & Hj & ->). pose proof (wrap_range _ (momentum_range n j Hj)). lra.
  - intros k Hk. apply axl_in in Hk as (j & Hj & ->). rewrite (INR_IZR_INZ n), wrap_wave, <- INR_IZR_INZ. apply momentum_n. lia.
  - intros k l Hk Hl. apply axl_in in Hk as (i & Hi & ->). apply axl_in in Hl as (j & Hj & ->). intros E.
    apply same_angle_wrap in E. apply momentum_same in E; [subst; reflexivity|lia|lia].
  - intros x. rewrite (klsum_perm _ _ _ (axl_perm n)), klsum_map.
    rewrite (klsum_ext _ _ (fun j => wave (momentum n j * IZR x))) by (intros; apply wrap_wave). apply ring_sum. lia.
Qed.
Lemma pos_good n : (1 <= n)%nat -> good_axis 0 n (map (momentum n) (seq 0 n)).
Proof.
  intros Hn. split; [rewrite map_length, seq_length; reflexivity|]. split; [|split; [|split; [|split]]].
  - unfold increasing. assert (P : 0 < 2 * PI / INR n).
    { pose proof PI_RGT_0. apply Rdiv_lt_0_compat; [lra|]. apply lt_0_INR. lia. }
    generalize 0%nat as s. generalize n at 2 as m. induction m as [|m IH]; intros s; cbn; constructor; [apply IH|].
    rewrite Forall_map, Forall_forall. intros j Hj. apply in_seq in Hj. rewrite <- !mom_eq.
    apply Rmult_lt_compat_l; [assumption|]. apply lt_INR. lia.
  - intros k Hk. apply in_map_iff in Hk as (j & <- & Hj). apply in_seq in Hj. rewrite Rplus_0_l. apply momentum_range. lia.
  - intros k Hk. apply in_map_iff in Hk as (j & <- & Hj). apply momentum_n. lia.
  - intros k l Hk Hl. apply in_map_iff in Hk as (i & <- & Hi). apply in_map_iff in Hl as (j & <- & Hj). intros E.
    apply in_seq in Hi, Hj. apply momentum_same in E; [subst; reflexivity|lia|lia].
  - intros x. rewrite klsum_map. apply ring_sum. lia.
Qed.
Lemma grid_sum lo nx ny kxs kys : good_axis lo nx kxs -> good_axis lo ny kys ->
  good_grid lo nx ny (row_major kxs kys).
Proof.
  intros Hx Hy. exists kxs, kys. split; [reflexivity|]. split; [assumption|]. split; [assumption|]. intros r.
  destruct Hx as (_ & _ & _ & _ & _ & Sx). destruct Hy as (_ & _ & _ & _ & _ & Sy).
  rewrite (klsum_perm _ _ _ (row_major_perm kxs kys)), klsum_prod.
  rewrite (klsum_ext _ _ (fun k => wave (k * IZR (fst r)) *c klsum kys (fun l => wave (l * IZR (snd r))))).
  2:{ intros k _. rewrite <- klsum_mul_l. apply klsum_ext. intros l _. apply wave_add. }
  rewrite klsum_mul_r, Sx, Sy, mult_INR.
  change ((INR nx, 0) : CR) with (real (INR nx)). change ((INR ny, 0) : CR) with (real (INR ny)).
  change ((INR nx * INR ny, 0) : CR) with (real (INR nx * INR ny)). rewrite real_mul. destruct (back nx _), (back ny _); cbn [andb]; ring.
Qed.
Lemma balanced_grid nx ny : (1 <= nx)%nat -> (1 <= ny)%nat -> exists points,
  allowed_kvects nx ny Balanced = Ok (points, 2 * PI / INR nx, 2 * PI / INR ny) /\ good_grid (- PI) nx ny points.
Proof.
  intros Hx Hy. exists (row_major (axl nx) (axl ny)). unfold allowed_kvects. rewrite !axis_balanced by assumption.
  cbn [bind]. rewrite row_major_concat. split; [reflexivity|]. apply grid_sum; apply axl_good; assumption.
Qed.
Lemma positive_grid nx ny : (1 <= nx)%nat -> (1 <= ny)%nat -> exists points,
  allowed_kvects nx ny Positive = Ok (points, 2 * PI / INR nx, 2 * PI / INR ny) /\ good_grid 0 nx ny points.
Proof.
  intros Hx Hy. eexists. unfold allowed_kvects. rewrite !axis_positive by assumption.
  cbn [bind]. rewrite row_major_concat. split; [reflexivity|]. apply grid_sum; apply pos_good; assumption.
Qed.

(** ** The wave vectors of the gas *)
Definition dim_of (s : shape) : dimension := match s with Chain => Dim1 | Square => Dim2 end.
Definition kpt (s : shape) (n : nat) (p : nat * nat) : R * R :=
  (wrap (momentum n (fst p)), match s with Chain => 0 | Square => wrap (momentum n (snd p)) end).
Lemma axl_1 : axl 1 = [0].
Proof.
  unfold axl. cbn [seq map]. replace (momentum 1 0) with 0 by (unfold momentum; cbn; field).
  unfold wrap. rewrite rle_b_false by (apply PI_RGT_0). reflexivity.
Qed.
Lemma kpoints_ok s n : (1 <= n)%nat -> exists ks,
  kpoints n (dim_of s) = Ok ks /\ Permutation ks (map (kpt s n) (modes s n)).
Proof.
  intros Hn. destruct s; cbn [dim_of kpoints]; unfold allowed_kvects; rewrite !axis_balanced by lia; cbn [bind fst];
    rewrite row_major_concat; eexists; (split; [reflexivity|]); rewrite row_major_perm.
  - rewrite axl_1. rewrite (list_prod_perm _ _ _ _ (axl_perm n) (Permutation_refl _)).
    change [0] with (map (fun _ : nat => 0) [0%nat]). rewrite list_prod_map. reflexivity.
  - rewrite (list_prod_perm _ _ _ _ (axl_perm n) (axl_perm n)). rewrite list_prod_map. reflexivity.
Qed.
Lemma kpt_energy s n p : dispersion (dim_of s) (kpt s n p) = Ok (level_of s n p).
Proof. destruct s; cbn; rewrite !wrap_cos; reflexivity. Qed.
Lemma kpt_fourier s n r p : fourier (dim_of s) r (kpt s n p) = plane s n r p.
Proof.
  destruct s; cbn [dim_of fourier kpt plane fst snd]; change (cexp ?x) with (wave x); [apply wrap_wave|].
  rewrite !wave_add, !wrap_wave. reflexivity.
Qed.
Lemma modes_length s n : length (modes s n) = (n * match s with Chain => 1 | Square => n end)%nat.
Proof. destruct s; unfold modes; rewrite prod_length, !seq_length; reflexivity. Qed.
Lemma plane_orth s n r : (1 <= n)%nat ->
  klsum (modes s n) (plane s n r) = if same_site s n r then real (INR (length (modes s n))) else c0.
Proof.
  intros Hn. rewrite modes_length. unfold modes. rewrite klsum_prod. destruct s; cbn [plane same_site fst snd].
  - rewrite (klsum_ext _ _ (fun j => wave (momentum n j * IZR (fst r)))) by (intros; cbn [klsum]; ring).
    rewrite Nat.mul_1_r. apply ring_sum. lia.
  - rewrite (klsum_ext _ _ (fun k => wave (momentum n k * IZR (fst r)) *c klsum (seq 0 n) (fun l => wave (momentum n l * IZR (snd r))))).
    2:{ intros k _. rewrite <- klsum_mul_l. apply klsum_ext. intros l _. apply wave_add. }
    rewrite klsum_mul_r, !ring_sum by lia. rewrite mult_INR, real_mul. destruct (back n _), (back n _); cbn [andb]; ring.
Qed.

(** ** The spread of the levels *)
Lemma klsum_fst {A} (l : list A) (f : A -> CR) : fst (klsum l f) = total (fun a => fst (f a)) l.
Proof. induction l as [|a l IH]; [reflexivity|]. rewrite total_cons, <- IH. reflexivity. Qed.
Lemma klsum_snd {A} (l : list A) (f : A -> CR) : snd (klsum l f) = total (fun a => snd (f a)) l.
Proof. induction l as [|a l IH]; [reflexivity|]. rewrite total_cons, <- IH. reflexivity. Qed.
Lemma cos_total n : (2 <= n)%nat -> total (fun j => cos (momentum n j)) (seq 0 n) = 0.
Proof.
  intros Hn. pose proof (ring_sum n 1 ltac:(lia)) as E. unfold back in E. rewrite Z.mod_small in E by lia.
  cbn [Z.eqb] in E. apply (f_equal fst) in E. rewrite klsum_fst in E. etransitivity; [|exact E].
  apply total_ext. intros j _. cbn. f_equal. ring.
Qed.
Lemma total_prod {A B} (f : A * B -> R) l m : total f (list_prod l m) = total (fun a => total (fun b => f (a, b)) m) l.
Proof. induction l as [|a l IH]; [reflexivity|]. cbn [list_prod]. rewrite total_app, total_map, IH. reflexivity. Qed.
Lemma total_const {A} c (l : list A) : total (fun _ => c) l = INR (length l) * c.
Proof. induction l as [|a l IH]; [cbn; ring|]. rewrite total_cons, IH. cbn [length]. rewrite S_INR. ring. Qed.
Lemma levels_total s n : (2 <= n)%nat -> total (level_of s n) (modes s n) = 0.
Proof.
  intros Hn. unfold modes. rewrite total_prod. destruct s; cbn [level_of fst snd].
  - rewrite (total_ext _ (fun j => -2 * cos (momentum n j))) by (intros; rewrite total_cons, total_nil; ring).
    rewrite total_scale, cos_total by assumption. ring.
  - rewrite (total_ext _ (fun j => -2 * INR n * cos (momentum n j))).
    2:{ intros j _. rewrite total_scale, total_add, total_const, cos_total, seq_length by assumption. ring. }
    rewrite total_scale, cos_total by assumption. ring.
Qed.
Lemma modes_in s n : (1 <= n)%nat -> In (0%nat, 0%nat) (modes s n).
Proof. intros H. apply in_prod; [apply in_seq; lia|]. destruct s; [left; reflexivity|apply in_seq; lia]. Qed.
Lemma level_low s n : level_of s n (0%nat, 0%nat) <= -2.
Proof.
  assert (E : momentum n 0 = 0) by (unfold momentum, Rdiv; cbn; ring).
  destruct s; cbn [level_of fst snd]; rewrite E, cos_0; lra.
Qed.
Lemma level_high s n : (2 <= n)%nat -> exists p, In p (modes s n) /\ 0 <= level_of s n p.
Proof.
  intros Hn. destruct (existsb (fun p => rle_b 0 (level_of s n p)) (modes s n)) eqn:E.
  - apply existsb_exists in E as (p & Hp & E). exists p. split; [assumption|]. unfold rle_b in E. destruct Rle_dec; [assumption|discriminate].
  - exfalso. assert (N : 0 < total (fun p => -1 * level_of s n p) (modes s n)).
    { assert (G : forall p, In p (modes s n) -> level_of s n p < 0).
      { intros p Hp. destruct (Rle_dec 0 (level_of s n p)) as [H|H]; [|lra].
        exfalso. rewrite <- Bool.not_true_iff_false in E. apply E. apply existsb_exists. exists p. split; [assumption|]. apply rle_b_true. assumption. }
      apply total_pos; [intros p Hp; specialize (G p Hp); lra|]. exists (0%nat, 0%nat). split; [apply modes_in; lia|].
      pose proof (level_low s n). lra. }
    rewrite total_scale, levels_total in N by assumption. lra.
Qed.

Lemma diffs_bound c l : 0 <= c -> StronglySorted Rle l -> (forall d, In d (diffs l) -> d <= c) ->
  forall x y, In x l -> In y l -> y - x <= INR (length l) * c.
Proof.
  intros Hc. induction l as [|a l IH]; intros S D x y Hx Hy; [destruct Hx|].
  apply StronglySorted_inv in S as [S F]. rewrite Forall_forall in F. cbn [length]. rewrite S_INR.
  assert (Hn : 0 <= INR (length l)) by apply pos_INR.
  destruct l as [|b t].
  { destruct Hx as [<-|[]], Hy as [<-|[]]. nra. }
  assert (D' : forall d, In d (diffs (b :: t)) -> d <= c) by (intros d Hd; apply D; right; assumption).
  assert (Hb : b - a <= c) by (apply D; left; reflexivity).
  assert (Hab : a <= b) by (apply F; left; reflexivity).
  destruct Hx as [<-|Hx], Hy as [<-|Hy].
  - nra.
  - pose proof (IH S D' b y (or_introl eq_refl) Hy). lra.
  - specialize (F x Hx). nra.
  - pose proof (IH S D' x y Hx Hy). nra.
Qed.
Lemma ten12_pos : 0 < ten12.
Proof. unfold ten12. lra. Qed.
Lemma round12_small d : round12 d <= 0 -> d <= / 2 * / ten12.
Proof.
  unfold round12. intros H. pose proof ten12_pos as P. pose proof (round_z_near (d * ten12)) as N.
  assert (Z : IZR (round_z (d * ten12)) <= 0).
  { apply (Rmult_le_reg_r (/ ten12)); [apply Rinv_0_lt_compat; assumption|]. rewrite Rmult_0_l. exact H. }
  pose proof (Rle_abs (d * ten12 - IZR (round_z (d * ten12)))).
  apply (Rmult_le_reg_r ten12); [assumption|]. rewrite Rmult_assoc, Rinv_l by lra. lra.
Qed.
Lemma spacing_ok es x y : In x es -> In y es -> x + 2 <= y -> INR (length es) <= 10 ^ 12 ->
  exists a, energy_spacing es = Ok a.
Proof.
  intros Hx Hy H Hl. unfold energy_spacing.
  destruct (filter (rlt_b 0) (map round12 (diffs (r_sort es)))) as [|z t] eqn:E; [|eexists; reflexivity]. exfalso.
  pose proof ten12_pos as P. pose proof (r_sort_perm es) as Q.
  assert (B : y - x <= INR (length (r_sort es)) * (/ 2 * / ten12)).
  { apply diffs_bound.
    - apply Rlt_le. apply Rmult_lt_0_compat; [lra|apply Rinv_0_lt_compat; assumption].
    - apply r_sort_sorted.
    - intros d Hd. apply round12_small. destruct (Rle_dec (round12 d) 0) as [G|G]; [assumption|]. exfalso.
      assert (In (round12 d) (filter (rlt_b 0) (map round12 (diffs (r_sort es))))).
      { apply filter_In. split; [apply in_map; assumption|]. unfold rlt_b. destruct Rlt_dec; [reflexivity|lra]. }
      rewrite E in H0. destruct H0.
    - apply (Permutation_in _ (Permutation_sym Q)). assumption.
    - apply (Permutation_in _ (Permutation_sym Q)). assumption. }
  rewrite (Permutation_length Q) in B.
  assert (INR (length es) * (/ 2 * / ten12) <= 1 / 2).
  { apply (Rmult_le_reg_r ten12); [assumption|]. replace (INR (length es) * (/ 2 * / ten12) * ten12) with (INR (length es) / 2) by (field; lra).
    unfold ten12. lra. }
  lra.
Qed.

(** ** Fourier sums *)
Lemma rmap_total {A B} (f : A -> res B) (g : A -> B) l : (forall a, In a l -> f a = Ok (g a)) -> rmap f l = Ok (map g l).
Proof.
  induction l as [|a l IH]; intros H; [reflexivity|]. cbn [rmap map]. rewrite (H a (or_introl eq_refl)). cbn [bind].
  rewrite IH by (intros; apply H; right; assumption). reflexivity.
Qed.
Lemma klsum_combine {A B} (l : list A) (g : A -> B) (F : A * B -> CR) :
  klsum (combine l (map g l)) F = klsum l (fun a => F (a, g a)).
Proof. induction l as [|a l IH]; [reflexivity|]. cbn. rewrite IH. reflexivity. Qed.
Definition disp (s : shape) (k : R * R) : R :=
  match s with Chain => -2 * cos (fst k) | Square => -2 * (cos (fst k) + cos (snd k)) end.
Lemma disp_ok s k : dispersion (dim_of s) k = Ok (disp s k).
Proof. destruct s; reflexivity. Qed.
Lemma disp_kpt s n p : disp s (kpt s n p) = level_of s n p.
Proof. pose proof (kpt_energy s n p) as E. rewrite disp_ok in E. injection E. auto. Qed.
Lemma fourier_sum_ok s n r g h : good_size s n -> (forall e, g e = Ok (h e)) ->
  fourier_sum g r n (dim_of s) = Ok (c_mean (fun p => plane s n r p *c h (level_of s n p)) (modes s n)).
Proof.
  intros (Hn & Hs) Hg. destruct (kpoints_ok s n ltac:(lia)) as (ks & Ek & Pk). unfold fourier_sum. rewrite Ek. cbn [bind].
  rewrite (rmap_total _ (disp s)) by (intros; apply disp_ok). cbn [bind].
  rewrite (rmap_total _ h) by (intros; apply Hg). cbn [bind].
  assert (Lk : length ks = length (modes s n)) by (rewrite (Permutation_length Pk), map_length; reflexivity).
  assert (In1 : forall p, In p (modes s n) -> In (level_of s n p) (map (disp s) ks)).
  { intros p Hp. rewrite <- disp_kpt. apply in_map. apply (Permutation_in _ (Permutation_sym Pk)). apply in_map. assumption. }
  destruct (level_high s n Hn) as (q & Hq & Lq). pose proof (level_low s n) as Lp.
  destruct (spacing_ok (map (disp s) ks) (level_of s n (0%nat, 0%nat)) (level_of s n q)) as (sp & Esp).
  - apply In1, modes_in. lia.
  - apply In1. assumption.
  - lra.
  - rewrite map_length, Lk. assumption.
  - rewrite Esp. cbn [bind]. rewrite map_map, klsum_combine. cbn [fst snd].
    rewrite (klsum_perm _ _ _ Pk), klsum_map, Lk. unfold c_mean. f_equal. change (cr_mul ?a ?b) with (a *c b). unfold real. f_equal.
    apply klsum_ext. intros p _. rewrite kpt_fourier, disp_kpt. reflexivity.
Qed.
