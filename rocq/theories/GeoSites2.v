(** The list of sites of a periodic cluster. *)
From Coq Require Import List Arith Lia QArith Qround Qabs ZArith Bool Lqa Setoid Morphisms Sorting Psatz.
From Verif Require Import Res Matrix ModelGeometry SpecGeometry GeoArith GeoReduce GeoSites.
Import ListNotations.
Local Open Scope Q_scope.
Arguments Qred : simpl never.
Arguments root_rounds_to_0 : simpl never.
Arguments round14 : simpl never.

Lemma rmap_total {A B} (f : A -> res B) (g : A -> B) l : (forall a, In a l -> f a = Ok (g a)) -> rmap f l = Ok (map g l).
Proof.
  induction l as [|a l IH]; intros H; cbn [rmap map]; [reflexivity|].
  rewrite (H a (or_introl eq_refl)). cbn [bind]. rewrite IH; [reflexivity|]. intros; apply H; right; assumption.
Qed.

Lemma combine_fst_snd {A B} (l : list (A * B)) : combine (map fst l) (map snd l) = l.
Proof. induction l as [|[a b] l IH]; cbn; congruence. Qed.

(** The reduced vector. *)
Definition red (md : red_mode) (p1 p2 v : vec) : vec :=
  vsub (vsub v (vscale (inject_Z (cell md (coord1 p1 p2 v))) p1)) (vscale (inject_Z (cell md (coord2 p1 p2 v))) p2).
Definition round_point (v : point) : point := (round14 (fst v), round14 (snd v)).

Lemma red_equiv md p1 p2 v : equivalent p1 p2 v (red md p1 p2 v).
Proof.
  exists (- cell md (coord1 p1 p2 v))%Z, (- cell md (coord2 p1 p2 v))%Z.
  rewrite !inject_Z_opp. apply vsub_vscale.
Qed.

Lemma red_same md p1 p2 v w : generators p1 p2 -> md <> OtherMode -> equivalent p1 p2 v w ->
  same_point (red md p1 p2 v) (red md p1 p2 w).
Proof.
  intros H Hm E. destruct (reduce_canonical p1 p2 md v w H Hm E) as (r & r' & n1 & n2 & n1' & n2' & A & B & C).
  rewrite (reduce_value p1 p2 md) in A, B by assumption. injection A as A _ _. injection B as B _ _.
  unfold red. rewrite A, B. assumption.
Qed.

Lemma equiv_refl p1 p2 v : equivalent p1 p2 v v.
Proof. exists 0%Z, 0%Z. change (inject_Z 0) with 0. split; unfold moved; cbn [fst snd]; ring. Qed.
Lemma equiv_same p1 p2 v w : same_point v w -> equivalent p1 p2 v w.
Proof. intros [A B]. exists 0%Z, 0%Z. change (inject_Z 0) with 0. split; unfold moved; cbn [fst snd]; rewrite A || rewrite B; ring. Qed.
Lemma equiv_sym p1 p2 v w : equivalent p1 p2 v w -> equivalent p1 p2 w v.
Proof.
  intros (k & l & A & B). exists (- k)%Z, (- l)%Z. unfold moved in *. cbn [fst snd] in *.
  rewrite !inject_Z_opp. split; cbn [fst snd]; rewrite ?A, ?B; ring.
Qed.
Lemma equiv_trans p1 p2 u v w : equivalent p1 p2 u v -> equivalent p1 p2 v w -> equivalent p1 p2 u w.
Proof.
  intros (k & l & A & B) (k' & l' & C & D). exists (k + k')%Z, (l + l')%Z. unfold moved in *. cbn [fst snd] in *.
  rewrite !inject_Z_plus. split; cbn [fst snd]; [rewrite C, A|rewrite D, B]; ring.
Qed.

Lemma round_same v w : same_point v w -> same_point (round_point v) (round_point w).
Proof. intros [A B]. split; cbn [round_point fst snd]; rewrite A || rewrite B; reflexivity. Qed.

(** Integer coordinates of a commensurate vector. *)
Lemma comm_coords v1 v2 p n m : generators v1 v2 -> long v1 -> long v2 ->
  same_point p (moved (0, 0) (inject_Z n) v1 (inject_Z m) v2) ->
  coord1 v1 v2 p == inject_Z n /\ coord2 v1 v2 p == inject_Z m.
Proof.
  intros G L1 L2 E. apply (coords_unique v1 v2 p); [assumption|apply coords_ok; assumption|].
  unfold coordinates. repeat match goal with |- _ /\ _ => split end; intros; try assumption;
    exfalso; (apply (zero_not_long v1); assumption) || (apply (zero_not_long v2); assumption).
Qed.

Lemma reduce_comm v1 v2 p n m : generators v1 v2 -> long v1 -> long v2 ->
  same_point p (moved (0, 0) (inject_Z n) v1 (inject_Z m) v2) ->
  reduce_vector v1 v2 Positive p = Ok (red Positive v1 v2 p, n, m).
Proof.
  intros G L1 L2 E. rewrite (reduce_value v1 v2 Positive p G) by discriminate.
  destruct (comm_coords v1 v2 p n m G L1 L2 E) as [A B]. unfold red.
  assert (cell Positive (coord1 v1 v2 p) = n) as ->.
  { rewrite A. cbn [cell]. rewrite round14_int. apply floor_int. }
  assert (cell Positive (coord2 v1 v2 p) = m) as ->.
  { rewrite B. cbn [cell]. rewrite round14_int. apply floor_int. }
  reflexivity.
Qed.

Lemma candidate_In L as_ bs s : In s (candidate_sites L as_ bs) <->
  exists a b u, In a as_ /\ In b bs /\ In u (lt_basis L) /\
    s = vadd (vadd (vscale (inject_Z a) (lt_v1 L)) (vscale (inject_Z b) (lt_v2 L))) u.
Proof.
  unfold candidate_sites. rewrite in_flat_map. split.
  - intros (b & Hb & H). apply in_flat_map in H as (a & Ha & H). apply in_map_iff in H as (u & <- & Hu).
    exists a, b, u. auto.
  - intros (a & b & u & Ha & Hb & Hu & ->). exists b. split; [assumption|]. apply in_flat_map.
    exists a. split; [assumption|]. apply in_map_iff. exists u. auto.
Qed.

Lemma candidate_site a b u v1 v2 :
  same_point (vadd (vadd (vscale (inject_Z a) v1) (vscale (inject_Z b) v2)) u)
    (moved u (inject_Z a) v1 (inject_Z b) v2).
Proof. unfold vadd, vscale, moved. split; cbn [fst snd]; rewrite !Qred_correct; ring. Qed.

(** [sites] without the sort: the rounded representatives of all lattice sites. *)
Lemma unique_sites_ok v1 v2 basis p1 p2 ph1 ph2 L : new_lattice v1 v2 basis p1 p2 ph1 ph2 = Ok L ->
  commensurate v1 v2 p1 -> commensurate v1 v2 p2 -> long p1 -> long p2 ->
  exists sites, unique_sites L = Ok sites /\ sorted_points sites /\
    (forall s, lattice_site v1 v2 basis s -> InP (round_point (red Positive p1 p2 s)) sites) /\
    (forall t, In t sites -> exists s, lattice_site v1 v2 basis s /\
       same_point t (round_point (red Positive p1 p2 s))).
Proof.
  intros HL (n & m & E1) (i & j & E2) L1 L2.
  destruct (new_lattice_inv _ _ _ _ _ _ _ _ HL) as (Lv1 & Lv2 & Gv & Hdet & rs & Hrs & ->).
  assert (Gp : generators p1 p2) by (split; [auto|split; auto]).
  unfold unique_sites. cbn [lt_v1 lt_v2 lt_p1 lt_p2 lt_basis].
  rewrite (reduce_comm v1 v2 p1 n m), (reduce_comm v1 v2 p2 i j) by assumption. cbn [bind].
  set (L := Lat v1 v2 basis p1 p2 (fst rs) (snd rs) ph1 ph2).
  set (vs := candidate_sites L (box n i) (box m j)).
  unfold reduce_vectors. rewrite !map_length, Nat.eqb_refl. cbn [negb].
  rewrite combine_fst_snd.
  rewrite (rmap_total _ (fun v => (red Positive p1 p2 v, cell Positive (coord1 p1 p2 v), cell Positive (coord2 p1 p2 v))))
    by (intros v _; apply (reduce_value p1 p2 Positive v Gp); discriminate).
  cbn [bind]. eexists. split; [reflexivity|]. rewrite map_map. cbn [fst snd].
  match goal with |- sorted_points (np_unique ?l) /\ _ => set (cands := l) end.
  destruct (np_unique_spec cands) as [S I]. split; [assumption|].
  assert (HD : (n * j - m * i <> 0)%Z).
  { intros Z0. apply (Hdet L1 L2). destruct E1 as [a1 a2], E2 as [b1 b2]. unfold moved in *. cbn [fst snd] in *.
    unfold det. rewrite a1, a2, b1, b2.
    assert (inject_Z n * inject_Z j - inject_Z m * inject_Z i == 0) as Z1.
    { rewrite <- !inject_Z_mult. unfold Qminus. rewrite <- inject_Z_opp, <- inject_Z_plus.
      change 0 with (inject_Z 0). apply inject_Z_injective. lia. }
    setoid_replace ((0 + inject_Z n * fst v1 + inject_Z m * fst v2) * (0 + inject_Z i * snd v1 + inject_Z j * snd v2) -
      (0 + inject_Z n * snd v1 + inject_Z m * snd v2) * (0 + inject_Z i * fst v1 + inject_Z j * fst v2))
      with ((inject_Z n * inject_Z j - inject_Z m * inject_Z i) * (fst v1 * snd v2 - snd v1 * fst v2)) by ring.
    rewrite Z1. ring. }
  split.
  - intros s (a & b & u & Hu & Es). apply I.
    destruct (box_cover n m i j a b HD) as (k & l & Ha & Hb).
    set (c := vadd (vadd (vscale (inject_Z (a + k * n + l * i)) v1) (vscale (inject_Z (b + k * m + l * j)) v2)) u).
    exists (round_point (red Positive p1 p2 c)). split.
    + unfold cands. apply in_map_iff. exists c. split; [reflexivity|]. apply candidate_In.
      exists (a + k * n + l * i)%Z, (b + k * m + l * j)%Z, u. auto.
    + apply round_same. apply red_same; [assumption|discriminate|].
      exists k, l. apply (same_trans _ _ _ (candidate_site _ _ _ _ _)).
      destruct Es as [s1 s2], E1 as [a1 a2], E2 as [b1 b2]. unfold moved in *. cbn [fst snd] in *.
      rewrite !inject_Z_plus, !inject_Z_mult. split; cbn [fst snd].
      * rewrite s1, a1, b1. ring.
      * rewrite s2, a2, b2. ring.
  - intros t Ht. assert (InP t cands) as (w & Hw & E) by (apply I; exists t; split; [assumption|apply same_refl]).
    unfold cands in Hw. apply in_map_iff in Hw as (c & <- & Hc).
    apply candidate_In in Hc as (a & b & u & Ha & Hb & Hu & ->).
    eexists. split; [|exact E]. exists a, b, u. split; [assumption|apply candidate_site].
Qed.

(** Exact statement when all coordinates have at most fourteen decimals. *)
Lemma decimal_round x : decimal14 x -> round14 x == x.
Proof.
  intros [z Hz]. rewrite round14_eq.
  assert (E : x * inject_Z ten14 == inject_Z z).
  { change (inject_Z ten14) with (100000000000000 # 1). lra. }
  rewrite E, rint_int, <- E. field. discriminate.
Qed.
Lemma decimal_comb x k y l z : decimal14 x -> decimal14 y -> decimal14 z ->
  decimal14 (x + inject_Z k * y + inject_Z l * z).
Proof.
  intros [a A] [b B] [c C]. exists (a + k * b + l * c)%Z.
  rewrite !inject_Z_plus, !inject_Z_mult, A, B, C. ring.
Qed.
Lemma decimal_comp x y : x == y -> decimal14 x -> decimal14 y.
Proof. intros E [z Z]. exists z. rewrite <- E. assumption. Qed.
Definition decimal_point (v : point) : Prop := decimal14 (fst v) /\ decimal14 (snd v).

Lemma decimal_moved v k p l q : decimal_point v -> decimal_point p -> decimal_point q ->
  decimal_point (moved v (inject_Z k) p (inject_Z l) q).
Proof. intros [] [] []. split; apply decimal_comb; assumption. Qed.
Lemma decimal_same v w : same_point v w -> decimal_point v -> decimal_point w.
Proof. intros [A B] [C D]. split; eapply decimal_comp; eassumption. Qed.

Lemma unique_sites_exact v1 v2 basis p1 p2 ph1 ph2 L : new_lattice v1 v2 basis p1 p2 ph1 ph2 = Ok L ->
  commensurate v1 v2 p1 -> commensurate v1 v2 p2 -> long p1 -> long p2 ->
  (forall u, In u (v1 :: v2 :: basis) -> decimal_point u) ->
  exists sites, unique_sites L = Ok sites /\ sorted_points sites /\
    (forall t, In t sites -> lattice_site v1 v2 basis t) /\
    (forall s, lattice_site v1 v2 basis s -> exists t, In t sites /\ equivalent p1 p2 s t) /\
    (forall k l s t, nth_error sites k = Some s -> nth_error sites l = Some t ->
       equivalent p1 p2 s t -> k = l).
Proof.
  intros HL C1 C2 L1 L2 Hdec.
  destruct (unique_sites_ok _ _ _ _ _ _ _ _ HL C1 C2 L1 L2) as (sites & E & S & A & B).
  destruct (new_lattice_inv _ _ _ _ _ _ _ _ HL) as (Lv1 & Lv2 & Gv & Hdet & rs & Hrs & ->).
  assert (Gp : generators p1 p2) by (split; [auto|split; auto]).
  assert (Dp : forall p, commensurate v1 v2 p -> decimal_point p).
  { intros p (a & b & F). apply (decimal_same _ _ (same_sym _ _ F)). apply decimal_moved.
    - split; exists 0%Z; reflexivity.
    - apply Hdec. left; reflexivity.
    - apply Hdec. right; left; reflexivity. }
  assert (Ds : forall s, lattice_site v1 v2 basis s -> decimal_point s).
  { intros s (a & b & u & Hu & F). apply (decimal_same _ _ (same_sym _ _ F)). apply decimal_moved; apply Hdec.
    - right; right; assumption.
    - left; reflexivity.
    - right; left; reflexivity. }
  assert (Sr : forall s, lattice_site v1 v2 basis s -> lattice_site v1 v2 basis (red Positive p1 p2 s)).
  { intros s (a & b & u & Hu & F). destruct C1 as (n & m & E1), C2 as (i & j & E2).
    destruct (red_equiv Positive p1 p2 s) as (k & l & G).
    exists (a + k * n + l * i)%Z, (b + k * m + l * j)%Z, u. split; [assumption|].
    apply (same_trans _ _ _ G). destruct F as [f1 f2], E1 as [a1 a2], E2 as [b1 b2]. unfold moved in *. cbn [fst snd] in *.
    rewrite !inject_Z_plus, !inject_Z_mult. split; cbn [fst snd]; [rewrite f1, a1, b1|rewrite f2, a2, b2]; ring. }
  assert (Rr : forall s, lattice_site v1 v2 basis s -> same_point (round_point (red Positive p1 p2 s)) (red Positive p1 p2 s)).
  { intros s Hs. destruct (Ds _ (Sr s Hs)). split; cbn [round_point fst snd]; apply decimal_round; assumption. }
  exists sites. split; [assumption|]. split; [assumption|]. split; [|split].
  - intros t Ht. destruct (B t Ht) as (s & Hs & F). destruct (Sr s Hs) as (a & b & u & Hu & G).
    exists a, b, u. split; [assumption|]. apply (same_trans _ _ _ F). apply (same_trans _ _ _ (Rr s Hs) G).
  - intros s Hs. destruct (A s Hs) as (t & Ht & F). exists t. split; [assumption|].
    apply (equiv_trans _ _ _ (red Positive p1 p2 s)); [apply red_equiv|]. apply equiv_same.
    apply (same_trans _ (round_point (red Positive p1 p2 s))); [apply same_sym, Rr; assumption|assumption].
  - intros k l s t Hk Hl Est.
    assert (F : same_point s t).
    { destruct (B s (nth_error_In _ _ Hk)) as (s' & Hs' & F1). destruct (B t (nth_error_In _ _ Hl)) as (t' & Ht' & F2).
      assert (G1 : same_point s (red Positive p1 p2 s')) by (apply (same_trans _ _ _ F1), Rr; assumption).
      assert (G2 : same_point t (red Positive p1 p2 t')) by (apply (same_trans _ _ _ F2), Rr; assumption).
      apply (same_trans _ _ _ G1), same_sym, (same_trans _ _ _ G2), same_sym, red_same; [assumption|discriminate|].
      apply (equiv_trans _ _ _ _ _ (red_equiv Positive p1 p2 s')).
      apply (equiv_trans _ _ _ s); [apply equiv_same, same_sym; assumption|].
      apply (equiv_trans _ _ _ t); [assumption|].
      apply (equiv_trans _ _ _ (red Positive p1 p2 t')); [apply equiv_same; assumption|].
      apply equiv_sym, red_equiv. }
    clear - S Hk Hl F. revert k l Hk Hl. induction S as [|v l0 S IH Hv]; intros k l Hk Hl.
    { destruct k; discriminate. }
    rewrite Forall_forall in Hv. destruct k as [|k], l as [|l]; cbn in Hk, Hl.
    + reflexivity.
    + injection Hk as ->. exfalso. apply (before_not_same s t); [apply Hv; eapply nth_error_In; eassumption|assumption].
    + injection Hl as ->. exfalso. apply (before_not_same t s); [apply Hv; eapply nth_error_In; eassumption|apply same_sym; assumption].
    + f_equal. apply IH; assumption.
Qed.

(** * Which lattices are accepted *)
Lemma compat_zero v : same_point v (0, 0) -> compatibility_fails v = false.
Proof. intros [A B]. cbn in A, B. unfold compatibility_fails. apply Qeq_bool_iff in A. rewrite A. reflexivity. Qed.

Lemma red_comm v1 v2 p : generators v1 v2 -> long v1 -> long v2 -> commensurate v1 v2 p ->
  same_point (red Positive v1 v2 p) (0, 0).
Proof.
  intros G L1 L2 (n & m & E). eapply same_trans.
  - apply (red_same Positive v1 v2 p (0, 0) G); [discriminate|]. apply equiv_sym. exists n, m. assumption.
  - unfold red. eapply same_trans; [apply vsub_vscale|].
    destruct (comm_coords v1 v2 (0, 0) 0 0 G L1 L2) as [A B].
    { split; unfold moved; cbn [fst snd]; change (inject_Z 0) with 0; ring. }
    change (inject_Z 0) with 0 in A, B. rewrite A, B.
    split; unfold moved; cbn [fst snd cell]; change (Qfloor (round14 0)) with 0%Z; change (inject_Z 0) with 0; ring.
Qed.

Lemma lattice_accepted v1 v2 basis p1 p2 ph1 ph2 :
  long v1 -> long v2 -> half_unit < Qabs (det v1 v2) ->
  (is_zero p1 \/ long p1) -> (is_zero p2 \/ long p2) ->
  (long p1 -> long p2 -> half_unit < Qabs (det p1 p2)) ->
  commensurate v1 v2 p1 -> commensurate v1 v2 p2 ->
  exists L, new_lattice v1 v2 basis p1 p2 ph1 ph2 = Ok L.
Proof.
  intros L1 L2 Hv Z1 Z2 Hp C1 C2.
  assert (nz : forall x, half_unit < Qabs x -> ~ x == 0).
  { intros x H E. rewrite E in H. discriminate H. }
  assert (R : forall x, half_unit < Qabs x -> Qeq_bool (round14 x) 0 = false).
  { intros x H. apply not_true_iff_false. intros F. apply Qeq_bool_iff in F.
    pose proof (round14_bounds x) as [A B]. rewrite F in A, B. change eps14 with half_unit in *.
    apply (Qlt_not_le _ _ H). apply Qabs_Qle_condition. split; lra. }
  assert (Gv : generators v1 v2) by (split; [auto|split; [auto|intros _ _; apply nz; assumption]]).
  assert (vz : forall v, long v -> vec_eqb v vzero = false).
  { intros v L. apply not_true_iff_false. unfold vec_eqb. rewrite andb_true_iff, !Qeq_bool_iff. intros [A B].
    apply (zero_not_long v); [split; assumption|assumption]. }
  assert (vz' : forall v, is_zero v -> vec_eqb v vzero = true).
  { intros v [A B]. unfold vec_eqb. rewrite andb_true_iff, !Qeq_bool_iff. split; assumption. }
  unfold new_lattice. unfold reciprocal_vects at 1. rewrite (vz v1 L1), (vz v2 L2). cbn [negb andb].
  assert (Qeq_bool (vdet v1 v2) 0 = false) as ->.
  { apply not_true_iff_false. intros F. apply Qeq_bool_iff in F. apply (nz _ Hv F). }
  cbn [bind].
  assert (exists rs, reciprocal_vects p1 p2 = Ok rs) as [rs ->].
  { unfold reciprocal_vects. destruct Z1 as [Z1|Z1], Z2 as [Z2|Z2];
      rewrite ?(vz' p1), ?(vz' p2) by assumption; rewrite ?(vz p1), ?(vz p2) by assumption; cbn [negb andb]; eauto.
    assert (Qeq_bool (vdet p1 p2) 0 = false) as ->; [|eauto].
    apply not_true_iff_false. intros F. apply Qeq_bool_iff in F. apply (nz _ (Hp Z1 Z2) F). }
  cbn [bind]. unfold validate_lattice.
  assert (validate_latt_vects v1 v2 = true) as ->.
  { unfold validate_latt_vects. change (vdet v1 v2) with (det v1 v2). rewrite (proj2 (long_test v1) L1), (proj2 (long_test v2) L2), (R _ Hv). reflexivity. }
  assert (validate_periodicity_vects p1 p2 = true) as ->.
  { unfold validate_periodicity_vects. change (vdet p1 p2) with (det p1 p2).
    destruct Z1 as [Z1|Z1]; [rewrite (zero_test p1 Z1); reflexivity|].
    destruct Z2 as [Z2|Z2]; [rewrite (zero_test p2 Z2), andb_false_r; reflexivity|].
    rewrite (R _ (Hp Z1 Z2)), andb_false_r. reflexivity. }
  cbn [negb]. destruct C1 as (n & m & E1), C2 as (i & j & E2).
  rewrite (reduce_comm v1 v2 p1 n m), (reduce_comm v1 v2 p2 i j) by assumption. cbn [bind fst snd].
  rewrite (compat_zero (red Positive v1 v2 p1)) by (apply red_comm; [| | |exists n, m]; assumption).
  rewrite (compat_zero (red Positive v1 v2 p2)) by (apply red_comm; [| | |exists i, j]; assumption).
  cbn [negb bind]. eexists. reflexivity.
Qed.

(** A remainder along the x axis only is noticed. *)
Lemma x_remainder_rejected v1 v2 basis p1 p2 ph1 ph2 p r n1 n2 : p = p1 \/ p = p2 ->
  reduce_vector v1 v2 Positive p = Ok (r, n1, n2) -> ~ fst r == 0 -> snd r == 0 ->
  ~ exists L, new_lattice v1 v2 basis p1 p2 ph1 ph2 = Ok L.
Proof.
  intros Hp Hr Hx Hy (L & H). unfold new_lattice in H. apply bind_ok in H as (_ & _ & H). apply bind_ok in H as (rs & _ & H).
  apply bind_ok in H as (ok & Hok & H). destruct ok; [|discriminate]. unfold validate_lattice in Hok.
  destruct (validate_latt_vects v1 v2); [|discriminate]. destruct (validate_periodicity_vects p1 p2); [|discriminate].
  cbn [negb] in Hok. apply bind_ok in Hok as (r1 & H1 & Hok).
  assert (F : compatibility_fails r = true).
  { unfold compatibility_fails. rewrite andb_true_iff, negb_true_iff, Qeq_bool_iff. split; [|assumption].
    apply not_true_iff_false. rewrite Qeq_bool_iff. assumption. }
  destruct (compatibility_fails (fst (fst r1))) eqn:F1; [discriminate|].
  apply bind_ok in Hok as (r2 & H2 & Hok). injection Hok as Hok. rewrite negb_true_iff in Hok.
  destruct Hp as [->| ->]; rewrite Hr in *; [injection H1 as <-|injection H2 as <-]; cbn in *; congruence.
Qed.

(** * Reciprocal vectors *)
Lemma reciprocal_ok v1 v2 : ~ det v1 v2 == 0 ->
  exists b1 b2, reciprocal_vects v1 v2 = Ok (b1, b2) /\
    dot v1 b1 == 1 /\ dot v1 b2 == 0 /\ dot v2 b1 == 0 /\ dot v2 b2 == 1.
Proof.
  intros H. unfold reciprocal_vects.
  assert (vec_eqb v1 vzero = false) as ->.
  { apply not_true_iff_false. unfold vec_eqb, vzero. rewrite andb_true_iff, !Qeq_bool_iff. intros [A B]. apply H.
    unfold det. cbn in A, B. rewrite A, B. ring. }
  assert (vec_eqb v2 vzero = false) as ->.
  { apply not_true_iff_false. unfold vec_eqb, vzero. rewrite andb_true_iff, !Qeq_bool_iff. intros [A B]. apply H.
    unfold det. cbn in A, B. rewrite A, B. ring. }
  cbn [negb andb]. destruct (Qeq_bool (vdet v1 v2) 0) eqn:E; [exfalso; apply H; apply Qeq_bool_eq in E; exact E|].
  do 2 eexists. split; [reflexivity|]. unfold dot, det, vdet in *. cbn [fst snd]. rewrite !Qred_correct.
  repeat split; field; assumption.
Qed.

Lemma reciprocal_degenerate v1 v2 : det v1 v2 == 0 ->
  (~ is_zero v1 -> ~ is_zero v2 -> reciprocal_vects v1 v2 = Raise ValueError) /\
  (is_zero v1 -> ~ is_zero v2 -> exists b2, reciprocal_vects v1 v2 = Ok ((0, 0), b2) /\
     dot v2 b2 == 1 /\ det v2 b2 == 0) /\
  (~ is_zero v1 -> is_zero v2 -> exists b1, reciprocal_vects v1 v2 = Ok (b1, (0, 0)) /\
     dot v1 b1 == 1 /\ det v1 b1 == 0) /\
  (is_zero v1 -> is_zero v2 -> reciprocal_vects v1 v2 = Ok ((0, 0), (0, 0))).
Proof.
  intros H.
  assert (vz : forall v, ~ is_zero v -> vec_eqb v vzero = false).
  { intros v L. apply not_true_iff_false. unfold vec_eqb. rewrite andb_true_iff, !Qeq_bool_iff. intros [A B].
    apply L. split; assumption. }
  assert (vz' : forall v, is_zero v -> vec_eqb v vzero = true).
  { intros v [A B]. unfold vec_eqb. rewrite andb_true_iff, !Qeq_bool_iff. split; assumption. }
  assert (ps : forall v, ~ is_zero v -> ~ fst v * fst v + snd v * snd v == 0).
  { intros v N E. apply N. split; cbn; nra. }
  unfold reciprocal_vects. repeat match goal with |- _ /\ _ => split end; intros A B;
    rewrite ?(vz v1), ?(vz v2) by assumption; rewrite ?(vz' v1), ?(vz' v2) by assumption; cbn [negb andb].
  - apply Qeq_bool_iff in H. change (vdet v1 v2) with (det v1 v2). rewrite H. reflexivity.
  - eexists. split; [reflexivity|]. unfold dot, det, vscale, vdot. cbn [fst snd]. rewrite !Qred_correct.
    split; field; apply (ps v2 B).
  - eexists. split; [reflexivity|]. unfold dot, det, vscale, vdot. cbn [fst snd]. rewrite !Qred_correct.
    split; field; apply (ps v1 A).
  - reflexivity.
Qed.
