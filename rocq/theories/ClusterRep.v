(** Clusters of the model as lists of integer points in the order of the sites. *)
From Coq Require Import List Arith Lia ZArith QArith Qabs Permutation Sorting Bool Setoid.
From Verif Require Import Res Matrix ModelGeometry ModelNlce SpecGeometry SpecCluster GeoArith GeoPerm GeoSort GeoDist GeoApi GeoTotal ClusterSets.
Import ListNotations.
Local Open Scope nat_scope.

Definition inj (p : pt) : vec := (inject_Z (fst p), inject_Z (snd p)).
Definition pt_dec (p q : pt) : {p = q} + {p <> q}.
Proof. decide equality; apply Z.eq_dec. Defined.

Lemma inj_eq a b : (inject_Z a == inject_Z b)%Q <-> a = b.
Proof. unfold Qeq. cbn. lia. Qed.
Lemma Qred_int k : Qred (inject_Z k) = inject_Z k.
Proof.
  unfold Qred, inject_Z. cbn [Qnum Qden].
  pose proof (Z.ggcd_gcd k 1) as H1. pose proof (Z.ggcd_correct_divisors k 1) as H2.
  destruct (Z.ggcd k 1) as (g & aa & bb). cbn [fst snd] in *. rewrite Z.gcd_1_r in H1. subst g. destruct H2 as [H2 H3].
  rewrite Z.mul_1_l in H2, H3. subst. reflexivity.
Qed.
Lemma Qred_to_int x k : (x == inject_Z k)%Q -> Qred x = inject_Z k.
Proof. intros H. rewrite (Qred_complete _ _ H). apply Qred_int. Qed.
Lemma round14_to_int x k : (x == inject_Z k)%Q -> round14 x = inject_Z k.
Proof.
  intros H. assert (E : (round14 x == inject_Z k)%Q).
  { rewrite <- (round14_int k). unfold round14. rewrite !Qred_correct.
    assert (E : rint (x * inject_Z ten14) = rint (inject_Z k * inject_Z ten14)); [|rewrite E; reflexivity].
    rewrite H. reflexivity. }
  unfold round14 in *. rewrite Qred_correct in E. apply Qred_to_int. exact E.
Qed.
Lemma inj_inj p q : inj p = inj q -> p = q.
Proof. destruct p, q. unfold inj. cbn. intros H. injection H. intros -> ->. reflexivity. Qed.
Lemma vec_eqb_inj p q : vec_eqb (inj p) (inj q) = true <-> p = q.
Proof.
  unfold vec_eqb, inj. cbn [fst snd]. rewrite andb_true_iff, !Qeq_bool_iff, !inj_eq. destruct p, q. cbn.
  split; [intros [-> ->]; reflexivity|intros H; injection H; auto].
Qed.
Lemma is_among_inj p l : is_among (inj p) (map inj l) = true <-> In p l.
Proof.
  unfold is_among. rewrite existsb_exists. split.
  - intros (x & Hx & E). apply in_map_iff in Hx as (q & <- & Hq). apply vec_eqb_inj in E. subst. exact Hq.
  - intros H. exists (inj p). split; [apply in_map; exact H|apply vec_eqb_inj; reflexivity].
Qed.
Lemma vadd_inj p q : vadd (inj p) (inj q) = inj (shift q p).
Proof.
  unfold vadd, inj, shift. cbn [fst snd]. f_equal; apply Qred_to_int; rewrite inject_Z_plus; reflexivity.
Qed.
Lemma vneg_inj p : vsub vzero (inj p) = inj (- fst p, - snd p)%Z.
Proof.
  unfold vsub, inj, vzero. cbn [fst snd]. f_equal; apply Qred_to_int; rewrite inject_Z_opp; ring.
Qed.

(** ** The attributes of a cluster *)
Definition pn (l : list pt) (i : nat) : pt := nth i l (0, 0)%Z.
Record rep (g : cluster_geom) (l : list pt) : Prop := {
  rep_lat : g_lat g = None;
  rep_n : g_n g = length l;
  rep_x : g_x g = map (fun p => inject_Z (fst p)) l;
  rep_y : g_y g = map (fun p => inject_Z (snd p)) l;
  rep_sx : nrow (g_xd g) = length l /\ ncol (g_xd g) = length l;
  rep_sy : nrow (g_yd g) = length l /\ ncol (g_yd g) = length l;
  rep_sa : nrow (g_adj g) = length l /\ ncol (g_adj g) = length l;
  rep_xd : forall i j, i < length l -> j < length l -> (ent (g_xd g) i j == inject_Z (fst (pn l i) - fst (pn l j)))%Q;
  rep_yd : forall i j, i < length l -> j < length l -> (ent (g_yd g) i j == inject_Z (snd (pn l i) - snd (pn l j)))%Q;
  rep_adj : forall i j, i < length l -> j < length l -> (ent (g_adj g) i j ==
    if (Z.abs (fst (pn l i) - fst (pn l j)) + Z.abs (snd (pn l i) - snd (pn l j)) =? 1)%Z then 1 else 0)%Q }.

Lemma rep_sites g l : rep g l -> at_sites g l.
Proof. intros H. split; apply H. Qed.
Lemma rep_coords g l : rep g l -> coords g = map inj l.
Proof.
  intros H. unfold coords. rewrite (rep_x _ _ H), (rep_y _ _ H). clear H. induction l as [|p l IH]; [reflexivity|].
  cbn [map combine]. rewrite IH. reflexivity.
Qed.

Lemma rep_new l : exists g, from_coords (map inj l) = Ok g /\ rep g l.
Proof.
  unfold from_coords, free_geometry.
  set (xs := map fst (map inj l)). set (ys := map snd (map inj l)).
  assert (Hx : xs = map inject_Z (map fst l)) by (unfold xs; rewrite !map_map; reflexivity).
  assert (Hy : ys = map inject_Z (map snd l)) by (unfold ys; rewrite !map_map; reflexivity).
  assert (Ly : length ys = length xs) by (rewrite Hx, Hy, !map_length; reflexivity).
  destruct (site_distance_ok xs ys Ly) as (rows & -> & H).
  assert (Lx : length xs = length l) by (rewrite Hx, !map_length; reflexivity). rewrite Lx in *.
  cbn [bind]. unfold checked.
  set (G := Geom _ _ _ _ _ _ _ _).
  assert (Nx : forall k, nth k xs 0%Q = inject_Z (fst (pn l k))).
  { intros k. rewrite Hx. change 0%Q with (inject_Z 0). rewrite (map_nth inject_Z). f_equal. unfold pn. exact (map_nth fst l (0, 0)%Z k). }
  assert (Ny : forall k, nth k ys 0%Q = inject_Z (snd (pn l k))).
  { intros k. rewrite Hy. change 0%Q with (inject_Z 0). rewrite (map_nth inject_Z). f_equal. unfold pn. exact (map_nth snd l (0, 0)%Z k). }
  assert (S : forall a b, Qred (inject_Z a - inject_Z b) = inject_Z (a - b)).
  { intros a b. apply Qred_to_int. unfold Z.sub. rewrite inject_Z_plus, inject_Z_opp. reflexivity. }
  assert (Dx : forall i j, i < length l -> j < length l -> ent (g_xd G) i j = inject_Z (fst (pn l i) - fst (pn l j))).
  { intros i j Hi Hj. subst G. cbn [g_xd ent]. rewrite (H i j Hi Hj). unfold vsub, at_. cbn [fst snd]. rewrite !Nx, S. reflexivity. }
  assert (Dy : forall i j, i < length l -> j < length l -> ent (g_yd G) i j = inject_Z (snd (pn l i) - snd (pn l j))).
  { intros i j Hi Hj. subst G. cbn [g_yd ent]. rewrite (H i j Hi Hj). unfold vsub, at_. cbn [fst snd]. rewrite !Ny, S. reflexivity. }
  assert (A : forall i j, i < length l -> j < length l ->
    ent (g_adj G) i j = (if (Z.abs (fst (pn l i) - fst (pn l j)) + Z.abs (snd (pn l i) - snd (pn l j)) =? 1)%Z then 1 else 0)%Q).
  { intros i j Hi Hj. change (ent (g_adj G) i j) with (qb (neighbor (ent (g_xd G) i j) (ent (g_yd G) i j))).
    rewrite Dx, Dy by assumption. set (dx := (fst (pn l i) - fst (pn l j))%Z). set (dy := (snd (pn l i) - snd (pn l j))%Z).
    destruct (neighbor_int dx dy) as (_ & _ & E).
    destruct (neighbor _ _); destruct (Z.eqb_spec (Z.abs dx + Z.abs dy)%Z 1) as [F|F]; try reflexivity; exfalso.
    - destruct (proj1 E eq_refl); lia.
    - assert (false = true) by (apply E; lia). discriminate. }
  assert (V : validate_geometry (fun _ _ => true) G = true).
  { unfold validate_geometry. rewrite andb_true_iff. split; [|reflexivity].
    unfold validate_adjacency, mat_eqb, mtr. rewrite !andb_true_iff.
    assert (R : nrow (g_adj G) = length l) by reflexivity. assert (C : ncol (g_adj G) = length l) by reflexivity.
    cbn [nrow ncol ent]. rewrite R, C. change (g_n G) with (length l). rewrite !Nat.eqb_refl.
    split; [split; [split; [split; reflexivity|]|]|split; reflexivity].
    - apply forallb_forall. intros i Hi. apply in_seq in Hi. apply forallb_forall. intros j Hj. apply in_seq in Hj.
      apply Qeq_bool_iff. rewrite !A by lia.
      replace (Z.abs (fst (pn l j) - fst (pn l i)))%Z with (Z.abs (fst (pn l i) - fst (pn l j)))%Z by lia.
      replace (Z.abs (snd (pn l j) - snd (pn l i)))%Z with (Z.abs (snd (pn l i) - snd (pn l j)))%Z by lia. reflexivity.
    - apply forallb_forall. intros i Hi. apply in_seq in Hi. apply forallb_forall. intros j Hj. apply in_seq in Hj.
      rewrite A by lia. destruct (_ =? _)%Z; reflexivity. }
  rewrite V. exists G. split; [reflexivity|].
  constructor; try reflexivity.
  - exact (eq_trans Hx (map_map _ _ _)).
  - exact (eq_trans Hy (map_map _ _ _)).
  - split; reflexivity.
  - split; reflexivity.
  - split; reflexivity.
  - intros i j Hi Hj. rewrite Dx by assumption. reflexivity.
  - intros i j Hi Hj. rewrite Dy by assumption. reflexivity.
  - intros i j Hi Hj. rewrite A by assumption. reflexivity.
Qed.

(** ** The order of the sites *)
Definition before (top : Z) (p q : pt) : Prop :=
  (snd q < snd p \/ snd p = snd q /\ if Z.even (top - snd p) then fst p < fst q else fst q < fst p)%Z.
Definition in_order (l : list pt) : Prop :=
  exists top, (forall p, In p l -> (snd p <= top)%Z) /\ (exists p, In p l /\ snd p = top) /\ StronglySorted (before top) l.

Lemma before_asym top p q : before top p q -> before top q p -> p = q.
Proof.
  unfold before. intros [H|[H H']] [K|[K K']]; try lia. rewrite K in K'. destruct (Z.even (top - snd p)); lia.
Qed.
Lemma in_order_unique l m : in_order l -> in_order m -> Permutation l m -> l = m.
Proof.
  intros (t & H1 & (p & Hp & Ep) & S1) (t' & H1' & (p' & Hp' & Ep') & S2) P.
  assert (t = t').
  { pose proof (H1 p' (Permutation_in _ (Permutation_sym P) Hp')). pose proof (H1' p (Permutation_in _ P Hp)). lia. }
  subst t'. apply (sorted_unique (before t) (fun _ => True)); [intros i j _ _; exact (before_asym t i j)|auto|exact S1|rewrite H; exact S2|exact P].
Qed.
Lemma sorted_map {A B} (R : A -> A -> Prop) (R' : B -> B -> Prop) (f : A -> B) l :
  (forall a b, R a b -> R' (f a) (f b)) -> StronglySorted R l -> StronglySorted R' (map f l).
Proof.
  intros H. induction 1 as [|a l S IH F]; cbn [map]; constructor; auto.
  apply Forall_forall. intros y Hy. apply in_map_iff in Hy as (x & <- & Hx). rewrite Forall_forall in F. auto.
Qed.
Lemma in_order_shift t l : in_order l -> in_order (map (shift t) l).
Proof.
  intros (top & H1 & (p & Hp & Ep) & S). exists (top + snd t)%Z. split; [|split].
  - intros q Hq. apply in_map_iff in Hq as (x & <- & Hx). apply H1 in Hx. cbn. lia.
  - exists (shift t p). split; [apply in_map; exact Hp|]. cbn. lia.
  - apply (sorted_map (before top)); [|exact S]. intros a b. unfold before, shift. cbn [fst snd].
    replace (top + snd t - (snd a + snd t))%Z with (top - snd a)%Z by lia. destruct (Z.even (top - snd a)); lia.
Qed.
Lemma in_order_one p : in_order [p].
Proof.
  exists (snd p). split; [intros q [<-|[]]; lia|]. split; [exists p; split; [left|]; reflexivity|]. repeat constructor.
Qed.

Lemma has_top (l : list pt) : l <> [] -> exists p, In p l /\ forall q, In q l -> (snd q <= snd p)%Z.
Proof.
  induction l as [|a l IH]; [congruence|]. intros _. destruct l as [|b l].
  - exists a. split; [left; reflexivity|]. intros q [<-|[]]. lia.
  - destruct IH as (p & Hp & H); [discriminate|]. destruct (Z_le_gt_dec (snd a) (snd p)).
    + exists p. split; [right; exact Hp|]. intros q [<-|Hq]; [lia|]. apply H. exact Hq.
    + exists a. split; [left; reflexivity|]. intros q [<-|Hq]; [lia|]. apply H in Hq. lia.
Qed.

Lemma inject_lt a b : (inject_Z a < inject_Z b)%Q <-> (a < b)%Z.
Proof. unfold Qlt. cbn. lia. Qed.
Lemma inject_le a b : (inject_Z a <= inject_Z b)%Q <-> (a <= b)%Z.
Proof. unfold Qle. cbn. lia. Qed.

Lemma rep_sorted l : l <> [] -> NoDup l ->
  exists g m, sorted_cluster (map inj l) = Ok g /\ rep g m /\ Permutation l m /\ in_order m.
Proof.
  intros Hne Hnd. unfold sorted_cluster. destruct (rep_new l) as (g0 & -> & R0). cbn [bind].
  assert (Sx : forall i, nth i (g_x g0) 0%Q = inject_Z (fst (pn l i))).
  { intros i. rewrite (rep_x _ _ R0). exact (map_nth (fun p => inject_Z (fst p)) l (0, 0)%Z i). }
  assert (Sy : forall i, nth i (g_y g0) 0%Q = inject_Z (snd (pn l i))).
  { intros i. rewrite (rep_y _ _ R0). exact (map_nth (fun p => inject_Z (snd p)) l (0, 0)%Z i). }
  pose proof (rep_n _ _ R0) as Hn.
  assert (W : well_sized g0).
  { split; rewrite ?(rep_x _ _ R0), ?(rep_y _ _ R0), map_length; symmetry; exact Hn. }
  assert (N : 0 < g_n g0) by (rewrite Hn; destruct l; [congruence|cbn; lia]).
  assert (D : distinct_sites g0).
  { intros i j Hi Hj [E1 E2]. unfold site in E1, E2. cbn [fst snd] in E1, E2. rewrite Sx, Sx, inj_eq in E1. rewrite Sy, Sy, inj_eq in E2.
    rewrite Hn in Hi, Hj. apply (proj1 (NoDup_nth l (0, 0)%Z) Hnd i j Hi Hj). apply injective_projections; assumption. }
  assert (I : integer_rows g0).
  { intros i j _ _. unfold site. cbn [snd]. rewrite !Sy. exists (snd (pn l i) - snd (pn l j))%Z. unfold Z.sub.
    rewrite inject_Z_plus, inject_Z_opp. reflexivity. }
  destruct (sorting_ok g0 TopAlternating eq_refl W N D (fun _ => I)) as (s & -> & Ps & Ss). cbn [bind].
  assert (Hp : is_perm (g_n g0) (map Z.of_nat s)) by (apply Permutation_map; exact Ps).
  assert (Es : map Z.to_nat (map Z.of_nat s) = s).
  { rewrite map_map. rewrite <- (map_id s) at 2. apply map_ext. intros. apply Nat2Z.id. }
  unfold permute_sites. rewrite (proj2 (perm_test _ _) Hp). cbn [negb]. rewrite Es.
  assert (Ls : length s = length l) by (rewrite (Permutation_length Ps), seq_length; exact Hn).
  set (m := map (pn l) s).
  assert (Pm : Permutation l m).
  { unfold m. rewrite Hn in Ps. transitivity (map (pn l) (seq 0 (length l))); [|apply Permutation_map; symmetry; exact Ps].
    unfold pn. clear. induction l as [|a l IH]; [constructor|]. cbn [length seq map nth].
    rewrite <- seq_shift, map_map. constructor. exact IH. }
  assert (Lm : length m = length l) by (unfold m; rewrite map_length; exact Ls).
  assert (Em : forall i, i < length l -> pn m i = pn l (nth i s 0)).
  { intros i Hi. unfold m, pn at 1. rewrite (nth_indep _ _ (pn l 0)) by (rewrite map_length; lia). rewrite (map_nth (pn l)). reflexivity. }
  assert (Bs : forall i, i < length l -> nth i s 0 < length l).
  { intros i Hi. rewrite <- Hn. assert (In (nth i s 0) (seq 0 (g_n g0))) as Hi' by (apply (Permutation_in _ Ps), nth_In; lia).
    apply in_seq in Hi'. lia. }
  eexists. exists m. split; [reflexivity|]. split; [|split; [exact Pm|]].
  - constructor; cbn [g_lat g_n g_x g_y g_xd g_yd g_adj]; rewrite ?Lm.
    + exact (rep_lat _ _ R0).
    + exact Hn.
    + unfold m. rewrite map_map. apply map_ext. intros k. exact (Sx k).
    + unfold m. rewrite map_map. apply map_ext. intros k. exact (Sy k).
    + rewrite <- Hn. split; reflexivity.
    + rewrite <- Hn. split; reflexivity.
    + rewrite <- Hn. split; reflexivity.
    + intros i j Hi Hj. rewrite !Em by assumption. rewrite <- (rep_xd _ _ R0) by auto.
      rewrite <- Es at 1. rewrite permuted_entry by (try assumption; rewrite Hn; assumption). unfold np. rewrite Es. reflexivity.
    + intros i j Hi Hj. rewrite !Em by assumption. rewrite <- (rep_yd _ _ R0) by auto.
      rewrite <- Es at 1. rewrite permuted_entry by (try assumption; rewrite Hn; assumption). unfold np. rewrite Es. reflexivity.
    + intros i j Hi Hj. rewrite !Em by assumption. rewrite <- (rep_adj _ _ R0) by auto.
      rewrite <- Es at 1. rewrite permuted_entry by (try assumption; rewrite Hn; assumption). unfold np. rewrite Es. reflexivity.
  - destruct (has_top l Hne) as (p & Hp1 & Hp2). exists (snd p). split; [|split].
    + intros q Hq. apply Hp2. apply (Permutation_in _ (Permutation_sym Pm)). exact Hq.
    + exists p. split; [apply (Permutation_in _ Pm); exact Hp1|reflexivity].
    + unfold m. apply (sorted_map (fun i j => site_before g0 TopAlternating (site g0 i) (site g0 j))); [|exact Ss].
      intros i j Hij. unfold site_before in Hij. specialize (Hij (inject_Z (snd p))).
      assert (HT : top_row g0 (inject_Z (snd p))).
      { split.
        - intros k Hk. unfold site. cbn [snd]. rewrite Sy. apply inject_le. apply Hp2. apply nth_In. lia.
        - apply (In_nth _ _ ((0, 0)%Z : pt)) in Hp1 as (k & Hk & Ek). exists k. split; [rewrite Hn; exact Hk|]. unfold site. cbn [snd]. rewrite Sy. apply inj_eq; f_equal; exact Ek. }
      specialize (Hij HT). unfold top_alternating, site in Hij. cbn [fst snd] in Hij. rewrite !Sx, !Sy in Hij.
      rewrite !inject_lt, inj_eq in Hij. unfold before. destruct Hij as [Hij|[E Hij]]; [left; exact Hij|right; split; [exact E|]].
      assert (EQ : forall z w, (inject_Z (snd p) - inject_Z (snd (pn l z)) == inject_Z w)%Q -> (snd p - snd (pn l z) = w)%Z).
      { intros z w H. apply inj_eq. rewrite <- H. unfold Z.sub. rewrite inject_Z_plus, inject_Z_opp. reflexivity. }
      destruct Hij as [[(z & Hz) H]|[(z & Hz) H]]; apply EQ in Hz; rewrite Hz.
      * rewrite Z.even_mul. exact H.
      * rewrite Z.even_add, Z.even_mul. exact H.
Qed.

(** ** Comparing clusters *)
Record cluster (g : cluster_geom) (l : list pt) : Prop := {
  cl_rep : rep g l; cl_nd : NoDup l; cl_ne : l <> []; cl_ord : in_order l }.

Lemma sorted_cluster_ok l : l <> [] -> NoDup l ->
  exists g m, sorted_cluster (map inj l) = Ok g /\ cluster g m /\ Permutation l m.
Proof.
  intros H1 H2. destruct (rep_sorted l H1 H2) as (g & m & E & R & P & O). exists g, m. split; [exact E|]. split; [|exact P].
  constructor; auto. - apply (Permutation_NoDup P H2). - intros ->. apply Permutation_sym, Permutation_nil in P. contradiction.
Qed.
Lemma cluster_one p : exists g, from_coords [inj p] = Ok g /\ cluster g [p].
Proof.
  destruct (rep_new [p]) as (g & E & R). exists g. split; [exact E|]. constructor; [exact R| |discriminate|apply in_order_one].
  constructor; [intros []|constructor].
Qed.

Lemma same_set_perm (l m : list pt) : NoDup l -> NoDup m -> same_set l m -> Permutation l m.
Proof. intros H1 H2 H. apply NoDup_Permutation; auto. Qed.
Lemma perm_same_set {A} (l m : list A) : Permutation l m -> same_set l m.
Proof. intros P x. split; [apply Permutation_in|apply Permutation_in, Permutation_sym]; exact P. Qed.
Lemma shift_inj t p q : shift t p = shift t q -> p = q.
Proof. destruct p, q. unfold shift. cbn. intros H. injection H. intros. f_equal; lia. Qed.
Lemma NoDup_map_inj {A B} (f : A -> B) l : (forall a b, f a = f b -> a = b) -> NoDup l -> NoDup (map f l).
Proof.
  intros Hf. induction 1 as [|a l Ha Hl IH]; cbn [map]; constructor; [|exact IH].
  intros H. apply in_map_iff in H as (b & E & Hb). apply Hf in E. subst. contradiction.
Qed.
Lemma translate_shift l m : NoDup l -> in_order l -> NoDup m -> in_order m -> translate l m -> exists t, m = map (shift t) l.
Proof.
  intros H1 H2 H3 H4 (t & Ht). exists t. symmetry. apply in_order_unique; [apply in_order_shift; exact H2|exact H4|].
  apply same_set_perm; [|exact H3|exact Ht]. apply NoDup_map_inj; [apply shift_inj|exact H1].
Qed.

Lemma diff_shift (l m : list pt) : l <> [] -> length l = length m ->
  (forall i j, i < length l -> j < length l ->
    (fst (pn l i) - fst (pn l j) = fst (pn m i) - fst (pn m j) /\ snd (pn l i) - snd (pn l j) = snd (pn m i) - snd (pn m j))%Z) ->
  exists t, m = map (shift t) l.
Proof.
  intros Hne Hl H. exists (fst (pn m 0) - fst (pn l 0), snd (pn m 0) - snd (pn l 0))%Z.
  apply (@nth_ext pt _ _ (0, 0)%Z (shift (fst (pn m 0) - fst (pn l 0), snd (pn m 0) - snd (pn l 0))%Z (0, 0)%Z)).
  - rewrite map_length. auto.
  - intros i Hi. rewrite (map_nth (shift _)). change (nth i m (0, 0)%Z) with (pn m i). change (nth i l (0, 0)%Z) with (pn l i).
    assert (0 < length l) by (destruct l; [congruence|cbn; lia]).
    destruct (H i 0) as [E1 E2]; [lia|lia|]. unfold shift. cbn [fst snd]. apply injective_projections; cbn [fst snd]; lia.
Qed.

Lemma equal_adjacency_ok g h l m : cluster g l -> cluster h m ->
  exists b, equal_adjacency g h = Ok b /\ (b = true <-> translate l m).
Proof.
  intros [Rg Ng Eg Og] [Rh Nh Eh Oh]. unfold equal_adjacency. rewrite (rep_lat _ _ Rg), (rep_lat _ _ Rh). cbn [lattice_opt_eqb].
  destruct (mat_eqb (g_xd g) (g_xd h) && mat_eqb (g_yd g) (g_yd h) && mat_eqb (g_adj g) (g_adj h)) eqn:E.
  - exists true. split; [reflexivity|]. split; [|reflexivity]. intros _. apply andb_true_iff in E as [E _]. apply andb_true_iff in E as [E1 E2].
    apply mat_eqb_spec in E1 as (A1 & A2 & A3). apply mat_eqb_spec in E2 as (B1 & B2 & B3).
    destruct (rep_sx _ _ Rg) as [S1 S2]. destruct (rep_sx _ _ Rh) as [S3 S4].
    destruct (rep_sy _ _ Rg) as [U1 U2]. destruct (rep_sy _ _ Rh) as [U3 U4].
    assert (Hl : length l = length m) by congruence.
    destruct (diff_shift l m Eg Hl) as (t & ->).
    + intros i j Hi Hj. specialize (A3 i j). specialize (B3 i j). rewrite (rep_xd _ _ Rg), (rep_xd _ _ Rh), inj_eq in A3 by lia.
      rewrite (rep_yd _ _ Rg), (rep_yd _ _ Rh), inj_eq in B3 by lia. rewrite S1, S2 in A3. rewrite U1, U2 in B3. auto.
    + exists t. intros x. reflexivity.
  - exists false. split; [reflexivity|]. split; [discriminate|]. intros HT. exfalso.
    destruct (translate_shift l m Ng Og Nh Oh HT) as (t & ->).
    assert (Hl : length (map (shift t) l) = length l) by apply map_length.
    assert (Hp : forall i, i < length l -> pn (map (shift t) l) i = shift t (pn l i)).
    { intros i Hi. unfold pn. rewrite (nth_indep _ _ (shift t (0, 0)%Z)) by lia. apply map_nth. }
    pose proof (rep_sx _ _ Rg) as [S1 S2]. pose proof (rep_sx _ _ Rh) as [S3 S4].
    pose proof (rep_sy _ _ Rg) as [U1 U2]. pose proof (rep_sy _ _ Rh) as [U3 U4].
    pose proof (rep_sa _ _ Rg) as [V1 V2]. pose proof (rep_sa _ _ Rh) as [V3 V4]. rewrite Hl in *.
    assert (E1 : mat_eqb (g_xd g) (g_xd h) = true).
    { apply mat_eqb_spec. split; [congruence|]. split; [congruence|]. intros i j Hi Hj. rewrite S1 in Hi. rewrite S2 in Hj.
      rewrite (rep_xd _ _ Rg), (rep_xd _ _ Rh) by lia. rewrite !Hp by lia. cbn [shift fst]. apply inj_eq. lia. }
    assert (E2 : mat_eqb (g_yd g) (g_yd h) = true).
    { apply mat_eqb_spec. split; [congruence|]. split; [congruence|]. intros i j Hi Hj. rewrite U1 in Hi. rewrite U2 in Hj.
      rewrite (rep_yd _ _ Rg), (rep_yd _ _ Rh) by lia. rewrite !Hp by lia. cbn [shift snd]. apply inj_eq. lia. }
    assert (E3 : mat_eqb (g_adj g) (g_adj h) = true).
    { apply mat_eqb_spec. split; [congruence|]. split; [congruence|]. intros i j Hi Hj. rewrite V1 in Hi. rewrite V2 in Hj.
      rewrite (rep_adj _ _ Rg), (rep_adj _ _ Rh) by lia. rewrite !Hp by lia. cbn [shift fst snd].
      replace (fst (pn l i) + fst t - (fst (pn l j) + fst t))%Z with (fst (pn l i) - fst (pn l j))%Z by lia.
      replace (snd (pn l i) + snd t - (snd (pn l j) + snd t))%Z with (snd (pn l i) - snd (pn l j))%Z by lia. reflexivity. }
    rewrite E1, E2, E3 in E. discriminate.
Qed.

Lemma geometry_eqb_ok g h l m : cluster g l -> cluster h m ->
  exists b, geometry_eqb g h = Ok b /\ (b = true <-> same_set l m).
Proof.
  intros Cg Ch. destruct (equal_adjacency_ok g h l m Cg Ch) as (b & E & Hb). pose proof Cg as [Rg Ng Eg Og]. pose proof Ch as [Rh Nh Eh Oh].
  unfold equal_adjacency in E. unfold geometry_eqb.
  assert (X : list_eqb (g_x g) (g_x h) && list_eqb (g_y g) (g_y h) = true <-> l = m).
  { rewrite (rep_x _ _ Rg), (rep_x _ _ Rh), (rep_y _ _ Rg), (rep_y _ _ Rh), andb_true_iff, !list_eqb_spec. clear.
    revert m. induction l as [|p l IH]; intros [|q m]; cbn [map]; split; intros H; try discriminate; try (destruct H as [HF _]; inversion HF; fail).
    - reflexivity.
    - split; constructor.
    - destruct H as [H1 H2]. inversion H1; inversion H2; subst. f_equal; [|apply IH; auto].
      rewrite inj_eq in *. apply injective_projections; assumption.
    - injection H. intros -> ->. destruct (proj2 (IH m) eq_refl). split; constructor; auto; reflexivity. }
  assert (Y : same_set l m <-> l = m).
  { split; [|intros ->; intros x; reflexivity]. intros H. apply in_order_unique; auto. apply same_set_perm; auto. }
  destruct (list_eqb (g_x g) (g_x h) && list_eqb (g_y g) (g_y h)) eqn:E1; cbn [andb].
  - rewrite E. exists b. split; [reflexivity|]. rewrite Y, Hb. split; [intros _; apply X; reflexivity|].
    intros ->. exists (0, 0)%Z. intros x. rewrite in_map_iff. split.
    + intros (y & <- & Hy). replace (shift (0, 0)%Z y) with y; [exact Hy|]. destruct y. unfold shift. cbn. f_equal; lia.
    + intros Hx. exists x. split; [|exact Hx]. destruct x. unfold shift. cbn. f_equal; lia.
  - exists false. split; [reflexivity|]. rewrite Y, <- X. split; [discriminate|]. intros H. discriminate H.
Qed.
