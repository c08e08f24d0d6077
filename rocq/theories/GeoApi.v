(** Statements about whole geometries: phases, sorting, neighbours, equality. *)
From Coq Require Import List Arith Lia QArith Qround Qabs Qreals Reals ZArith Bool Lqa Setoid Morphisms Sorting Permutation Psatz.
From Verif Require Import Scalars Res Matrix ModelGeometry ModelPhase SpecGeometry GeoArith GeoReduce GeoSites GeoSites2 GeoDist
  GeoSquare GeoPerm GeoSort GeoPhase.
Import ListNotations.
Local Open Scope Q_scope.
Arguments Qred : simpl never.
Arguments round14 : simpl never.

(** * Phases *)
Definition periodicity (open : bool) (p : vec) : vec := if open then vzero else p.

Section Phases.
  Variables (v1 v2 : vec) (basis : list vec) (p1 p2 : vec) (ph1 ph2 : Q) (o1 o2 : bool) (g : geometry CR).
  Hypothesis Hg : c_create_lattice_geom v1 v2 basis p1 p2 ph1 ph2 o1 o2 = Ok g.
  Hypothesis Z1 : is_zero p1 \/ long p1.
  Hypothesis Z2 : is_zero p2 \/ long p2.

  Lemma built : exists L, new_lattice v1 v2 basis (periodicity o1 p1) (periodicity o2 p2) ph1 ph2 = Ok L /\
    (is_zero (periodicity o1 p1) \/ long (periodicity o1 p1)) /\ (is_zero (periodicity o2 p2) \/ long (periodicity o2 p2)) /\
    length (g_x g) = g_n g /\ length (g_y g) = g_n g /\
    g_phase g = phase_matrix L (g_n g) (ent (g_xd g)) (ent (g_yd g)) /\
    lt_phase1 L = ph1 /\ lt_phase2 L = ph2 /\
    (forall i j, (i < g_n g)%nat -> (j < g_n g)%nat ->
      ent (g_xd g) i j == - ent (g_xd g) j i /\ ent (g_yd g) i j == - ent (g_yd g) j i /\
      equivalent (periodicity o1 p1) (periodicity o2 p2) (diff (g_x g) (g_y g) i j) (ent (g_xd g) i j, ent (g_yd g) i j)).
  Proof.
    pose proof Hg as H. unfold c_create_lattice_geom, create_lattice_geom in H.
    apply bind_ok in H as (helper & _ & H). apply bind_ok in H as (sites & _ & H). apply bind_ok in H as (L & HL & H).
    change (new_lattice v1 v2 basis (periodicity o1 p1) (periodicity o2 p2) ph1 ph2 = Ok L) in HL.
    assert (Y1 : is_zero (periodicity o1 p1) \/ long (periodicity o1 p1)) by (unfold periodicity; destruct o1; [left; split; reflexivity|assumption]).
    assert (Y2 : is_zero (periodicity o2 p2) \/ long (periodicity o2 p2)) by (unfold periodicity; destruct o2; [left; split; reflexivity|assumption]).
    exists L. split; [assumption|]. split; [assumption|]. split; [assumption|].
    unfold lattice_geometry in H. apply bind_ok in H as (d & Hd & H). unfold checked in H.
    destruct (validate_geometry _ _); [|discriminate]. injection H as <-. cbn [g_x g_y g_n g_phase g_xd g_yd ent].
    split; [reflexivity|]. split; [rewrite !map_length; reflexivity|]. split; [reflexivity|].
    destruct (new_lattice_inv _ _ _ _ _ _ _ _ HL) as (_ & _ & _ & _ & rs & _ & EL).
    split; [rewrite EL; reflexivity|]. split; [rewrite EL; reflexivity|].
    destruct (distances _ _ _ _ _ _ _ L HL Y1 Y2 (map fst sites) (map snd sites)) as (d' & Hd' & T); [rewrite !map_length; reflexivity|].
    assert (d' = d) by congruence. subst d'. intros i j Hi Hj. destruct (T i j Hi Hj) as (A & B & _ & C & _).
    split; [exact A|]. split; [exact B|exact C].
  Qed.

  Lemma phases_hermitian : nrow (g_phase g) = g_n g /\ ncol (g_phase g) = g_n g /\
    forall i j, (i < g_n g)%nat -> (j < g_n g)%nat ->
      ent (g_phase g) i j = cr_conj (ent (g_phase g) j i) /\
      (1 - tiny * tiny <= modulus (ent (g_phase g) i j) * modulus (ent (g_phase g) i j) <= 1)%R /\
      (ph1 == 0 -> ph2 == 0 -> ent (g_phase g) i j = (1, 0)%R).
  Proof.
    destruct built as (L & HL & _ & _ & _ & _ & E & F1 & F2 & A). rewrite E. split; [reflexivity|]. split; [reflexivity|].
    intros i j Hi Hj.
    assert (A' : forall i j, (i < g_n g)%nat -> (j < g_n g)%nat ->
      ent (g_xd g) i j == - ent (g_xd g) j i /\ ent (g_yd g) i j == - ent (g_yd g) j i) by (intros k l Hk Hl; destruct (A k l Hk Hl) as (? & ? & _); auto).
    split; [apply phase_matrix_hermitian; assumption|]. split; [apply phase_matrix_modulus; assumption|].
    intros. apply phase_matrix_ones; try assumption; rewrite ?F1, ?F2; assumption.
  Qed.

  (** Some entry is not real to fourteen decimals. *)
  Definition complex_phases : Prop :=
    exists i j, (i < g_n g)%nat /\ (j < g_n g)%nat /\ snd (ent (g_phase g) i j) <> 0%R.

  Lemma phases_loop k path : complex_phases -> (k < g_n g)%nat -> Forall (fun l => (l < g_n g)%nat) path -> last path k = k ->
    exists w1 w2, (o1 = true -> w1 = 0%Z) /\ (o2 = true -> w2 = 0%Z) /\
      same_point (path_sum (ent (g_xd g)) k path, path_sum (ent (g_yd g)) k path)
        (moved (0, 0) (inject_Z w1) (periodicity o1 p1) (inject_Z w2) (periodicity o2 p2)) /\
      path_product (ent (g_phase g)) k path = cexp (Q2R (inject_Z w1 * ph1 + inject_Z w2 * ph2)).
  Proof.
    intros (i0 & j0 & Hi & Hj & NZ) Hk F C. destruct built as (L & HL & Y1 & Y2 & Lx & Ly & E & _ & _ & A).
    destruct (loop_phase _ _ _ _ _ _ _ L HL Y1 Y2 (g_n g) (g_x g) (g_y g) (ent (g_xd g)) (ent (g_yd g)) k path Lx Ly) as (w1 & w2 & W1 & W2 & S & P).
    - intros i j Hi' Hj'. apply A; assumption.
    - assumption.
    - assumption.
    - assumption.
    - exists w1, w2. split; [intros ->; apply W1; split; reflexivity|]. split; [intros ->; apply W2; split; reflexivity|].
      split; [assumption|]. rewrite <- P. apply (path_product_ext _ _ _ _ (g_n g)); [|assumption|assumption].
      intros i j Hi' Hj'. rewrite E in NZ |- *.
      assert (A' : forall i j, (i < g_n g)%nat -> (j < g_n g)%nat ->
        ent (g_xd g) i j == - ent (g_xd g) j i /\ ent (g_yd g) i j == - ent (g_yd g) j i) by (intros a b Ha Hb; destruct (A a b Ha Hb) as (? & ? & _); auto).
      destruct (phase_matrix_entries L (g_n g) _ _ A') as (_ & _ & [H|H]); [apply H|].
      exfalso. apply NZ. destruct (H i0 j0 Hi Hj) as [-> _]. reflexivity.
  Qed.
End Phases.

(** * Rings *)
Lemma path_sum_ring f m lo : path_sum f lo (seq (S lo) m) == fold_right Qplus 0 (map (fun i => f (S i) i) (seq lo m)).
Proof.
  revert lo. induction m; intros lo; cbn [seq path_sum map fold_right]; [reflexivity|]. rewrite IHm. reflexivity.
Qed.
Lemma path_sum_app f k a b : path_sum f k (a ++ b) == path_sum f k a + path_sum f (last a k) b.
Proof.
  revert k. induction a as [|x a IH]; intros k; cbn [app path_sum]; [cbn [last]; ring|].
  rewrite IH. assert (last (x :: a) k = last a x) as ->; [|ring].
  clear. revert x k. induction a as [|m t IH]; intros; [reflexivity|]. change (last (m :: t) k = last (m :: t) x). rewrite !IH. reflexivity.
Qed.
Lemma last_seq m lo : last (seq (S lo) m) lo = (lo + m)%nat.
Proof.
  revert lo. induction m; intros lo; [cbn; lia|].
  rewrite seq_S, last_last. lia.
Qed.
Lemma sum_const c l : fold_right Qplus 0 (map (fun _ : nat => c) l) == inject_Z (Z.of_nat (length l)) * c.
Proof.
  induction l as [|a l IH]; cbn [map fold_right length]; [change (inject_Z (Z.of_nat 0)) with 0; ring|].
  rewrite IH, Nat2Z.inj_succ, <- Z.add_1_r, inject_Z_plus. change (inject_Z 1) with 1. ring.
Qed.
Lemma sum_ext (f h : nat -> Q) l : (forall i, In i l -> f i == h i) -> fold_right Qplus 0 (map f l) == fold_right Qplus 0 (map h l).
Proof.
  induction l as [|a l IH]; intros H; cbn [map fold_right]; [reflexivity|]. rewrite IH by (intros; apply H; right; assumption).
  rewrite (H a) by (left; reflexivity). reflexivity.
Qed.

(** Once around a ring of at least three sites. *)
Lemma ring_phase n ph1 ph2 o2 g : (3 <= n)%Z -> (2 * n <= 100000000000000)%Z ->
  c_square_geometry n 1 ph1 ph2 false o2 = Ok g ->
  complex_phases g ->
  path_product (ent (g_phase g)) 0 (seq 1 (Z.to_nat n - 1) ++ [0%nat]) = cexp (Q2R ph1).
Proof.
  intros Hn Hn2 Hg C.
  destruct (square_ok _ _ n 1 ph1 ph2 false o2 g ltac:(lia) ltac:(lia) Hn2 ltac:(lia) Hg) as (N & _ & _ & _ & O2 & _ & _ & _ & _ & D).
  specialize (O2 eq_refl). subst o2. rewrite Z.mul_1_r in N.
  assert (Hg' : c_create_lattice_geom (1, 0) (0, 1) [vzero] (inject_Z n, 0) (0, inject_Z 1) ph1 ph2 false true = Ok g).
  { unfold c_square_geometry, square_geometry in Hg. rewrite (proj2 (Z.eqb_neq n 1)) in Hg by lia. exact Hg. }
  assert (F : Forall (fun l => (l < g_n g)%nat) (seq 1 (Z.to_nat n - 1) ++ [0%nat])).
  { apply Forall_app. split; [|constructor; [lia|constructor]]. apply Forall_forall. intros x Hx. apply in_seq in Hx. lia. }
  destruct (phases_loop _ _ _ _ _ _ _ _ _ g Hg' (or_intror (px_long n ltac:(lia))) (or_intror (py_long 1 ltac:(lia))) 0%nat
              (seq 1 (Z.to_nat n - 1) ++ [0%nat]) C ltac:(lia) F) as (w1 & w2 & _ & W2 & (S & _) & P).
  { rewrite last_last. reflexivity. }
  rewrite P. rewrite (W2 eq_refl). f_equal. apply Qeq_eqR.
  assert (w1 = 1%Z) as ->; [|change (inject_Z 1) with 1; change (inject_Z 0) with 0; ring].
  cbn [periodicity moved fst snd] in S. rewrite path_sum_app, path_sum_ring, last_seq in S. cbn [path_sum] in S.
  assert (SX : forall k, site_x 1 k = Z.of_nat k) by (intros; unfold site_x; apply Z.div_1_r).
  rewrite (sum_ext _ (fun _ => 1)) in S.
  2:{ intros i Hi. apply in_seq in Hi. destruct (D (Datatypes.S i) i) as (X & _); [lia|lia|]. rewrite X, !SX.
      rewrite (proj2 (Nat.leb_le i (Datatypes.S i))) by lia.
      replace (Z.of_nat (Datatypes.S i) - Z.of_nat i)%Z with 1%Z by lia. unfold wrap. rewrite (Z.div_small (2 * 1 + n)) by lia. rewrite Z.mul_0_r. reflexivity. }
  rewrite sum_const, seq_length in S.
  assert (Q : ent (g_xd g) 0 (0 + (Z.to_nat n - 1)) == 1).
  { destruct (D 0%nat (0 + (Z.to_nat n - 1))%nat) as (X & _); [lia|lia|]. rewrite X, !SX.
    rewrite (proj2 (Nat.leb_gt (0 + (Z.to_nat n - 1)) 0)) by lia.
    replace (Z.of_nat (0 + (Z.to_nat n - 1)) - Z.of_nat 0)%Z with (n - 1)%Z by lia. unfold wrap.
    assert ((2 * (n - 1) + n) / (2 * n) = 1)%Z as ->; [symmetry; apply (Zdiv_unique _ _ _ (n - 2)); lia|].
    replace (n - 1 - n * 1)%Z with (-1)%Z by lia. reflexivity. }
  rewrite Q in S. replace (Z.of_nat (Z.to_nat n - 1)) with (n - 1)%Z in S by lia.
  assert (E : inject_Z w1 * inject_Z n == inject_Z n).
  { transitivity (inject_Z (n - 1) * 1 + (1 + 0)).
    - rewrite S. change (inject_Z w2 * fst vzero) with (inject_Z w2 * 0). ring.
    - unfold Z.sub. rewrite inject_Z_plus. change (inject_Z (-(1))) with (-(1)). ring. }
  rewrite <- inject_Z_mult in E. apply (proj1 (inject_Z_injective _ _)) in E. nia.
Qed.

(** * Sorted geometries do not depend on the numbering *)
Lemma np_map (s : list nat) i : np (map Z.of_nat s) i = nth i s 0%nat.
Proof.
  unfold np. rewrite map_map. rewrite (map_ext _ (fun x => x)) by (intros; apply Nat2Z.id). rewrite map_id. reflexivity.
Qed.

Section Canonical.
  Context {Ph : Type}.
  Implicit Type g : geometry Ph.

  Lemma perm_of_nat n s : Permutation s (seq 0 n) -> is_perm n (map Z.of_nat s).
  Proof. intros P. apply Permutation_map. assumption. Qed.

  Lemma permuted_same_sites g p g' : well_sized g -> is_perm (g_n g) p -> permute_sites g p = Ok g' ->
    same_sites (np p) (0, 0) g g'.
  Proof.
    intros W P E. destruct (permute_ok g p P) as (g1 & E1 & R). assert (g1 = g') by congruence. subst g1.
    destruct R as (N & _ & Lx & Ly & X & _). destruct (perm_facts _ _ P) as (Lp & PP & _).
    assert (Em : map (np p) (seq 0 (g_n g)) = map Z.to_nat p).
    { apply (nth_ext (map (np p) (seq 0 (g_n g))) (map Z.to_nat p) (np p 0) 0%nat); [rewrite !map_length, seq_length; lia|].
      intros i Hi. rewrite map_length, seq_length in Hi. rewrite map_nth, seq_nth by lia. reflexivity. }
    split; [assumption|]. split; [split; congruence|]. split.
    - rewrite Em. exact PP.
    - intros i Hi. destruct (X i Hi) as [A B]. unfold site. cbn [fst snd]. rewrite A, B. split; ring.
  Qed.

  Lemma sorted_geometry g p g' md s s' h h' : geometric md = true -> well_sized g -> (0 < g_n g)%nat -> distinct_sites g ->
    (md = TopAlternating -> integer_rows g) ->
    permute_sites g p = Ok g' ->
    sorting_permutation g md = Ok s -> sorting_permutation g' md = Ok s' ->
    permute_sites g (map Z.of_nat s) = Ok h -> permute_sites g' (map Z.of_nat s') = Ok h' ->
    same_geometry h h'.
  Proof.
    intros Hm W N D I Ep Es Es' Eh Eh'.
    assert (P : is_perm (g_n g) p).
    { unfold permute_sites in Ep. apply perm_test. destruct (zlist_eqb _ _); [reflexivity|discriminate]. }
    pose proof (permuted_same_sites g p g' W P Ep) as S.
    pose proof (sorting_canonical _ _ _ _ _ _ _ Hm W N D I S Es Es') as C.
    destruct (permute_ok g p P) as (g1 & E1 & R1). assert (g1 = g') by congruence. subst g1. clear E1.
    assert (N' : g_n g' = g_n g) by apply R1.
    assert (W' : well_sized g') by apply S.
    assert (I' : md = TopAlternating -> integer_rows g').
    { intros M i j Hi Hj. destruct S as (_ & _ & Pf & X). rewrite N' in Hi, Hj. destruct (X i Hi) as [_ Xi], (X j Hj) as [_ Xj].
      destruct (perm_facts _ _ P) as (_ & _ & B).
      destruct (I M (np p i) (np p j) (B i Hi) (B j Hj)) as (z & Hz). exists z. rewrite <- Hz, Xi, Xj. ring. }
    rewrite sorting_eq in Es by assumption. rewrite sorting_eq in Es' by (try assumption; lia).
    assert (Ps : is_perm (g_n g) (map Z.of_nat s)) by (injection Es as <-; apply perm_of_nat, lexsort_perm).
    assert (Ps' : is_perm (g_n g) (map Z.of_nat s')) by (injection Es' as <-; rewrite N'; apply perm_of_nat, lexsort_perm).
    destruct (permute_ok g _ Ps) as (h1 & F1 & R2). assert (h1 = h) by congruence. subst h1.
    destruct (permute_ok g' (map Z.of_nat s')) as (h2 & F2 & R3); [rewrite N'; assumption|]. assert (h2 = h') by congruence. subst h2.
    apply (relabelled_same (fun i => nth i s 0%nat) g).
    - apply (relabelled_ext (np (map Z.of_nat s))); [intros; apply np_map|assumption].
    - apply (relabelled_ext (fun i => np p (np (map Z.of_nat s') i))).
      + intros i Hi. rewrite np_map, <- C. destruct (perm_facts _ _ Ps') as (Ls' & _ & _). rewrite map_length in Ls'.
        rewrite (nth_indep (map (np p) s') 0%nat (np p 0)) by (rewrite map_length; lia). rewrite map_nth. reflexivity.
      + eapply relabelled_trans; [|eassumption|exact R3]. apply (perm_facts _ _ Ps').
  Qed.
End Canonical.

(** * Neighbours of integer sites *)
Lemma abs_int z : Qabs (inject_Z z) = inject_Z (Z.abs z).
Proof. reflexivity. Qed.

Lemma rint_eq0 z : (rint (inject_Z z) =? 0)%Z = (z =? 0)%Z.
Proof. rewrite rint_int. reflexivity. Qed.

Lemma neighbor_int a b :
  (x_neighbor (inject_Z a) (inject_Z b) = true <-> (Z.abs a = 1 /\ b = 0)%Z) /\
  (y_neighbor (inject_Z a) (inject_Z b) = true <-> (a = 0 /\ Z.abs b = 1)%Z) /\
  (neighbor (inject_Z a) (inject_Z b) = true <-> (Z.abs a = 1 /\ b = 0 \/ a = 0 /\ Z.abs b = 1)%Z).
Proof.
  assert (M : forall z, (rint (Qabs (inject_Z z) - 1) =? 0)%Z = (Z.abs z - 1 =? 0)%Z).
  { intros z. rewrite abs_int. rewrite <- (rint_eq0 (Z.abs z - 1)).
    assert (E : inject_Z (Z.abs z) - 1 == inject_Z (Z.abs z - 1)) by (unfold Z.sub; rewrite inject_Z_plus; reflexivity).
    rewrite (rint_comp _ _ E). reflexivity. }
  assert (M' : forall z, (rint (Qabs (inject_Z z)) =? 0)%Z = (Z.abs z =? 0)%Z) by (intros z; rewrite abs_int; apply rint_eq0).
  unfold neighbor, x_neighbor, y_neighbor. rewrite !M, !M', !orb_true_iff, !andb_true_iff, !Z.eqb_eq. lia.
Qed.

(** * Equality *)
Lemma list_eqb_spec a b : list_eqb a b = true <-> Forall2 Qeq a b.
Proof.
  revert b. induction a as [|x a IH]; intros [|y b]; cbn; split; intros H; try discriminate; try constructor; try (inversion H; fail).
  - apply andb_true_iff in H as [A B]. apply Qeq_bool_iff. assumption.
  - apply andb_true_iff in H as [A B]. apply IH. assumption.
  - inversion H; subst. apply andb_true_iff. split; [apply Qeq_bool_iff; assumption|apply IH; assumption].
Qed.
Definition same_mat (A B : mat Q) : Prop :=
  nrow A = nrow B /\ ncol A = ncol B /\ forall i j, (i < nrow A)%nat -> (j < ncol A)%nat -> ent A i j == ent B i j.
Lemma mat_eqb_spec A B : mat_eqb A B = true <-> same_mat A B.
Proof.
  unfold mat_eqb, same_mat. rewrite !andb_true_iff, !Nat.eqb_eq, forallb_forall. split.
  - intros [[H1 H2] H]. do 2 (split; [assumption|]). intros i j Hi Hj. specialize (H i). rewrite in_seq in H.
    specialize (H ltac:(lia)). rewrite forallb_forall in H. apply Qeq_bool_iff, H, in_seq. lia.
  - intros (H1 & H2 & H). split; [split; assumption|]. intros i Hi. apply in_seq in Hi. apply forallb_forall. intros j Hj.
    apply in_seq in Hj. apply Qeq_bool_iff, H; lia.
Qed.
Lemma vec_eqb_spec a b : vec_eqb a b = true <-> same_point a b.
Proof. unfold vec_eqb, same_point. rewrite andb_true_iff, !Qeq_bool_iff. reflexivity. Qed.

Section Eq.
  Context {Ph : Type}.
  Implicit Type a b : geometry Ph.

  (** What a positive answer says. *)
  Definition agree a b : Prop :=
    Forall2 Qeq (g_x a) (g_x b) /\ Forall2 Qeq (g_y a) (g_y b) /\
    same_mat (g_xd a) (g_xd b) /\ same_mat (g_yd a) (g_yd b) /\ same_mat (g_adj a) (g_adj b) /\
    match g_lat a, g_lat b with
    | None, None => True
    | Some l, Some m =>
        same_point (lt_v1 l) (lt_v1 m) /\ same_point (lt_v2 l) (lt_v2 m) /\
        same_point (lt_p1 l) (lt_p1 m) /\ same_point (lt_p2 l) (lt_p2 m) /\
        lt_phase1 l == lt_phase1 m /\ lt_phase2 l == lt_phase2 m
    | _, _ => False
    end.

  Lemma equality_answer a b : (g_lat a = None <-> g_lat b = None) ->
    exists r, geometry_eqb a b = Ok r /\ (r = true <-> agree a b).
  Proof.
    intros S. unfold geometry_eqb, agree.
    destruct (list_eqb (g_x a) (g_x b) && list_eqb (g_y a) (g_y b) && mat_eqb (g_xd a) (g_xd b) &&
      mat_eqb (g_yd a) (g_yd b) && mat_eqb (g_adj a) (g_adj b)) eqn:E.
    - rewrite !andb_true_iff, !list_eqb_spec, !mat_eqb_spec in E. destruct E as ((((E1 & E2) & E3) & E4) & E5).
      destruct (g_lat a) as [l|], (g_lat b) as [m|]; cbn [lattice_opt_eqb].
      + eexists. split; [reflexivity|]. unfold lattice_eqb. rewrite !andb_true_iff, !vec_eqb_spec, !Qeq_bool_iff. tauto.
      + exfalso. destruct S as [_ S]. discriminate (S eq_refl).
      + exfalso. destruct S as [S _]. discriminate (S eq_refl).
      + exists true. split; [reflexivity|]. tauto.
    - exists false. split; [reflexivity|]. split; [discriminate|]. intros (E1 & E2 & E3 & E4 & E5 & _).
      apply list_eqb_spec in E1, E2. apply mat_eqb_spec in E3, E4, E5. rewrite E1, E2, E3, E4, E5 in E. discriminate.
  Qed.

  Lemma agree_refl a : agree a a.
  Proof.
    assert (forall l, Forall2 Qeq l l) as F by (induction l; constructor; [reflexivity|assumption]).
    assert (forall M, same_mat M M) as G by (intros M; repeat split; intros; reflexivity).
    unfold agree. repeat (split; [auto|]). destruct (g_lat a); [|exact I]. repeat split; reflexivity.
  Qed.
  Lemma agree_sym a b : agree a b -> agree b a.
  Proof.
    assert (F : forall l m, Forall2 Qeq l m -> Forall2 Qeq m l) by (induction 1; constructor; [symmetry; assumption|assumption]).
    assert (G : forall M N, same_mat M N -> same_mat N M).
    { intros M N (A & B & C). unfold same_mat. rewrite A, B in C. do 2 (split; [symmetry; assumption|]). intros; symmetry; auto. }
    assert (H : forall v w, same_point v w -> same_point w v) by (intros v w [A B]; split; symmetry; assumption).
    unfold agree. intros (A & B & C & D & E & L). repeat (split; [auto|]).
    destruct (g_lat a), (g_lat b); try assumption. destruct L as (L1 & L2 & L3 & L4 & L5 & L6).
    repeat (split; [auto; symmetry; assumption|]). symmetry; assumption.
  Qed.

  Lemma equality_refl a : geometry_eqb a a = Ok true.
  Proof.
    destruct (equality_answer a a) as (r & -> & H); [reflexivity|]. rewrite (proj2 H); [reflexivity|apply agree_refl].
  Qed.
  Lemma equality_sym a b : geometry_eqb a b = geometry_eqb b a.
  Proof.
    destruct (g_lat a) as [l|] eqn:La, (g_lat b) as [m|] eqn:Lb.
    1,4: destruct (equality_answer a b) as (r & -> & H); [rewrite La, Lb; split; (discriminate || auto)|];
         destruct (equality_answer b a) as (r' & -> & H'); [rewrite La, Lb; split; (discriminate || auto)|]; f_equal;
         apply eq_true_iff_eq; rewrite H, H'; split; apply agree_sym.
    all: unfold geometry_eqb; rewrite La, Lb; cbn [lattice_opt_eqb];
      assert (F : forall l m, list_eqb l m = list_eqb m l) by
        (intros x y; apply eq_true_iff_eq; rewrite !list_eqb_spec; split; induction 1; constructor; (symmetry; assumption) || assumption);
      assert (G : forall M N, mat_eqb M N = mat_eqb N M) by
        (intros M N; apply eq_true_iff_eq; rewrite !mat_eqb_spec; split; intros (A & B & C); unfold same_mat; rewrite A, B in C;
         do 2 (split; [symmetry; assumption|]); intros; symmetry; auto);
      rewrite (F (g_x a)), (F (g_y a)), (G (g_xd a)), (G (g_yd a)), (G (g_adj a)); reflexivity.
  Qed.
End Eq.
