(** Geometries are built from sensible matrices only; small functions. *)
From Coq Require Import List Arith Lia Bool QArith Qreals Reals Lra ZArith.
From Verif Require Import Scalars Res Matrix ModelGeometry ModelPhase SpecGeometry GeoArith GeoReduce GeoSites GeoSites2 GeoDist GeoPhase GeoApi GeoTotal SpecValid ModelFermiGas ModelSmall.
Import ListNotations.

Lemma adjacency_iff n A : validate_adjacency n A = true <-> sensible_adjacency n A.
Proof.
  unfold validate_adjacency, sensible_adjacency, mat_eqb, mtr. cbn [nrow ncol ent]. rewrite !andb_true_iff, !forallb_forall, !Nat.eqb_eq. split.
  - intros ((((_ & _) & S) & Z) & R & C). split; [exact R|]. split; [exact C|]. intros i j Hi Hj. rewrite R, C in *.
    specialize (S i ltac:(apply in_seq; lia)). specialize (Z i ltac:(apply in_seq; lia)). rewrite forallb_forall in S, Z.
    specialize (S j ltac:(apply in_seq; lia)). specialize (Z j ltac:(apply in_seq; lia)). split; [apply Qeq_bool_iff; exact S|]. apply orb_true_iff in Z as [Z|Z]; [left | right]; apply Qeq_bool_iff; exact Z.
  - intros (R & C & W). rewrite R, C. repeat split; try lia; intros i Hi; apply in_seq in Hi; apply forallb_forall; intros j Hj; apply in_seq in Hj; destruct (W i j ltac:(lia) ltac:(lia)) as (W1 & W2).
    + apply Qeq_bool_iff. exact W1.
    + apply orb_true_iff. destruct W2 as [W2|W2]; [left | right]; apply Qeq_bool_iff; exact W2.
Qed.
Local Open Scope R_scope.
Lemma phases_iff n P : valid_phases n P = true <-> sensible_phases slack n P.
Proof.
  unfold valid_phases, sensible_phases. rewrite !andb_true_iff, !forallb_forall, !Nat.eqb_eq.
  assert (T : forall i j, rounds_to_0 (modulus (cr_sub (ent P i j) (cr_conj (ent P j i)))) && rounds_to_1 (modulus (ent P i j)) = true <->
    length_of (fst (ent P i j) - fst (ent P j i), snd (ent P i j) + snd (ent P j i)) <= slack /\ Rabs (length_of (ent P i j) - 1) <= slack).
  { intros i j. unfold rounds_to_0, rounds_to_1. rewrite !andb_true_iff, !rle_b_true.
    replace (modulus (cr_sub (ent P i j) (cr_conj (ent P j i)))) with (length_of (fst (ent P i j) - fst (ent P j i), snd (ent P i j) + snd (ent P j i))).
    - replace (tiny / 2) with slack by (unfold tiny, slack; field). change (modulus (ent P i j)) with (length_of (ent P i j)). split; intros (A & B); (split; [exact A|]).
      + apply Rabs_le. lra.
      + pose proof (Rle_abs (length_of (ent P i j) - 1)). pose proof (Rle_abs (- (length_of (ent P i j) - 1))). rewrite Rabs_Ropp in *. lra.
    - unfold modulus, length_of. f_equal. cbn. ring. }
  split.
  - intros ((R & C) & W). split; [exact R|]. split; [exact C|]. intros i j Hi Hj. specialize (W i ltac:(apply in_seq; lia)). rewrite forallb_forall in W. apply T, W, in_seq. lia.
  - intros (R & C & W). split; [split; assumption|]. intros i Hi. apply in_seq in Hi. apply forallb_forall. intros j Hj. apply in_seq in Hj. apply T, W; lia.
Qed.

Lemma checked_iff (g : geometry CR) : validate_geometry valid_phases g = true <-> sensible_adjacency (g_n g) (g_adj g) /\ sensible_phases slack (g_n g) (g_phase g).
Proof. unfold validate_geometry. rewrite andb_true_iff, adjacency_iff, phases_iff. reflexivity. Qed.
Theorem lattice_sensible xs ys L g : c_lattice_geometry xs ys L = Ok g -> g_n g = length xs /\ sensible_adjacency (length xs) (g_adj g) /\ sensible_phases slack (length xs) (g_phase g).
Proof.
  unfold c_lattice_geometry, lattice_geometry. destruct (reduced_distance L xs ys) as [d|]; cbn [bind]; [|discriminate]. unfold checked. match goal with |- context [validate_geometry _ ?G] => pose proof (checked_iff G) as C; destruct (validate_geometry valid_phases G) end; [|discriminate].
  intros Q. injection Q as <-. split; [reflexivity|]. apply (proj1 C eq_refl).
Qed.
Theorem free_sensible xs ys adj ph g : c_free_geometry xs ys adj ph = Ok g -> g_n g = length xs /\ sensible_adjacency (length xs) (g_adj g) /\ sensible_phases slack (length xs) (g_phase g).
Proof.
  unfold c_free_geometry, free_geometry. destruct (site_distance xs ys) as [d|]; cbn [bind]; [|discriminate]. unfold checked. match goal with |- context [validate_geometry _ ?G] => pose proof (checked_iff G) as C; destruct (validate_geometry valid_phases G) end; [|discriminate].
  intros Q. injection Q as <-. split; [reflexivity|]. apply (proj1 C eq_refl).
Qed.
Theorem free_accepts xs ys A P : length ys = length xs -> sensible_adjacency (length xs) A -> sensible_phases slack (length xs) P ->
  exists g, c_free_geometry xs ys (Some A) (Some P) = Ok g /\ g_lat g = None /\ g_x g = xs /\ g_y g = ys /\ g_adj g = A /\ g_phase g = P.
Proof.
  intros L SA SP. destruct (site_distance_ok xs ys L) as (rows & ER & _). unfold c_free_geometry, free_geometry. rewrite ER. cbn [bind]. unfold checked.
  match goal with |- context [validate_geometry _ ?G] => pose proof (checked_iff G) as C; destruct (validate_geometry valid_phases G) end.
  - eexists. split; [reflexivity|]. repeat split.
  - discriminate (proj2 C (ltac:(split; assumption))).
Qed.
Theorem free_refuses xs ys A P : length ys = length xs -> ~ (sensible_adjacency (length xs) A /\ sensible_phases slack (length xs) P) -> c_free_geometry xs ys (Some A) (Some P) = Raise ValueError.
Proof.
  intros L N. destruct (site_distance_ok xs ys L) as (rows & ER & _). unfold c_free_geometry, free_geometry. rewrite ER. cbn [bind]. unfold checked.
  match goal with |- context [validate_geometry _ ?G] => pose proof (checked_iff G) as C; destruct (validate_geometry valid_phases G) end; [|reflexivity].
  exfalso. apply N. exact (proj1 C eq_refl).
Qed.
Lemma neighbor_opp a b a' b' : (a' == - a)%Q -> (b' == - b)%Q -> neighbor a' b' = neighbor a b.
Proof.
  intros HA HB. unfold neighbor, x_neighbor, y_neighbor.
  assert (EA : (Qabs.Qabs a' == Qabs.Qabs a)%Q) by (rewrite HA; apply Qabs.Qabs_opp). assert (EB : (Qabs.Qabs b' == Qabs.Qabs b)%Q) by (rewrite HB; apply Qabs.Qabs_opp).
  assert (EA1 : (Qabs.Qabs a' - 1 == Qabs.Qabs a - 1)%Q) by (rewrite EA; reflexivity). assert (EB1 : (Qabs.Qabs b' - 1 == Qabs.Qabs b - 1)%Q) by (rewrite EB; reflexivity).
  rewrite (rint_comp _ _ EA), (rint_comp _ _ EB), (rint_comp _ _ EA1), (rint_comp _ _ EB1). reflexivity.
Qed.
Lemma slack_pos : 0 < slack. Proof. unfold slack. pose proof (pow_lt 10 14 ltac:(lra)). apply Rdiv_lt_0_compat; [apply Rinv_0_lt_compat; assumption | lra]. Qed.
Lemma ones_sensible n : sensible_phases slack n (Mat n n (fun _ _ => (1, 0))).
Proof.
  pose proof slack_pos as S. split; [reflexivity|]. split; [reflexivity|]. intros i j Hi Hj. cbn [ent]. unfold length_of. cbn [fst snd].
  replace ((1 - 1) * (1 - 1) + (0 + 0) * (0 + 0)) with 0 by ring. rewrite sqrt_0. replace (1 * 1 + 0 * 0) with 1 by ring. rewrite sqrt_1, Rminus_diag_eq, Rabs_R0 by reflexivity. lra.
Qed.
Theorem free_default xs ys : length ys = length xs -> exists g, c_free_geometry xs ys None None = Ok g.
Proof.
  intros L. destruct (site_distance_ok xs ys L) as (rows & ER & V). unfold c_free_geometry, free_geometry. rewrite ER. cbn [bind]. unfold checked.
  match goal with |- context [validate_geometry _ ?G] => pose proof (checked_iff G) as C; destruct (validate_geometry valid_phases G) end; [eexists; reflexivity|]. exfalso.
  cbn [g_n g_adj g_phase] in C. discriminate (proj2 C (ltac:(split; [|apply ones_sensible]; split; [reflexivity|]; split; [reflexivity|]; intros i j Hi Hj; cbn [ent]; split;
    [rewrite (neighbor_opp (fst (nth i (nth j rows []) vzero)) (snd (nth i (nth j rows []) vzero))); [reflexivity | | ]; rewrite !V by assumption; unfold vsub; cbn [fst snd]; rewrite !Qred_correct; ring
    | match goal with |- context [neighbor ?a ?b] => destruct (neighbor a b) end; cbn; [right | left]; reflexivity]))).
Qed.

(** ** Small functions *)
Theorem unequal (Ph : Type) (a b : geometry Ph) : (g_lat a = None <-> g_lat b = None) -> exists r, geometry_neb a b = Ok r /\ (r = true <-> ~ agree a b).
Proof.
  intros H. destruct (equality_answer a b H) as (r & E & I). exists (negb r). unfold geometry_neb. rewrite E. split; [reflexivity|]. rewrite negb_true_iff, <- I. destruct r; split; congruence.
Qed.
Theorem lattice_unequal a b : lattice_neb a b = true <-> ~ (same_point (lt_v1 a) (lt_v1 b) /\ same_point (lt_v2 a) (lt_v2 b) /\ same_point (lt_p1 a) (lt_p1 b) /\ same_point (lt_p2 a) (lt_p2 b) /\ (lt_phase1 a == lt_phase1 b)%Q /\ (lt_phase2 a == lt_phase2 b)%Q).
Proof.
  unfold lattice_neb, lattice_eqb. rewrite negb_true_iff. rewrite <- !vec_eqb_spec, <- !Qeq_bool_iff. destruct (vec_eqb (lt_v1 a) (lt_v1 b)), (vec_eqb (lt_v2 a) (lt_v2 b)), (vec_eqb (lt_p1 a) (lt_p1 b)), (vec_eqb (lt_p2 a) (lt_p2 b)), (Qeq_bool (lt_phase1 a) (lt_phase1 b)), (Qeq_bool (lt_phase2 a) (lt_phase2 b)); cbn; split; intuition congruence.
Qed.
Theorem unit_cell L xs ys md : generators (lt_p1 L) (lt_p2 L) -> md <> OtherMode -> length ys = length xs ->
  exists l, reduce_to_unit_cell L xs ys md = Ok l /\ length l = length xs /\
    (forall i, (i < length xs)%nat -> exists r n1 n2, nth_error l i = Some (r, n1, n2) /\ same_point (nth i xs 0%Q, nth i ys 0%Q) (moved r (inject_Z n1) (lt_p1 L) (inject_Z n2) (lt_p2 L))) /\
    (forall i j, (i < length xs)%nat -> (j < length xs)%nat -> equivalent (lt_p1 L) (lt_p2 L) (nth i xs 0%Q, nth i ys 0%Q) (nth j xs 0%Q, nth j ys 0%Q) ->
       exists r n1 n2 r' n1' n2', nth_error l i = Some (r, n1, n2) /\ nth_error l j = Some (r', n1', n2') /\ same_point r r').
Proof.
  intros G M LY. set (p1 := lt_p1 L) in *. set (p2 := lt_p2 L) in *.
  assert (W : forall v, reduce_vector p1 p2 md v = Ok (match reduce_vector p1 p2 md v with Ok r => r | Raise _ => (v, 0%Z, 0%Z) end)) by (intros v; destruct (reduce_ok p1 p2 md v G M) as (r & n1 & n2 & -> & _); reflexivity).
  set (h := fun v => match reduce_vector p1 p2 md v with Ok r => r | Raise _ => (v, 0%Z, 0%Z) end) in *.
  assert (NE : forall i, (i < length xs)%nat -> nth_error (map h (combine xs ys)) i = Some (h (nth i xs 0%Q, nth i ys 0%Q))).
  { intros i Hi. rewrite nth_error_map, (nth_error_nth' _ (0%Q, 0%Q)) by (rewrite combine_length; lia). rewrite combine_nth by lia. reflexivity. }
  exists (map h (combine xs ys)). split; [|split; [|split]].
  - unfold reduce_to_unit_cell, reduce_vectors. fold p1 p2. rewrite LY, Nat.eqb_refl. cbn [negb]. rewrite (GeoSites2.rmap_total _ h) by (intros; apply W). destruct md; congruence.
  - rewrite map_length. etransitivity; [apply combine_length|]. rewrite LY. apply Nat.min_id.
  - intros i Hi. rewrite (NE i Hi). destruct (reduce_ok p1 p2 md (nth i xs 0%Q, nth i ys 0%Q) G M) as (r & n1 & n2 & E & S & _). exists r, n1, n2. unfold h. rewrite E. split; [reflexivity | exact S].
  - intros i j Hi Hj EQ. rewrite (NE i Hi), (NE j Hj). destruct (reduce_canonical p1 p2 md _ _ G M EQ) as (r & r' & n1 & n2 & n1' & n2' & E & E' & S). exists r, n1, n2, r', n1', n2'. unfold h. rewrite E, E'. auto.
Qed.
Theorem unit_cell_again L xs ys md l : generators (lt_p1 L) (lt_p2 L) -> md <> OtherMode -> length ys = length xs -> reduce_to_unit_cell L xs ys md = Ok l ->
  let xs' := map (fun t => fst (fst (fst t))) l in let ys' := map (fun t => snd (fst (fst t))) l in
  exists l', reduce_to_unit_cell L xs' ys' md = Ok l' /\ Forall2 (fun t t' => same_point (fst (fst t)) (fst (fst t')) /\ snd (fst t') = 0%Z /\ snd t' = 0%Z) l l'.
Proof.
  intros G M LY E. cbv zeta. unfold reduce_to_unit_cell, reduce_vectors in *. rewrite LY, Nat.eqb_refl in E. cbn [negb] in E. rewrite !map_length, Nat.eqb_refl. cbn [negb].
  assert (E' : rmap (reduce_vector (lt_p1 L) (lt_p2 L) md) (combine xs ys) = Ok l) by (destruct md; congruence). clear E.
  assert (Q : exists l', rmap (reduce_vector (lt_p1 L) (lt_p2 L) md) (combine (map (fun t => fst (fst (fst t))) l) (map (fun t => snd (fst (fst t))) l)) = Ok l' /\ Forall2 (fun t t' => same_point (fst (fst t)) (fst (fst t')) /\ snd (fst t') = 0%Z /\ snd t' = 0%Z) l l').
  { revert l E'. induction (combine xs ys) as [|v vs IH]; intros l E'; cbn [rmap] in E'; [injection E' as <-; exists []; split; [reflexivity | constructor]|].
    destruct (reduce_vector (lt_p1 L) (lt_p2 L) md v) as [((r, n1), n2)|] eqn:EV; cbn [bind] in E'; [|discriminate]. destruct (rmap (reduce_vector (lt_p1 L) (lt_p2 L) md) vs) as [bs|]; cbn [bind] in E'; [|discriminate]. injection E' as <-.
    destruct (IH bs eq_refl) as (l' & El & FL). destruct (reduce_idempotent (lt_p1 L) (lt_p2 L) md v r n1 n2 G EV) as (r' & Er & S). cbn [map combine fst snd rmap]. rewrite <- (surjective_pairing r), Er. cbn [bind]. rewrite El. cbn [bind].
    eexists. split; [reflexivity|]. constructor; [|exact FL]. cbn [fst snd]. split; [destruct S as (S1 & S2); split; symmetry; assumption | split; reflexivity]. }
  destruct Q as (l' & El & FL). exists l'. split; [destruct md; congruence | exact FL].
Qed.
