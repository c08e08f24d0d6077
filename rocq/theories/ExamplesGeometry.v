(** Concrete cases meeting the hypotheses of the geometry theorems, and values
    the project's own tests expect. *)
From Coq Require Import List Arith Lia QArith Qabs Qreals Reals ZArith Bool Lqa Lra Psatz Permutation.
From Verif Require Import Scalars Res Matrix ModelGeometry ModelPhase SpecGeometry GeoArith GeoReduce GeoSites GeoSites2 GeoDist
  GeoSquare GeoPerm GeoSort GeoPhase GeoApi GeoTotal RefuteGeometry.
Import ListNotations.
Local Open Scope Q_scope.

(** Geometries with trivial phases, which compute. *)
Definition no_phases (L : lattice) (n : nat) (xd yd : nat -> nat -> Q) : mat Q := Mat n n (fun _ _ => 1).
Definition any_phases (n : nat) (P : mat Q) : bool := true.
Definition q_square := square_geometry no_phases any_phases.
Definition q_tilted := tilted_geometry no_phases any_phases.
Definition q_hexagonal := hexagonal_geometry no_phases any_phases.
Definition q_triangle := triangle_geometry no_phases any_phases.
Definition q_free := free_geometry 1 any_phases.

Definition rows_of (n : nat) (M : mat Q) : list (list Q) :=
  map (fun i => map (fun j => Qred (ent M i j)) (seq 0 n)) (seq 0 n).
Definition adjacency (g : res (geometry Q)) : option (list (list Q)) :=
  match g with Ok g => Some (rows_of (g_n g) (g_adj g)) | Raise _ => None end.
Definition n_sites (g : res (geometry Q)) : option nat := match g with Ok g => Some (g_n g) | Raise _ => None end.

(** ** C31 *)
Example ex_generators : generators (3, 0) (1, 2) /\ generators (3, 1) (0, 0).
Proof.
  assert (Z : is_zero (0, 0)) by (split; reflexivity).
  split; repeat split; try (right; reflexivity); try (left; exact Z); try (intros _ _; discriminate).
  intros _ L. exfalso. exact (zero_not_long _ Z L).
Qed.
Example ex_reduce : reduce_vector (3, 0) (1, 2) Positive (5, -(1)) = Ok ((3, 1), 1%Z, (-1)%Z) /\
  reduce_vector (3, 0) (1, 2) Centered (5, -(1)) = Ok ((-(1), -(1)), 2%Z, 0%Z).
Proof. split; vm_compute; reflexivity. Qed.
Example ex_equivalent : equivalent (3, 0) (1, 2) (5, -(1)) (3, 1).
Proof. exists (-1)%Z, 1%Z. split; reflexivity. Qed.

(** ** C32: a tilted cluster of ten sites *)
Example ex_tilted_lattice : exists L, new_lattice (1, 0) (0, 1) [vzero] (3, 1) (-(1), 3) 0 0 = Ok L.
Proof. eexists. vm_compute. reflexivity. Qed.
Example ex_tilted_commensurate : commensurate (1, 0) (0, 1) (3, 1) /\ commensurate (1, 0) (0, 1) (-(1), 3) /\
  long (3, 1) /\ long (-(1), 3) /\ forall u, In u [(1, 0); (0, 1); vzero] -> decimal_point u.
Proof.
  split; [exists 3%Z, 1%Z; split; reflexivity|]. split; [exists (-1)%Z, 3%Z; split; reflexivity|].
  split; [reflexivity|]. split; [reflexivity|].
  intros u [<-|[<-|[<-|[]]]]; split; first [exists 0%Z; reflexivity|exists 100000000000000%Z; reflexivity].
Qed.
Example ex_tilted_sites : n_sites (q_tilted 3 1 0 0 false false) = Some 10%nat.
Proof. vm_compute. reflexivity. Qed.
Example ex_hexagonal_sites : n_sites (q_hexagonal (866 # 1000) 2 2 0 0 false false) = Some 16%nat.
Proof. vm_compute. reflexivity. Qed.

(** ** C33, C34 *)
Example ex_rejected : is_ok (new_lattice (1, 0) (0, 1) [vzero] (5 # 2, 0) (0, 3) 0 0) = false /\
  reduce_vector (1, 0) (0, 1) Positive (5 # 2, 0) = Ok ((1 # 2, 0), 2%Z, 0%Z).
Proof. split; vm_compute; reflexivity. Qed.
Example ex_distance : exists L d, new_lattice (1, 0) (0, 1) [vzero] (4, 0) (0, 3) 0 0 = Ok L /\
  reduced_distance L [0; 3; 2] [0; 0; 2] = Ok d /\ d_x d 1 0 == -(1) /\ d_x d 0 1 == 1 /\ d_y d 2 0 == -(1) /\ d_x d 2 0 == -(2).
Proof. do 2 eexists. split; [vm_compute; reflexivity|]. split; [vm_compute; reflexivity|]. repeat split; vm_compute; reflexivity. Qed.

(** ** C35: values of test_geometry: a 3x1 ring, a 3x2 cluster *)
Example ex_ring_adjacency : adjacency (q_square 3 1 0 0 false true) = Some [[0; 1; 1]; [1; 0; 1]; [1; 1; 0]].
Proof. vm_compute. reflexivity. Qed.
Example ex_square_adjacency : adjacency (q_square 3 2 0 0 true true) =
  Some [[0; 1; 1; 0; 0; 0]; [1; 0; 0; 1; 0; 0]; [1; 0; 0; 1; 1; 0]; [0; 1; 1; 0; 0; 1]; [0; 0; 1; 0; 0; 1]; [0; 0; 0; 1; 1; 0]].
Proof. vm_compute. reflexivity. Qed.
Example ex_square_accepted : exists g, c_square_geometry 3 2 (1 # 2) (1 # 3) false true = Ok g.
Proof. apply square_total; lia || (intros; discriminate) || reflexivity. Qed.
Example ex_one_step : one_step false 4 3 /\ ~ one_step true 4 3.
Proof. split; [right; reflexivity|]. intros [H|H]; lia. Qed.

(** ** C36: a ring of three sites with phase 1 *)
Lemma sin_third : (tiny < sin (1 / 3))%R.
Proof.
  assert (0 <= 1 / 3 <= PI)%R as [A B] by (pose proof PI2_1; unfold PI2 in *; lra).
  destruct (SIN (1 / 3) A B) as [H _]. apply (Rlt_le_trans _ (sin_lb (1 / 3))); [|assumption].
  unfold sin_lb, sin_approx, sin_term, tiny. cbn [sum_f_R0]. simpl. lra.
Qed.

Example ex_complex_ring : exists g, c_square_geometry 3 1 1 0 false true = Ok g /\ complex_phases g.
Proof.
  destruct (square_total 3 1 1 0 false true ltac:(lia) ltac:(lia) ltac:(lia) ltac:(lia) ltac:(discriminate) ltac:(reflexivity)) as (g & Hg).
  exists g. split; [assumption|].
  destruct (square_ok phase_matrix valid_phases 3 1 1 0 false true g ltac:(lia) ltac:(lia) ltac:(lia) ltac:(lia) Hg)
    as (N & _ & _ & _ & _ & _ & _ & (L & _ & _ & _ & F1 & F2 & R & E) & _ & D).
  assert (Rv : reciprocal_vects (px false 3) (py true 1) = Ok ((1 # 3, 0), (0, 0))) by (vm_compute; reflexivity).
  assert (R1 : lt_r1 L = (1 # 3, 0)) by congruence. assert (R2 : lt_r2 L = (0, 0)) by congruence. clear R Rv.
  assert (A : forall i j, (i < g_n g)%nat -> (j < g_n g)%nat ->
    ent (g_xd g) i j == - ent (g_xd g) j i /\ ent (g_yd g) i j == - ent (g_yd g) j i).
  { destruct (built (1, 0) (0, 1) [vzero] (3, 0) (0, 1) 1 0 false true g Hg) as (L' & _ & _ & _ & _ & _ & _ & _ & _ & A).
    - right. reflexivity.
    - right. reflexivity.
    - intros i j Hi Hj. destruct (A i j Hi Hj) as (X & Y & _). split; assumption. }
  exists 1%nat, 0%nat. split; [rewrite N; lia|]. split; [rewrite N; lia|]. rewrite E.
  destruct (D 1%nat 0%nat) as (X & Y & _); [rewrite N; lia|rewrite N; lia|].
  assert (T : angle L (ent (g_xd g) 1 0) (ent (g_yd g) 1 0) = (1 / 3)%R).
  { unfold angle. rewrite F1, F2, R1, R2. cbn [fst snd]. transitivity (Q2R (1 # 3)); [|unfold Q2R; cbn [Qnum Qden]; lra].
    apply Qeq_eqR. rewrite X. change (if 0 <=? 1 then _ else _)%nat with 1. ring. }
  pose proof sin_third as S3. assert (0 < tiny)%R by (unfold tiny; simpl; lra).
  destruct (phase_matrix_entries L (g_n g) _ _ A) as (_ & _ & [H1|H1]).
  - rewrite H1. cbn [cexp snd]. rewrite T. lra.
  - exfalso. destruct (H1 1%nat 0%nat) as [_ B]; [rewrite N; lia|rewrite N; lia|]. rewrite T in B.
    rewrite Rabs_pos_eq in B; lra.
Qed.

(** ** C37, C38: a row and a column *)
Example ex_is_perm : is_perm 3 [2; 0; 1]%Z /\ is_perm 3 [1; 2; 0]%Z /\ ~ is_perm 3 [0; 0; 1]%Z /\
  forall i, (i < 3)%nat -> np [2; 0; 1]%Z (np [1; 2; 0]%Z i) = i.
Proof.
  split; [apply perm_test; reflexivity|]. split; [apply perm_test; reflexivity|].
  split; [intros H; apply perm_test in H; discriminate|].
  intros [|[|[|i]]] H; [reflexivity|reflexivity|reflexivity|lia].
Qed.
Definition l_shape : res (geometry Q) := q_free [0; 1; 0] [0; 1; 1] None None.
Definition coords (g : res (geometry Q)) : option (list Q * list Q) := match g with Ok g => Some (g_x g, g_y g) | Raise _ => None end.
Example ex_permuted : coords (g <- l_shape ;; permute_sites g [2; 0; 1]%Z) = Some ([0; 0; 1], [1; 0; 1]).
Proof. vm_compute. reflexivity. Qed.
Example ex_sorted : (g <- l_shape ;; sorting_permutation g TopLeft) = Ok [2; 1; 0]%nat /\
  (g <- l_shape ;; sorting_permutation g BottomRight) = Ok [0; 2; 1]%nat /\
  (g <- l_shape ;; sorting_permutation g TopAlternating) = Ok [2; 1; 0]%nat.
Proof. repeat split; vm_compute; reflexivity. Qed.
Example ex_sorting_hypotheses : exists g, l_shape = Ok g /\ well_sized g /\ (0 < g_n g)%nat /\ distinct_sites g /\ integer_rows g.
Proof.
  eexists. split; [reflexivity|]. split; [split; reflexivity|]. split; [cbn; lia|].
  unfold distinct_sites, integer_rows. cbn [g_n].
  split.
  - intros [|[|[|i]]] [|[|[|j]]] Hi Hj [A B]; try reflexivity; try (cbn in Hi, Hj; lia); vm_compute in A, B; discriminate.
  - intros [|[|[|i]]] [|[|[|j]]] Hi Hj; try (cbn in Hi, Hj; lia);
      first [exists 0%Z; reflexivity|exists 1%Z; reflexivity|exists (-1)%Z; reflexivity].
Qed.

(** ** C40, C41 *)
Example ex_equal_kinds : exists a b, q_square 2 1 0 0 true true = Ok a /\ q_square 2 1 0 0 false true = Ok b /\
  (g_lat a = None <-> g_lat b = None) /\ geometry_eqb a b = Ok false.
Proof. do 2 eexists. split; [vm_compute; reflexivity|]. split; [vm_compute; reflexivity|]. split; [split; discriminate|vm_compute; reflexivity]. Qed.
Example ex_reciprocal : reciprocal_vects (3, 1) (-(1), 3) = Ok ((3 # 10, 1 # 10), (-1 # 10, 3 # 10)) /\
  reciprocal_vects (2, 0) (0, 0) = Ok ((1 # 2, 0), (0, 0)) /\ reciprocal_vects (2, 0) (4, 0) = Raise ValueError.
Proof. repeat split; vm_compute; reflexivity. Qed.
