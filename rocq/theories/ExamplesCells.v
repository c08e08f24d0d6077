(** Cases that meet the hypotheses of the theorems about lattice cells. *)
From Coq Require Import List Arith Lia QArith Qabs ZArith Bool.
From Verif Require Import Scalars Res Matrix ModelGeometry ModelPhase SpecGeometry SpecCells GeoCount GeoNear GeoTriangle GeoCells GeoCells2 ExamplesGeometry.
Import ListNotations.
Local Open Scope Q_scope.

(** ** C141 *)
Example ex_cell_count : exists L sites, new_lattice (1, 0) (0, 1) [vzero] (2, 1) (-(1), 2) 0 0 = Ok L /\
  unique_sites L = Ok sites /\ length sites = 5%nat.
Proof.
  eexists. eexists. split; [vm_compute; reflexivity|]. split; vm_compute; reflexivity.
Qed.
Example ex_float_height : triangle_height float_height.
Proof. exact float_triangle. Qed.
Example ex_hexagon_cell : exists g, hexagonal_geometry phase_matrix valid_phases float_height 2 2 0 0 false false = Ok g /\ g_n g = 16%nat.
Proof.
  destruct (hex_total float_height 2 2 0 0 false false float_triangle ltac:(lia) ltac:(lia) ltac:(discriminate) ltac:(discriminate)) as [g H].
  exists g. split; [assumption|]. destruct (hex_cell phase_matrix valid_phases float_height 2 2 0 0 false false g float_triangle ltac:(lia) ltac:(lia) H) as [E _]. exact E.
Qed.
Example ex_told_apart : told_apart (1, 0) (0, 1) [vzero] /\ proper_basis (1, 0) (0, 1) [vzero].
Proof. split; [exact til_apart|exact til_proper]. Qed.

(** ** C142 *)
Example ex_tilted_ten : exists g k l, tilted_geometry phase_matrix valid_phases 3 1 0 0 false false = Ok g /\
  (k < g_n g)%nat /\ (l < g_n g)%nat /\ same_point (spot g k) (ipoint 0 0) /\ same_point (spot g l) (ipoint 2 3) /\ ent (g_adj g) k l = 1.
Proof.
  destruct (til_total 3 1 0 0 false false ltac:(lia)) as [g H].
  assert (HN : (1 <= 3 * 3 + 1 * 1 <= 100000000000000)%Z) by lia.
  destruct (til_cell _ _ _ _ _ _ _ _ _ HN H) as (_ & _ & A).
  destruct (A 0%Z 0%Z) as (k & [Hk S] & _); [lia|lia|]. destruct (A 2%Z 3%Z) as (l & [Hl T] & _); [lia|lia|].
  exists g, k, l. repeat (split; [assumption|]).
  destruct (til_neighbours _ _ _ _ _ _ _ _ _ HN H k l _ _ _ _ Hk Hl S T) as (_ & _ & B).
  apply B.
  - intros ->. destruct (ipoint_inj _ _ _ _ (GeoReduce.same_trans _ _ _ (GeoReduce.same_sym _ _ S) T)). discriminate.
  - exists 1%Z, 1%Z. split; [discriminate|]. split; [discriminate|]. unfold square_step. lia.
Qed.
Example ex_torus_nine : exists g k l, triangle_geometry phase_matrix valid_phases float_height 3 3 0 0 false false = Ok g /\
  (k < g_n g)%nat /\ (l < g_n g)%nat /\ stands float_height (spot g k) 0 0 /\ stands float_height (spot g l) 2 2 /\ ent (g_adj g) k l = 1.
Proof.
  destruct (tri_total float_height 3 3 0 0 false false float_triangle ltac:(lia) ltac:(lia) ltac:(discriminate) ltac:(discriminate)) as [g H].
  destruct (tri_cell phase_matrix valid_phases float_height 3 3 0 0 false false g float_triangle ltac:(lia) ltac:(lia) H) as (_ & _ & A).
  destruct (A 0%Z 0%Z) as (k & [Hk S] & _); [lia|lia|]. destruct (A 0%Z 2%Z) as (l & [Hl T] & _); [lia|lia|].
  exists g, k, l. repeat (split; [assumption|]).
  apply (tri_few _ _ 3 3 0 0 false false g ltac:(lia) ltac:(lia) ltac:(lia) ltac:(lia) H k l 0 0 0 2 Hk Hl S T).
  exists 0%Z, 1%Z. split; [discriminate|]. split; [discriminate|]. unfold triangular_step. lia.
Qed.
Example ex_hexagon_wrap : exists g k l, hexagonal_geometry phase_matrix valid_phases float_height 2 2 0 0 false false = Ok g /\
  (k < g_n g)%nat /\ (l < g_n g)%nat /\ stands float_height (spot g k) 2 0 /\ stands float_height (spot g l) 1 3 /\ ent (g_adj g) k l = 1.
Proof.
  destruct (hex_total float_height 2 2 0 0 false false float_triangle ltac:(lia) ltac:(lia) ltac:(discriminate) ltac:(discriminate)) as [g H].
  destruct (hex_cell phase_matrix valid_phases float_height 2 2 0 0 false false g float_triangle ltac:(lia) ltac:(lia) H) as (_ & _ & A).
  destruct (A 2%Z 0%Z) as (k & [Hk S] & _); [lia|lia|split; [exists 1%Z; lia|intros [z Hz]; lia]|].
  destruct (A 1%Z 3%Z) as (l & [Hl T] & _); [lia|lia|split; [exists (-1)%Z; lia|intros [z Hz]; lia]|].
  exists g, k, l. repeat (split; [assumption|]).
  apply (hex_few _ _ 2 2 0 0 false false g ltac:(lia) ltac:(lia) H k l 2 0 1 3 Hk Hl S T).
  exists 0%Z, 1%Z. split; [discriminate|]. split; [discriminate|]. unfold unit_step. lia.
Qed.
