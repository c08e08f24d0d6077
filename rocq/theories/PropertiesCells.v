(** Property theorems C141, C142: numbers of sites of lattice cells, and the
    neighbours on triangular, hexagonal and tilted square lattices.  [spot g k]
    is the pair of coordinates the geometry lists for site [k].  Theorems only. *)
From Coq Require Import List Arith QArith Qabs ZArith Bool.
From Verif Require Import Scalars Res Matrix ModelGeometry ModelPhase SpecGeometry SpecCells GeoCount GeoNear GeoCells GeoCells2.
Import ListNotations.
Local Open Scope Q_scope.

(** C141: a cell of [n v1 + m v2] and [i v1 + j v2] has |n j - m i| sites for
    each basis vector. *)
Theorem C141_count : forall v1 v2 basis p1 p2 ph1 ph2 L n m i j,
  new_lattice v1 v2 basis p1 p2 ph1 ph2 = Ok L ->
  same_point p1 (moved (0, 0) (inject_Z n) v1 (inject_Z m) v2) ->
  same_point p2 (moved (0, 0) (inject_Z i) v1 (inject_Z j) v2) ->
  long p1 -> long p2 -> proper_basis v1 v2 basis -> told_apart v1 v2 basis ->
  exists sites, unique_sites L = Ok sites /\ length sites = (Z.to_nat (Z.abs (n * j - m * i)) * length basis)%nat.
Proof. exact count_sites. Qed.
Print Assumptions C141_count.

(** The cells of the three constructors. *)
Theorem C141_triangle : forall (Ph : Type) (lp : lattice -> nat -> (nat -> nat -> Q) -> (nat -> nat -> Q) -> mat Ph) (vp : nat -> mat Ph -> bool) h n1 n2 ph1 ph2 o1 o2 g,
  triangle_height h -> (1 <= n1 <= 100000000000000)%Z -> (1 <= n2 <= 100000000000000)%Z ->
  triangle_geometry lp vp h n1 n2 ph1 ph2 o1 o2 = Ok g ->
  g_n g = (Z.to_nat n1 * Z.to_nat n2)%nat /\
  (forall k, (k < g_n g)%nat -> exists a b, (0 <= a < n1)%Z /\ (0 <= b < n2)%Z /\ stands h (spot g k) (2 * a + b) b) /\
  (forall a b, (0 <= a < n1)%Z -> (0 <= b < n2)%Z -> exists! k, (k < g_n g)%nat /\ stands h (spot g k) (2 * a + b) b).
Proof. exact (@tri_cell). Qed.
Print Assumptions C141_triangle.

Theorem C141_hexagon : forall (Ph : Type) (lp : lattice -> nat -> (nat -> nat -> Q) -> (nat -> nat -> Q) -> mat Ph) (vp : nat -> mat Ph -> bool) h n1 n2 ph1 ph2 o1 o2 g,
  triangle_height h -> (1 <= n1 /\ 6 * n1 <= 100000000000000)%Z -> (1 <= n2 /\ 2 * n2 <= 100000000000000)%Z ->
  hexagonal_geometry lp vp h n1 n2 ph1 ph2 o1 o2 = Ok g ->
  g_n g = (4 * Z.to_nat n1 * Z.to_nat n2)%nat /\
  (forall k, (k < g_n g)%nat -> exists X K, (0 <= X < 6 * n1)%Z /\ (0 <= K < 2 * n2)%Z /\ corner X K /\ stands h (spot g k) X K) /\
  (forall X K, (0 <= X < 6 * n1)%Z -> (0 <= K < 2 * n2)%Z -> corner X K -> exists! k, (k < g_n g)%nat /\ stands h (spot g k) X K).
Proof. exact (@hex_cell). Qed.
Print Assumptions C141_hexagon.

Theorem C141_tilted : forall (Ph : Type) (lp : lattice -> nat -> (nat -> nat -> Q) -> (nat -> nat -> Q) -> mat Ph) (vp : nat -> mat Ph -> bool) nr nu ph1 ph2 o1 o2 g,
  (1 <= nr * nr + nu * nu <= 100000000000000)%Z ->
  tilted_geometry lp vp nr nu ph1 ph2 o1 o2 = Ok g ->
  g_n g = Z.to_nat (nr * nr + nu * nu) /\
  (forall k, (k < g_n g)%nat -> exists x y, same_point (spot g k) (ipoint x y) /\
     (0 <= x * nr + y * nu < nr * nr + nu * nu)%Z /\ (0 <= y * nr - x * nu < nr * nr + nu * nu)%Z) /\
  (forall x y, (0 <= x * nr + y * nu < nr * nr + nu * nu)%Z -> (0 <= y * nr - x * nu < nr * nr + nu * nu)%Z ->
     exists! k, (k < g_n g)%nat /\ same_point (spot g k) (ipoint x y)).
Proof. exact (@til_cell). Qed.
Print Assumptions C141_tilted.

(** They are accepted. *)
Theorem C141_triangle_accepted : forall h n1 n2 ph1 ph2 o1 o2, triangle_height h -> (1 <= n1)%Z -> (1 <= n2)%Z ->
  (n1 = 1 -> o1 = true)%Z -> (n2 = 1 -> o2 = true)%Z ->
  exists g, triangle_geometry phase_matrix valid_phases h n1 n2 ph1 ph2 o1 o2 = Ok g.
Proof. exact tri_total. Qed.
Print Assumptions C141_triangle_accepted.

Theorem C141_hexagon_accepted : forall h n1 n2 ph1 ph2 o1 o2, triangle_height h -> (1 <= n1)%Z -> (1 <= n2)%Z ->
  (n1 = 1 -> o1 = true)%Z -> (n2 = 1 -> o2 = true)%Z ->
  exists g, hexagonal_geometry phase_matrix valid_phases h n1 n2 ph1 ph2 o1 o2 = Ok g.
Proof. exact hex_total. Qed.
Print Assumptions C141_hexagon_accepted.

Theorem C141_tilted_accepted : forall nr nu ph1 ph2 o1 o2, (1 <= nr * nr + nu * nu)%Z ->
  exists g, tilted_geometry phase_matrix valid_phases nr nu ph1 ph2 o1 o2 = Ok g.
Proof. exact til_total. Qed.
Print Assumptions C141_tilted_accepted.

(** C142: tilted squares. *)
Theorem C142_tilted : forall (Ph : Type) (lp : lattice -> nat -> (nat -> nat -> Q) -> (nat -> nat -> Q) -> mat Ph) (vp : nat -> mat Ph -> bool) nr nu ph1 ph2 o1 o2 g,
  (1 <= nr * nr + nu * nu <= 100000000000000)%Z ->
  tilted_geometry lp vp nr nu ph1 ph2 o1 o2 = Ok g ->
  forall k l x y x' y', (k < g_n g)%nat -> (l < g_n g)%nat -> same_point (spot g k) (ipoint x y) -> same_point (spot g l) (ipoint x' y') ->
  (ent (g_adj g) k l = 0 \/ ent (g_adj g) k l = 1) /\ ent (g_adj g) k k = 0 /\
  (k <> l -> (ent (g_adj g) k l = 1 <-> exists c d, (o1 = true -> c = 0)%Z /\ (o2 = true -> d = 0)%Z /\
     square_step (x - x' + c * nr - d * nu) (y - y' + c * nu + d * nr))).
Proof. exact (@til_neighbours). Qed.
Print Assumptions C142_tilted.

(** C142 fails for triangular and hexagonal lattices: sites of the fourth and
    fifth rows that are one step apart are not connected, ... *)
Theorem C142_rows_lost_refuted : exists g k l, triangle_geometry phase_matrix valid_phases float_height 1 5 0 0 true true = Ok g /\
  (k < g_n g)%nat /\ (l < g_n g)%nat /\ stands float_height (spot g k) 3 3 /\ stands float_height (spot g l) 4 4 /\ ent (g_adj g) k l = 0.
Proof. exact rows_lost. Qed.
Print Assumptions C142_rows_lost_refuted.

Theorem C142_hexagon_rows_lost_refuted : exists g k l, hexagonal_geometry phase_matrix valid_phases float_height 1 3 0 0 true true = Ok g /\
  (k < g_n g)%nat /\ (l < g_n g)%nat /\ stands float_height (spot g k) 1 3 /\ stands float_height (spot g l) 2 4 /\ ent (g_adj g) k l = 0.
Proof. exact hexagon_rows_lost. Qed.
Print Assumptions C142_hexagon_rows_lost_refuted.

(** ... whatever the other dimension, ... *)
Theorem C142_triangle_row_lost : forall (Ph : Type) (lp : lattice -> nat -> (nat -> nat -> Q) -> (nat -> nat -> Q) -> mat Ph) (vp : nat -> mat Ph -> bool) n1 n2 ph1 ph2 o1 o2 g k l a,
  (1 <= n1 <= 100000000000000)%Z -> (1 <= n2 <= 100000000000000)%Z ->
  (o1 = false -> 3 <= n1)%Z -> (o2 = false -> 3 <= n2)%Z ->
  triangle_geometry lp vp float_height n1 n2 ph1 ph2 o1 o2 = Ok g ->
  (k < g_n g)%nat -> (l < g_n g)%nat ->
  stands float_height (spot g k) (2 * a + 3) 3 -> stands float_height (spot g l) (2 * a + 4) 4 -> ent (g_adj g) k l = 0.
Proof. exact (@tri_lost). Qed.
Print Assumptions C142_triangle_row_lost.

Theorem C142_hexagon_row_lost : forall (Ph : Type) (lp : lattice -> nat -> (nat -> nat -> Q) -> (nat -> nat -> Q) -> mat Ph) (vp : nat -> mat Ph -> bool) n1 n2 ph1 ph2 o1 o2 g k l X X',
  (1 <= n1 /\ 6 * n1 <= 100000000000000)%Z -> (1 <= n2 /\ 2 * n2 <= 100000000000000)%Z ->
  hexagonal_geometry lp vp float_height n1 n2 ph1 ph2 o1 o2 = Ok g ->
  (k < g_n g)%nat -> (l < g_n g)%nat -> (X - X' = 1 \/ X - X' = -1)%Z ->
  stands float_height (spot g k) X 3 -> stands float_height (spot g l) X' 4 -> ent (g_adj g) k l = 0.
Proof. exact (@hex_lost). Qed.
Print Assumptions C142_hexagon_row_lost.

(** ... and on the torus of two by two sites some neighbours are not connected. *)
Theorem C142_torus_refuted : exists g k l, triangle_geometry phase_matrix valid_phases float_height 2 2 0 0 false false = Ok g /\
  (k < g_n g)%nat /\ (l < g_n g)%nat /\ stands float_height (spot g k) 1 1 /\ stands float_height (spot g l) 2 0 /\ ent (g_adj g) k l = 0.
Proof. exact torus_lost. Qed.
Print Assumptions C142_torus_refuted.

(** What holds: connected sites are one step apart; sites one step apart are
    connected if closed axes have three sites or more and the rounded rows are
    as far apart as they should be, ... *)
Theorem C142_triangle_partial : forall (Ph : Type) (lp : lattice -> nat -> (nat -> nat -> Q) -> (nat -> nat -> Q) -> mat Ph) (vp : nat -> mat Ph -> bool) h n1 n2 ph1 ph2 o1 o2 g,
  triangle_height h -> (1 <= n1 <= 100000000000000)%Z -> (1 <= n2 <= 100000000000000)%Z ->
  triangle_geometry lp vp h n1 n2 ph1 ph2 o1 o2 = Ok g ->
  forall k l a b a' b', (k < g_n g)%nat -> (l < g_n g)%nat ->
  stands h (spot g k) (2 * a + b) b -> stands h (spot g l) (2 * a' + b') b' ->
  (ent (g_adj g) k l = 0 \/ ent (g_adj g) k l = 1) /\
  (ent (g_adj g) k l = 1 -> exists c d, (o1 = true -> c = 0)%Z /\ (o2 = true -> d = 0)%Z /\ triangular_step (a - a' + c * n1) (b - b' + d * n2)) /\
  ((o1 = false -> 3 <= n1)%Z -> (o2 = false -> 3 <= n2)%Z -> rows_apart h (spot g k) (spot g l) (b - b') ->
   (exists c d, (o1 = true -> c = 0)%Z /\ (o2 = true -> d = 0)%Z /\ triangular_step (a - a' + c * n1) (b - b' + d * n2)) -> ent (g_adj g) k l = 1).
Proof. exact (@tri_neighbours). Qed.
Print Assumptions C142_triangle_partial.

(** ... which is so for up to four rows. *)
Theorem C142_triangle_four_rows : forall (Ph : Type) (lp : lattice -> nat -> (nat -> nat -> Q) -> (nat -> nat -> Q) -> mat Ph) (vp : nat -> mat Ph -> bool) n1 n2 ph1 ph2 o1 o2 g,
  (1 <= n1 <= 100000000000000)%Z -> (1 <= n2 <= 4)%Z ->
  (o1 = false -> 3 <= n1)%Z -> (o2 = false -> 3 <= n2)%Z ->
  triangle_geometry lp vp float_height n1 n2 ph1 ph2 o1 o2 = Ok g ->
  forall k l a b a' b', (k < g_n g)%nat -> (l < g_n g)%nat ->
  stands float_height (spot g k) (2 * a + b) b -> stands float_height (spot g l) (2 * a' + b') b' ->
  (ent (g_adj g) k l = 1 <-> exists c d, (o1 = true -> c = 0)%Z /\ (o2 = true -> d = 0)%Z /\ triangular_step (a - a' + c * n1) (b - b' + d * n2)).
Proof. exact (@tri_few). Qed.
Print Assumptions C142_triangle_four_rows.

Theorem C142_hexagon_partial : forall (Ph : Type) (lp : lattice -> nat -> (nat -> nat -> Q) -> (nat -> nat -> Q) -> mat Ph) (vp : nat -> mat Ph -> bool) h n1 n2 ph1 ph2 o1 o2 g,
  triangle_height h -> (1 <= n1 /\ 6 * n1 <= 100000000000000)%Z -> (1 <= n2 /\ 2 * n2 <= 100000000000000)%Z ->
  hexagonal_geometry lp vp h n1 n2 ph1 ph2 o1 o2 = Ok g ->
  forall k l X K X' K', (k < g_n g)%nat -> (l < g_n g)%nat -> stands h (spot g k) X K -> stands h (spot g l) X' K' ->
  (ent (g_adj g) k l = 0 \/ ent (g_adj g) k l = 1) /\
  (ent (g_adj g) k l = 1 -> exists c d, (o1 = true -> c = 0)%Z /\ (o2 = true -> d = 0)%Z /\ unit_step (X - X' + c * (6 * n1)) (K - K' + d * (2 * n2))) /\
  (rows_apart h (spot g k) (spot g l) (K - K') ->
   (exists c d, (o1 = true -> c = 0)%Z /\ (o2 = true -> d = 0)%Z /\ unit_step (X - X' + c * (6 * n1)) (K - K' + d * (2 * n2))) -> ent (g_adj g) k l = 1).
Proof. exact (@hex_neighbours). Qed.
Print Assumptions C142_hexagon_partial.

Theorem C142_hexagon_four_rows : forall (Ph : Type) (lp : lattice -> nat -> (nat -> nat -> Q) -> (nat -> nat -> Q) -> mat Ph) (vp : nat -> mat Ph -> bool) n1 n2 ph1 ph2 o1 o2 g,
  (1 <= n1 /\ 6 * n1 <= 100000000000000)%Z -> (1 <= n2 <= 2)%Z ->
  hexagonal_geometry lp vp float_height n1 n2 ph1 ph2 o1 o2 = Ok g ->
  forall k l X K X' K', (k < g_n g)%nat -> (l < g_n g)%nat -> stands float_height (spot g k) X K -> stands float_height (spot g l) X' K' ->
  (ent (g_adj g) k l = 1 <-> exists c d, (o1 = true -> c = 0)%Z /\ (o2 = true -> d = 0)%Z /\ unit_step (X - X' + c * (6 * n1)) (K - K' + d * (2 * n2))).
Proof. exact (@hex_few). Qed.
Print Assumptions C142_hexagon_four_rows.
