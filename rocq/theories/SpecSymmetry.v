(** Vocabulary of the statements about symmetry sectors. *)
From Coq Require Import List Arith Reals.
From Verif Require Import Scalars Matrix SpecMat ModelPhase.
Import ListNotations.

(** The rows of the matrices [Bs] together are an orthonormal basis of the
    space of dimension [N]: rows of one matrix are orthonormal, rows of different
    matrices orthogonal, and nothing is left out. *)
Definition splits (N : nat) (Bs : list (mat CR)) : Prop :=
  (forall a, a < length Bs -> let A := nth a Bs (mzero 0 0) in
     ncol A = N /\ meq (mmul A (madj A)) (meye (nrow A))) /\
  (forall a b, a < length Bs -> b < length Bs -> a <> b ->
     let A := nth a Bs (mzero 0 0) in let B := nth b Bs (mzero 0 0) in
     meq (mmul A (madj B)) (mzero (nrow A) (nrow B))) /\
  meq (msum N (map (fun A => mmul (madj A) A) Bs)) (meye N).

(** [H] has no matrix elements between different sectors. *)
Definition block_diagonal (Bs : list (mat CR)) (H : mat CR) : Prop :=
  forall a b, a < length Bs -> b < length Bs -> a <> b ->
    let A := nth a Bs (mzero 0 0) in let B := nth b Bs (mzero 0 0) in
    meq (mmul A (mmul H (madj B))) (mzero (nrow A) (nrow B)).

(** A transformation of basis states up to phases: unitary, with at most one
    non-zero entry in a row. *)
Definition moves_states (N : nat) (T : mat CR) : Prop :=
  unitary_mat N T /\
  forall i j k, i < N -> j < N -> k < N -> ent T i j <> k0 -> ent T i k <> k0 -> j = k.

(** A transformation of basis states with signs. *)
Definition signed (N : nat) (T : mat CR) : Prop :=
  moves_states N T /\
  forall i j, i < N -> j < N -> ent T i j = k0 \/ ent T i j = k1 \/ ent T i j = kopp k1.

(** A rotation by one [n]-th of a turn and a reflection. *)
Definition dihedral_pair (n N : nat) (R S : mat CR) : Prop :=
  signed N R /\ signed N S /\ meq (mpow N R n) (meye N) /\ meq (mpow N S 2) (meye N) /\
  meq (mmul S R) (mmul (mpow N R (n - 1)) S).

(** Symmetries of the 3x3 torus: two commuting translations [X], [Y] along the
    axes, the reflection [S] reversing [X], and a quarter turn [R] which takes
    [X] to [Y] (counterclockwise) or to the inverse of [Y] (clockwise). *)
Definition torus_group (ccw : bool) (N : nat) (R S X Y : mat CR) : Prop :=
  dihedral_pair 4 N R S /\ signed N X /\ signed N Y /\
  meq (mpow N X 3) (meye N) /\ meq (mpow N Y 3) (meye N) /\ meq (mmul Y X) (mmul X Y) /\
  meq (mmul S X) (mmul (mpow N X 2) S) /\ meq (mmul S Y) (mmul Y S) /\
  if ccw then meq (mmul R X) (mmul Y R) /\ meq (mmul R Y) (mmul (mpow N X 2) R)
  else meq (mmul R X) (mmul (mpow N Y 2) R) /\ meq (mmul R Y) (mmul X R).

(** Sectors of a group with the generators [gens]: they split the space, every
    [H] commuting with the generators is block diagonal, and the generators map
    every sector to itself. *)
Definition symmetry_sectors (N : nat) (gens Bs : list (mat CR)) : Prop :=
  splits N Bs /\
  (forall H, square N H -> (forall A, In A gens -> meq (mmul A H) (mmul H A)) -> block_diagonal Bs H) /\
  (forall B A, In B Bs -> In A gens -> meq (mmul A (mmul (madj B) B)) (mmul (mmul (madj B) B) A)).

(** [T] multiplies every state of the sector by [z]. *)
Definition acts_as (B T : mat CR) (z : CR) : Prop :=
  meq (mmul T (madj B)) (mscale z (madj B)).

(** What is asked of the singular value decomposition: the rows returned are
    orthonormal, lie in the span of the rows of [M], and span them. *)
Definition row_basis (M V : mat CR) : Prop :=
  ncol V = ncol M /\
  meq (mmul V (madj V)) (meye (nrow V)) /\
  (exists A, nrow A = nrow V /\ ncol A = nrow M /\ meq V (mmul A M)) /\
  meq (mmul (mmul M (madj V)) V) M.

(** In the sector of row [a] of the table [T] the sum of the operators of class
    [k] is the number size * character / dimension. *)
Definition class_values (N : nat) (T : mat CR) (classes : list (list (mat CR))) (Bs : list (mat CR)) : Prop :=
  forall a k, a < nrow T -> k < ncol T ->
    acts_as (nth a Bs (mzero 0 0)) (msum N (nth k classes []))
      (kmul (kmul (INR (length (nth k classes [])), 0%R) (Rinv (fst (ent T a 0)), 0%R)) (ent T a k)).

(** Character tables: a row for every class, given the sizes of the classes. *)
Definition shaped (T : mat CR) (sizes : list nat) : Prop :=
  nrow T = length sizes /\ ncol T = length sizes /\ forall s, In s sizes -> 0 < s.
Definition column_product (T : mat CR) (i j : nat) : CR :=
  ksum (nrow T) (fun k => kmul (ent T k i) (kconj (ent T k j))).
Definition row_product (T : mat CR) (sizes : list nat) (i j : nat) : CR :=
  ksum (length sizes) (fun k => kmul (kmul (ent T i k) (kconj (ent T j k))) (INR (nth k sizes 0), 0%R)).
(** Sizes of conjugacy classes divide the order of the group. *)
Definition divide_order (sizes : list nat) : Prop := forall s, In s sizes -> list_sum sizes mod s = 0.
(** Orthogonality of columns and of rows. *)
Definition orthogonal_table (T : mat CR) (sizes : list nat) : Prop :=
  forall i j, i < length sizes -> j < length sizes ->
    column_product T i j = ((if i =? j then INR (list_sum sizes) / INR (nth i sizes O) else 0)%R, 0%R) /\
    row_product T sizes i j = ((if i =? j then INR (list_sum sizes) else 0)%R, 0%R).
