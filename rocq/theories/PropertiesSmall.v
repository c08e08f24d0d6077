(** Property theorems C151..C153 and C40: matrices of geometries, reduction to the cell of
    a lattice, magnetic response.  Theorems only. *)
From Coq Require Import List Arith Reals ZArith QArith.
From Verif Require Import Scalars Res Sums Matrix ModelGeometry ModelPhase SpecGeometry GeoApi ModelFermiGas SpecFermiGas FermiCorr SymBase SpecValid ModelSmall GeoValid.
Import ListNotations.

(** C151. *)
Theorem C151_lattice : forall xs ys L g, c_lattice_geometry xs ys L = Ok g ->
  g_n g = length xs /\ sensible_adjacency (length xs) (g_adj g) /\ sensible_phases slack (length xs) (g_phase g).
Proof. exact lattice_sensible. Qed.
Print Assumptions C151_lattice.
Theorem C151_open : forall xs ys adj ph g, c_free_geometry xs ys adj ph = Ok g ->
  g_n g = length xs /\ sensible_adjacency (length xs) (g_adj g) /\ sensible_phases slack (length xs) (g_phase g).
Proof. exact free_sensible. Qed.
Print Assumptions C151_open.
Theorem C151_accepts : forall xs ys A P, length ys = length xs -> sensible_adjacency (length xs) A -> sensible_phases slack (length xs) P ->
  exists g, c_free_geometry xs ys (Some A) (Some P) = Ok g /\ g_lat g = None /\ g_x g = xs /\ g_y g = ys /\ g_adj g = A /\ g_phase g = P.
Proof. exact free_accepts. Qed.
Print Assumptions C151_accepts.
Theorem C151_refuses : forall xs ys A P, length ys = length xs -> ~ (sensible_adjacency (length xs) A /\ sensible_phases slack (length xs) P) ->
  c_free_geometry xs ys (Some A) (Some P) = Raise ValueError.
Proof. exact free_refuses. Qed.
Print Assumptions C151_refuses.
Theorem C151_default : forall xs ys, length ys = length xs -> exists g, c_free_geometry xs ys None None = Ok g.
Proof. exact free_default. Qed.
Print Assumptions C151_default.

(** C40, [!=]. *)
Theorem C40_unequal_partial : forall (Ph : Type) (a b : geometry Ph), (g_lat a = None <-> g_lat b = None) ->
  exists r, geometry_neb a b = Ok r /\ (r = true <-> ~ agree a b).
Proof. exact unequal. Qed.
Print Assumptions C40_unequal_partial.
Theorem C40_lattice_unequal : forall a b, lattice_neb a b = true <-> ~ (same_point (lt_v1 a) (lt_v1 b) /\ same_point (lt_v2 a) (lt_v2 b) /\ same_point (lt_p1 a) (lt_p1 b) /\ same_point (lt_p2 a) (lt_p2 b) /\ (lt_phase1 a == lt_phase1 b)%Q /\ (lt_phase2 a == lt_phase2 b)%Q).
Proof. exact lattice_unequal. Qed.
Print Assumptions C40_lattice_unequal.

(** C152. *)
Theorem C152_cell : forall L xs ys md, generators (lt_p1 L) (lt_p2 L) -> md <> OtherMode -> length ys = length xs ->
  exists l, reduce_to_unit_cell L xs ys md = Ok l /\ length l = length xs /\
    (forall i, (i < length xs)%nat -> exists r n1 n2, nth_error l i = Some (r, n1, n2) /\
       same_point (nth i xs 0%Q, nth i ys 0%Q) (moved r (inject_Z n1) (lt_p1 L) (inject_Z n2) (lt_p2 L))) /\
    (forall i j, (i < length xs)%nat -> (j < length xs)%nat -> equivalent (lt_p1 L) (lt_p2 L) (nth i xs 0%Q, nth i ys 0%Q) (nth j xs 0%Q, nth j ys 0%Q) ->
       exists r n1 n2 r' n1' n2', nth_error l i = Some (r, n1, n2) /\ nth_error l j = Some (r', n1', n2') /\ same_point r r').
Proof. exact unit_cell. Qed.
Print Assumptions C152_cell.
Theorem C152_again : forall L xs ys md l, generators (lt_p1 L) (lt_p2 L) -> md <> OtherMode -> length ys = length xs -> reduce_to_unit_cell L xs ys md = Ok l ->
  let xs' := map (fun t => fst (fst (fst t))) l in let ys' := map (fun t => snd (fst (fst t))) l in
  exists l', reduce_to_unit_cell L xs' ys' md = Ok l' /\ Forall2 (fun t t' => same_point (fst (fst t)) (fst (fst t')) /\ snd (fst t') = 0%Z /\ snd t' = 0%Z) l l'.
Proof. exact unit_cell_again. Qed.
Print Assumptions C152_again.

(** C153. *)
Theorem C153_magnetic : forall n b mu q omega eta, (1 <= n)%nat -> exists chi,
  magnetic_response (Beta b) mu q omega eta n Dim2 = Ok chi /\ lindhard_sum Square n b mu q omega eta chi.
Proof. exact response2. Qed.
Print Assumptions C153_magnetic.
Theorem C153_static : forall n b mu q, (1 <= n)%nat -> (0 < b)%R -> exists x,
  magnetic_response (Beta b) mu q 0 0 n Dim2 = Ok (re x) /\ (x < 0)%R.
Proof. exact static_response. Qed.
Print Assumptions C153_static.
