(** Model of exact_diag/ed_geometry.py over exact rationals.  Every float is a
    rational; the roundings the code asks for are modelled, those of floating
    point arithmetic are not.  [Qred] only normalises the representation.
    Complex phases are abstract in this file (type [Ph]); their values are
    modelled in ModelPhase.v. *)
From Coq Require Import List Arith Lia QArith Qround Qabs ZArith Bool.
From Verif Require Import Res Matrix.
Import ListNotations.
Local Open Scope Q_scope.

(** A 2 x 1 column vector. *)
Definition vec : Type := (Q * Q)%type.
Definition vzero : vec := (0, 0).
Definition vadd (v w : vec) : vec := (Qred (fst v + fst w), Qred (snd v + snd w)).
Definition vsub (v w : vec) : vec := (Qred (fst v - fst w), Qred (snd v - snd w)).
Definition vscale (a : Q) (v : vec) : vec := (Qred (a * fst v), Qred (a * snd v)).
Definition vdot (v w : vec) : Q := fst v * fst w + snd v * snd w.
Definition vdet (v w : vec) : Q := fst v * snd w - snd v * fst w.
Definition vec_eqb (v w : vec) : bool := Qeq_bool (fst v) (fst w) && Qeq_bool (snd v) (snd w).

(** [np.round(x)]: nearest integer, ties to the even one. *)
Definition rint (x : Q) : Z :=
  let f := Qfloor x in
  match Qcompare (x - inject_Z f) (1 # 2) with
  | Lt => f
  | Gt => (f + 1)%Z
  | Eq => if Z.even f then f else (f + 1)%Z
  end.

(** [np.round(x, 14)]. *)
Definition ten14 : Z := (10 ^ 14)%Z.
Definition round14 (x : Q) : Q := Qred (inject_Z (rint (x * inject_Z ten14)) / inject_Z ten14).

(** [np.round(np.sqrt(s), 14) == 0]: the root times 10^14 is at most one half
    (a tie goes to the even number 0). *)
Definition root_rounds_to_0 (s : Q) : bool := Qle_bool (s * inject_Z (4 * ten14 * ten14)) 1.

(** [np.round(np.sqrt(s), 14) == 1]: the root times 10^14 is between
    10^14 - 1/2 and 10^14 + 1/2 (ties go to the even number 10^14). *)
Definition root_rounds_to_1 (s : Q) : bool :=
  Qle_bool (inject_Z ((2 * ten14 - 1) * (2 * ten14 - 1))) (s * inject_Z (4 * ten14 * ten14)) &&
  Qle_bool (s * inject_Z (4 * ten14 * ten14)) (inject_Z ((2 * ten14 + 1) * (2 * ten14 + 1))).

(** The values of the argument [mode]. *)
Inductive red_mode := Positive | Centered | OtherMode.

(** ed_geometry.py:1059-1062: add 1/2 to numbers half-way between integers. *)
Definition bump (p : Q) : Q :=
  if Qeq_bool (p - inject_Z (Qfloor p)) (1 # 2) then p + (1 # 2) else p.

(** ed_geometry.py:1053-1066. *)
Definition cell_number (md : red_mode) (p : Q) : res Z :=
  match md with
  | Positive => Ok (Qfloor p)
  | Centered => Ok (rint (bump p))
  | OtherMode => Raise ValueError
  end.

(** ed_geometry.py:1013-1049: the two projections of a vector, rounded.  If
    both generators count as non-zero and their determinant is zero numpy
    divides by zero. *)
Definition projections (p1 p2 v : vec) : res (Q * Q) :=
  let z1 := root_rounds_to_0 (vdot p1 p1) in
  let z2 := root_rounds_to_0 (vdot p2 p2) in
  if negb z1 && negb z2 && Qeq_bool (vdet p1 p2) 0 then Raise NotFinite else
  let a := if z1 then 0
           else if z2 then vdot p1 v / vdot p1 p1
           else (snd p2 * fst v + - fst p2 * snd v) / vdet p1 p2 in
  let b := if z2 then 0
           else if z1 then vdot p2 v / vdot p2 p2
           else (- snd p1 * fst v + fst p1 * snd v) / vdet p1 p2 in
  Ok (round14 a, round14 b).

(** ed_geometry.py:995-1091 [reduce_vectors] on one vector: the reduced vector
    and the two multiples. *)
Definition reduce_vector (p1 p2 : vec) (md : red_mode) (v : vec) : res (vec * Z * Z) :=
  match md with OtherMode => Raise ValueError | _ =>
  ab <- projections p1 p2 v ;;
  n1 <- cell_number md (fst ab) ;;
  n2 <- cell_number md (snd ab) ;;
  Ok (vsub (vsub v (vscale (inject_Z n1) p1)) (vscale (inject_Z n2) p2), n1, n2) end.

(** [reduce_vectors] on lists of coordinates (1008-1011: concatenating rows of
    different lengths raises). *)
Definition reduce_vectors (p1 p2 : vec) (xs ys : list Q) (md : red_mode) : res (list (vec * Z * Z)) :=
  if negb (length xs =? length ys)%nat then Raise ValueError
  else match md with OtherMode => Raise ValueError | _ =>
    rmap (reduce_vector p1 p2 md) (combine xs ys) end.

(** ed_geometry.py:955-992 [get_reciprocal_vects]: columns of the inverse of
    the matrix with rows [v1], [v2]. *)
Definition reciprocal_vects (v1 v2 : vec) : res (vec * vec) :=
  let z1 := vec_eqb v1 vzero in
  let z2 := vec_eqb v2 vzero in
  if negb z1 && negb z2 then
    if Qeq_bool (vdet v1 v2) 0 then Raise ValueError
    else Ok ((Qred (snd v2 / vdet v1 v2), Qred (- fst v2 / vdet v1 v2)),
             (Qred (- snd v1 / vdet v1 v2), Qred (fst v1 / vdet v1 v2)))
  else if z1 && negb z2 then Ok (vzero, vscale (/ vdot v2 v2) v2)
  else if negb z1 && z2 then Ok (vscale (/ vdot v1 v1) v1, vzero)
  else Ok (vzero, vzero).

(** Attributes of class [Lattice] (ed_geometry.py:676-688). *)
Record lattice := Lat {
  lt_v1 : vec; lt_v2 : vec; lt_basis : list vec;
  lt_p1 : vec; lt_p2 : vec;
  lt_r1 : vec; lt_r2 : vec;       (* reciprocal periodicity vectors *)
  lt_phase1 : Q; lt_phase2 : Q }.

(** ed_geometry.py:893-910. *)
Definition validate_latt_vects (v1 v2 : vec) : bool :=
  negb (root_rounds_to_0 (vdot v1 v1) || root_rounds_to_0 (vdot v2 v2)
        || Qeq_bool (round14 (vdet v1 v2)) 0).

(** ed_geometry.py:912-932. *)
Definition validate_periodicity_vects (p1 p2 : vec) : bool :=
  negb (negb (root_rounds_to_0 (vdot p1 p1)) && negb (root_rounds_to_0 (vdot p2 p2))
        && Qeq_bool (round14 (vdet p1 p2)) 0).

(** ed_geometry.py:874-889: [not np.array_equiv(x, 0) and np.array_equiv(y, 0)]
    is the condition for returning False. *)
Definition compatibility_fails (v : vec) : bool :=
  negb (Qeq_bool (fst v) 0) && Qeq_bool (snd v) 0.

(** ed_geometry.py:862-891 [Lattice.validate_instance]. *)
Definition validate_lattice (v1 v2 p1 p2 : vec) : res bool :=
  if negb (validate_latt_vects v1 v2) then Ok false
  else if negb (validate_periodicity_vects p1 p2) then Ok false
  else r1 <- reduce_vector v1 v2 Positive p1 ;;
       if compatibility_fails (fst (fst r1)) then Ok false
       else r2 <- reduce_vector v1 v2 Positive p2 ;;
            Ok (negb (compatibility_fails (fst (fst r2)))).

(** ed_geometry.py:651-691 [Lattice.__init__]. *)
Definition new_lattice (v1 v2 : vec) (basis : list vec) (p1 p2 : vec) (ph1 ph2 : Q) : res lattice :=
  _ <- reciprocal_vects v1 v2 ;;
  rs <- reciprocal_vects p1 p2 ;;
  ok <- validate_lattice v1 v2 p1 p2 ;;
  if ok then Ok (Lat v1 v2 basis p1 p2 (fst rs) (snd rs) ph1 ph2) else Raise ValueError.

(** [np.arange(lo, hi)] on integers. *)
Definition zrange (lo hi : Z) : list Z :=
  map (fun k => (lo + Z.of_nat k)%Z) (seq 0 (Z.to_nat (hi - lo))).

(** ed_geometry.py:728-738: multiples of one lattice vector; [0] if empty. *)
Definition box (n i : Z) : list Z :=
  match zrange (Z.min (Z.min 0 n) (Z.min i (n + i))) (Z.max (Z.max 0 n) (Z.max i (n + i))) with
  | [] => [0%Z]
  | l => l
  end.

(** Lexicographic comparison of columns, [np.unique(.., axis=1)]: sorted
    without repetitions. *)
Definition vec_cmp (v w : vec) : comparison :=
  match Qcompare (fst v) (fst w) with Eq => Qcompare (snd v) (snd w) | c => c end.
Fixpoint insert_unique (v : vec) (l : list vec) : list vec :=
  match l with
  | [] => [v]
  | w :: t => match vec_cmp v w with
              | Lt => v :: l
              | Eq => l
              | Gt => w :: insert_unique v t
              end
  end.
Definition np_unique (l : list vec) : list vec := fold_right insert_unique [] l.

(** ed_geometry.py:740-752: all sums of multiples and basis vectors
    ([meshgrid] and [ravel]: the second multiple is the outer loop). *)
Definition candidate_sites (L : lattice) (as_ bs : list Z) : list vec :=
  flat_map (fun b => flat_map (fun a =>
    map (fun u => vadd (vadd (vscale (inject_Z a) (lt_v1 L)) (vscale (inject_Z b) (lt_v2 L))) u)
      (lt_basis L)) as_) bs.

(** ed_geometry.py:693-765 [Lattice.get_unique_sites]: the list of sites (its
    length is the first component of the python result). *)
Definition unique_sites (L : lattice) : res (list vec) :=
  r1 <- reduce_vector (lt_v1 L) (lt_v2 L) Positive (lt_p1 L) ;;
  r2 <- reduce_vector (lt_v1 L) (lt_v2 L) Positive (lt_p2 L) ;;
  let '(_, n, m) := r1 in
  let '(_, i, j) := r2 in
  let vs := candidate_sites L (box n i) (box m j) in
  rs <- reduce_vectors (lt_p1 L) (lt_p2 L) (map fst vs) (map snd vs) Positive ;;
  Ok (np_unique (map (fun r => (round14 (fst (fst (fst r))), round14 (snd (fst (fst r))))) rs)).

(** One pair in ed_geometry.py:787-800: reduced distance, multiples of the
    lattice vectors. *)
Definition reduced_pair (L : lattice) (d : vec) : res (vec * Z * Z) :=
  r <- reduce_vector (lt_p1 L) (lt_p2 L) Centered d ;;
  let v := fst (fst r) in
  s <- reduce_vector (lt_v1 L) (lt_v2 L) Centered v ;;
  Ok (v, snd (fst s), snd s).

(** Lookup in the lower triangle; the upper triangle gets the value negated,
    the diagonal stays zero (802-805). *)
Definition tri (rows : list (list (vec * Z * Z))) (i j : nat) : vec * Z * Z :=
  nth j (nth i rows []) (vzero, 0%Z, 0%Z).
Definition from_lower {A} (zero : A) (low up : vec * Z * Z -> A) (rows : list (list (vec * Z * Z)))
    (i j : nat) : A :=
  if (j <? i)%nat then low (tri rows i j) else if (i <? j)%nat then up (tri rows j i) else zero.

Definition get_loc (l : list Q) (i : nat) : res Q :=
  match nth_error l i with Some x => Ok x | None => Raise IndexError end.

Record distances := Dist {
  d_x : nat -> nat -> Q; d_y : nat -> nat -> Q;
  d_n1 : nat -> nat -> Z; d_n2 : nat -> nat -> Z }.

(** ed_geometry.py:767-807 [Lattice.get_reduced_distance].  The last line of
    the loop (805) is written [- -latt_vect2_dist[ii, jj]]. *)
Definition reduced_distance (L : lattice) (xs ys : list Q) : res distances :=
  rows <- rmap (fun i => rmap (fun j =>
            xi <- get_loc xs i ;; xj <- get_loc xs j ;;
            yi <- get_loc ys i ;; yj <- get_loc ys j ;;
            reduced_pair L (xi - xj, yi - yj)) (seq 0 i)) (seq 0 (length xs)) ;;
  Ok (Dist (from_lower 0 (fun r => fst (fst (fst r))) (fun r => - fst (fst (fst r))) rows)
           (from_lower 0 (fun r => snd (fst (fst r))) (fun r => - snd (fst (fst r))) rows)
           (from_lower 0%Z (fun r => snd (fst r)) (fun r => (- snd (fst r))%Z) rows)
           (from_lower 0%Z (fun r => snd r) (fun r => (- - snd r)%Z) rows)).

(** ed_geometry.py:433-446 [get_site_distance] (python would raise IndexError
    for a too short list). *)
Definition site_distance (xs ys : list Q) : res (list (list vec)) :=
  rmap (fun i => rmap (fun j =>
     xi <- get_loc xs i ;; xj <- get_loc xs j ;;
     yi <- get_loc ys i ;; yj <- get_loc ys j ;;
     Ok (vsub (xi, yi) (xj, yj))) (seq 0 (length xs))) (seq 0 (length xs)).

(** ed_geometry.py:448-471 [get_neighbors_by_distance], one entry:
    x-neighbour, y-neighbour, neighbour. *)
Definition x_neighbor (dx dy : Q) : bool :=
  (rint (Qabs dx - 1) =? 0)%Z && (rint (Qabs dy) =? 0)%Z.
Definition y_neighbor (dx dy : Q) : bool :=
  (rint (Qabs dy - 1) =? 0)%Z && (rint (Qabs dx) =? 0)%Z.
Definition neighbor (dx dy : Q) : bool := x_neighbor dx dy || y_neighbor dx dy.

Definition qb (b : bool) : Q := if b then 1 else 0.

(** [np.array_equal] of matrices and of vectors. *)
Definition mat_eqb (A B : mat Q) : bool :=
  (nrow A =? nrow B)%nat && (ncol A =? ncol B)%nat &&
  forallb (fun i => forallb (fun j => Qeq_bool (ent A i j) (ent B i j)) (seq 0 (ncol A))) (seq 0 (nrow A)).
Fixpoint list_eqb (a b : list Q) : bool :=
  match a, b with
  | [], [] => true
  | x :: a, y :: b => Qeq_bool x y && list_eqb a b
  | _, _ => false
  end.
Definition mtr {A} (M : mat A) : mat A := Mat (ncol M) (nrow M) (fun i j => ent M j i).

(** ed_geometry.py:561-577 [validate_adjacency_mat]. *)
Definition validate_adjacency (n : nat) (A : mat Q) : bool :=
  mat_eqb A (mtr A) &&
  forallb (fun i => forallb (fun j => Qeq_bool (ent A i j) 0 || Qeq_bool (ent A i j) 1)
     (seq 0 (ncol A))) (seq 0 (nrow A)) &&
  ((nrow A =? n)%nat && (ncol A =? n)%nat).

(** ed_geometry.py:936-945 [Lattice.__eq__]. *)
Definition lattice_eqb (a b : lattice) : bool :=
  vec_eqb (lt_v1 a) (lt_v1 b) && vec_eqb (lt_v2 a) (lt_v2 b) &&
  vec_eqb (lt_p1 a) (lt_p1 b) && vec_eqb (lt_p2 a) (lt_p2 b) &&
  Qeq_bool (lt_phase1 a) (lt_phase1 b) && Qeq_bool (lt_phase2 a) (lt_phase2 b).

(** [self.lattice == other.lattice] where either may be None: a Lattice
    compared with None reads attributes of None. *)
Definition lattice_opt_eqb (a b : option lattice) : res bool :=
  match a, b with
  | None, None => Ok true
  | Some a, Some b => Ok (lattice_eqb a b)
  | _, _ => Raise AttributeError
  end.

Section Geometry.
  (** Complex numbers, the phase matrix of a lattice (809-842) and the test of
      a phase matrix (579-595). *)
  Context {Ph : Type} (ph_one : Ph)
    (lattice_phases : lattice -> nat -> (nat -> nat -> Q) -> (nat -> nat -> Q) -> mat Ph)
    (validate_phases : nat -> mat Ph -> bool).

  (** Attributes of class [Geometry]. *)
  Record geometry := Geom {
    g_lat : option lattice;
    g_x : list Q; g_y : list Q; g_n : nat;
    g_xd : mat Q; g_yd : mat Q; g_adj : mat Q; g_phase : mat Ph }.

  (** ed_geometry.py:549-559. *)
  Definition validate_geometry (g : geometry) : bool :=
    validate_adjacency (g_n g) (g_adj g) && validate_phases (g_n g) (g_phase g).

  Definition checked (g : geometry) : res geometry :=
    if validate_geometry g then Ok g else Raise ValueError.

  (** ed_geometry.py:17-127 [Geometry.__init__], with a lattice. *)
  Definition lattice_geometry (xs ys : list Q) (L : lattice) : res geometry :=
    let n := length xs in
    d <- reduced_distance L xs ys ;;
    checked (Geom (Some L) xs ys n (Mat n n (d_x d)) (Mat n n (d_y d))
      (Mat n n (fun i j => qb (root_rounds_to_1 (d_x d i j * d_x d i j + d_y d i j * d_y d i j))))
      (lattice_phases L n (d_x d) (d_y d))).

  (** ... and without (181-195 [createNonPeriodicGeometry]). *)
  Definition free_geometry (xs ys : list Q) (adj : option (mat Q)) (ph : option (mat Ph)) : res geometry :=
    let n := length xs in
    rows <- site_distance xs ys ;;
    let dx i j := fst (nth j (nth i rows []) vzero) in
    let dy i j := snd (nth j (nth i rows []) vzero) in
    checked (Geom None xs ys n (Mat n n dx) (Mat n n dy)
      (match adj with Some A => A | None => Mat n n (fun i j => qb (neighbor (dx i j) (dy i j))) end)
      (match ph with Some p => p | None => Mat n n (fun _ _ => ph_one) end)).

  (** ed_geometry.py:134-178 [create_lattice_geom]. *)
  Definition create_lattice_geom (v1 v2 : vec) (basis : list vec) (p1 p2 : vec) (ph1 ph2 : Q)
      (open1 open2 : bool) : res geometry :=
    helper <- new_lattice v1 v2 basis p1 p2 ph1 ph2 ;;
    sites <- unique_sites helper ;;
    L <- new_lattice v1 v2 basis (if open1 then vzero else p1) (if open2 then vzero else p2) ph1 ph2 ;;
    lattice_geometry (map fst sites) (map snd sites) L.

  (** ed_geometry.py:227-262 [createSquareGeometry]. *)
  Definition square_geometry (nx ny : Z) (ph1 ph2 : Q) (open1 open2 : bool) : res geometry :=
    if (nx =? 1)%Z && negb open1 then Raise ValueError
    else if (ny =? 1)%Z && negb open2 then Raise ValueError
    else create_lattice_geom (1, 0) (0, 1) [vzero] (inject_Z nx, 0) (0, inject_Z ny) ph1 ph2 open1 open2.

  (** ed_geometry.py:265-291 [createTiltedSquareGeometry]. *)
  Definition tilted_geometry (nr nu : Z) (ph1 ph2 : Q) (open1 open2 : bool) : res geometry :=
    create_lattice_geom (1, 0) (0, 1) [vzero] (inject_Z nr, inject_Z nu) (inject_Z (- nu), inject_Z nr)
      ph1 ph2 open1 open2.

  (** ed_geometry.py:294-328 [createTriangleGeometry]; [h] is the rational
      (float) the code gets for sqrt(3)/2. *)
  Definition triangle_geometry (h : Q) (n1 n2 : Z) (ph1 ph2 : Q) (open1 open2 : bool) : res geometry :=
    if (n1 =? 1)%Z && negb open1 then Raise ValueError
    else if (n2 =? 1)%Z && negb open2 then Raise ValueError
    else create_lattice_geom (1, 0) (1 # 2, h) [vzero] (vscale (inject_Z n1) (1, 0))
           (vscale (inject_Z n2) (1 # 2, h)) ph1 ph2 open1 open2.

  (** ed_geometry.py:331-366 [createHexagonalGeometry]; [h] as above and the
      float for sqrt(3) is twice that for sqrt(3)/2. *)
  Definition hexagonal_geometry (h : Q) (n1 n2 : Z) (ph1 ph2 : Q) (open1 open2 : bool) : res geometry :=
    if (n1 =? 1)%Z && negb open1 then Raise ValueError
    else if (n2 =? 1)%Z && negb open2 then Raise ValueError
    else create_lattice_geom (3 # 2, h) (3 # 2, - h) [(-(1), 0); (-(1 # 2), h)]
           (vscale (inject_Z n1) (3, 0)) (vscale (inject_Z n2) (0, 2 * h)) ph1 ph2 open1 open2.

  (** [np.lexsort]: indices sorted stably by a list of keys, the last key being
      the most significant one.  A key is a function of the index. *)
  Fixpoint key_le (keys : list (nat -> Q)) (i j : nat) : bool :=
    match keys with
    | [] => true
    | k :: t => match Qcompare (k i) (k j) with Lt => true | Gt => false | Eq => key_le t i j end
    end.
  Fixpoint insert_sorted (le : nat -> nat -> bool) (i : nat) (l : list nat) : list nat :=
    match l with
    | [] => [i]
    | j :: t => if le i j then i :: l else j :: insert_sorted le i t
    end.
  Definition stable_sort (le : nat -> nat -> bool) (l : list nat) : list nat :=
    fold_right (insert_sorted le) [] l.
  Definition lexsort (n : nat) (keys : list (nat -> Q)) : list nat :=
    stable_sort (key_le (rev keys)) (seq 0 n).

  Inductive sorting_mode := TopAlternating | TopLeft | BottomRight | ByAdjacency | OtherSorting.

  Definition list_max (l : list Q) (d : Q) : Q := fold_right (fun x m => if Qle_bool m x then x else m) d l.
  Definition is_int (x : Q) : bool := Qeq_bool (inject_Z (Qfloor x)) x.
  Definition sign_pow (x : Q) : Q := if Z.even (Qfloor x) then 1 else -(1).

  Fixpoint adj_power (A : mat Q) (k : nat) : nat -> nat -> Q :=
    match k with
    | O => ent A
    | S k => fun i j => Qred (fold_right Qplus 0 (map (fun m => adj_power A k i m * ent A m j) (seq 0 (ncol A))))
    end.
  Definition row_sum (n : nat) (f : nat -> nat -> Q) (i : nat) : Q :=
    Qred (fold_right Qplus 0 (map (f i) (seq 0 n))).

  (** ed_geometry.py:382-431 [get_sorting_permutation].  A power of -1 with a
      non-integer exponent is nan in numpy; [np.max] of an empty array raises. *)
  Definition sorting_permutation (g : geometry) (md : sorting_mode) : res (list nat) :=
    let X i := nth i (g_x g) 0 in
    let Y i := nth i (g_y g) 0 in
    let n := g_n g in
    match md with
    | TopAlternating =>
        match g_y g with
        | [] => Raise ValueError
        | y0 :: _ =>
          let top := list_max (g_y g) y0 in
          if forallb (fun y => is_int (y - top)) (g_y g)
          then Ok (lexsort n [(fun i => X i * sign_pow (Y i - top)); (fun i => - Y i)])
          else Raise NotFinite
        end
    | TopLeft => Ok (lexsort n [X; (fun i => - Y i)])
    | BottomRight => Ok (lexsort n [X; Y])
    | ByAdjacency =>
        Ok (lexsort n (map (fun k => row_sum n (adj_power (g_adj g) k)) (seq 0 (Nat.max 1 n))))
    | OtherSorting => Raise ValueError
    end.

  (** [sorted(permutation) == range(nsites)] on integers. *)
  Fixpoint zinsert (z : Z) (l : list Z) : list Z :=
    match l with [] => [z] | a :: t => if (z <=? a)%Z then z :: l else a :: zinsert z t end.
  Definition zsort (l : list Z) : list Z := fold_right zinsert [] l.
  Fixpoint zlist_eqb (a b : list Z) : bool :=
    match a, b with
    | [], [] => true
    | x :: a, y :: b => (x =? y)%Z && zlist_eqb a b
    | _, _ => false
    end.

  (** ed_geometry.py:476-502 [permute_sites].  The matrix products with the
      permutation matrix are written as the products of entries they are for
      coordinates and real matrices; for the abstract phases the product with a
      row of a permutation matrix is the selected entry. *)
  Definition perm_entry (p : list nat) (i j : nat) : Q := qb (nth i p O =? j)%nat.
  Definition permuted (n : nat) (p : list nat) (A : mat Q) : mat Q :=
    Mat n n (fun i j =>
      fold_right Qplus 0 (map (fun k => perm_entry p i k *
        fold_right Qplus 0 (map (fun l => ent A k l * perm_entry p j l) (seq 0 n))) (seq 0 n))).
  Definition permute_sites (g : geometry) (perm : list Z) : res geometry :=
    if negb (zlist_eqb (zsort perm) (map Z.of_nat (seq 0 (g_n g)))) then Raise ValueError
    else
      let p := map Z.to_nat perm in
      Ok (Geom (g_lat g) (map (fun k => nth k (g_x g) 0) p) (map (fun k => nth k (g_y g) 0) p) (g_n g)
            (permuted (g_n g) p (g_xd g)) (permuted (g_n g) p (g_yd g)) (permuted (g_n g) p (g_adj g))
            (Mat (g_n g) (g_n g) (fun i j => ent (g_phase g) (nth i p O) (nth j p O)))).

  (** ed_geometry.py:619-636 [Geometry.__eq__]; [and] stops at the first false
      conjunct. *)
  Definition geometry_eqb (a b : geometry) : res bool :=
    if list_eqb (g_x a) (g_x b) && list_eqb (g_y a) (g_y b) &&
       mat_eqb (g_xd a) (g_xd b) && mat_eqb (g_yd a) (g_yd b) && mat_eqb (g_adj a) (g_adj b)
    then lattice_opt_eqb (g_lat a) (g_lat b) else Ok false.

  (** ed_geometry.py:601-617 [isequal_adjacency]. *)
  Definition equal_adjacency (a b : geometry) : res bool :=
    if mat_eqb (g_xd a) (g_xd b) && mat_eqb (g_yd a) (g_yd b) && mat_eqb (g_adj a) (g_adj b)
    then lattice_opt_eqb (g_lat a) (g_lat b) else Ok false.

  (** ed_geometry.py:372-380 [get_center_of_mass]; the mean of an empty array
      is nan. *)
  Definition center_of_mass (g : geometry) : res vec :=
    match g_x g, g_y g with
    | [], _ | _, [] => Raise NotFinite
    | _, _ => Ok (fold_right Qplus 0 (g_x g) / inject_Z (Z.of_nat (length (g_x g))),
                  fold_right Qplus 0 (g_y g) / inject_Z (Z.of_nat (length (g_y g))))
    end.
End Geometry.
Arguments geometry : clear implicits.
