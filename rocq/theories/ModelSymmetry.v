(** Model of the symmetry projectors of exact_diag/ed_symmetry.py (lines
    216-827), over complex numbers.

    Simplified: the transformation operators are exact, so the roundings which
    only remove floating point noise (of the Z_n character table to 14 digits,
    ed_symmetry.py:403, and of the singular vectors to 15 digits, :310) are left
    out; sparse storage is not modelled, a row being described by its non-zero
    entries in increasing order of the column.  [svd_rows] stands for
    [vh[:rank, :]] of numpy's singular value decomposition (:307-310). *)
From Coq Require Import List Arith ZArith Reals Bool.
From Verif Require Import Scalars Res Matrix ModelGeometry ModelPhase.
Import ListNotations.
Local Open Scope R_scope.

Notation cmat := (mat CR).

Definition real (x : R) : CR := (x, 0).
Definition rlt_b (x y : R) : bool := if Rlt_dec x y then true else false.

(** [sum] of a list of operators of one size. *)
Definition op_sum (n : nat) (l : list cmat) : cmat := fold_right madd (mzero n n) l.
(** [op ** k]. *)
Fixpoint op_pow (A : cmat) (k : nat) : cmat :=
  match k with O => meye (nrow A) | S j => mmul (op_pow A j) A end.

Section Reduce.
  Variable svd_rows : cmat -> cmat.

  (** ed_symmetry.py:253-254: entries below 1e-10 are set to zero. *)
  Definition noise : R := / 10 ^ 10.
  Definition cleaned (p : cmat) : cmat :=
    Mat (nrow p) (ncol p) (fun i j => if rlt_b (modulus (ent p i j)) noise then (0, 0) else ent p i j).

  (** Columns of the non-zero entries of a row ([indices] of the csr format). *)
  Definition row_cols (A : cmat) (i : nat) : list nat :=
    filter (fun j => kneb (ent A i j) k0) (seq 0 (ncol A)).
  (** ed_symmetry.py:257-258: rows which are not empty. *)
  Definition rows_noz (A : cmat) : list nat :=
    filter (fun i => match row_cols A i with [] => false | _ => true end) (seq 0 (nrow A)).
  Definition take_rows (A : cmat) (l : list nat) : cmat :=
    Mat (length l) (ncol A) (fun i j => ent A (nth i l O) j).
  (** ed_symmetry.py:263, :282: first non-zero column of a row. *)
  Definition first_col (A : cmat) (i : nat) : nat := hd O (row_cols A i).

  (** [np.unique]: the distinct values in increasing order. *)
  Fixpoint insert_nat (x : nat) (l : list nat) : list nat :=
    match l with
    | [] => [x]
    | y :: t => if (x <? y)%nat then x :: l else if (x =? y)%nat then l else y :: insert_nat x t
    end.
  Definition unique_nats (l : list nat) : list nat := fold_right insert_nat [] l.
  (** Position of the first occurrence. *)
  Fixpoint first_pos (x : nat) (l : list nat) : nat :=
    match l with [] => O | y :: t => if (x =? y)%nat then O else S (first_pos x t) end.

  (** ed_symmetry.py:320-321: every row is divided by its norm. *)
  Definition row_norm (A : cmat) (i : nat) : R :=
    sqrt (fst (ksum (ncol A) (fun j => cr_mul (ent A i j) (cr_conj (ent A i j))))).
  Definition normalised (A : cmat) : cmat :=
    Mat (nrow A) (ncol A) (fun i j => cr_mul (real (/ row_norm A i)) (ent A i j)).

  (** ed_symmetry.py:261-270, [dim == 1]. *)
  Definition reduce_one (p : cmat) : cmat :=
    let keys := map (first_col p) (seq 0 (nrow p)) in
    take_rows p (map (fun v => first_pos v keys) (unique_nats keys)).

  (** ed_symmetry.py:298-316, one block: the rows of [p] numbered by [rows],
      their columns [cols], and the basis of the row space put back into these
      columns. *)
  Definition block (p : cmat) (rows cols : list nat) : cmat :=
    Mat (length rows) (length cols) (fun i j => ent p (nth i rows O) (nth j cols O)).
  Definition spread (n : nat) (cols : list nat) (v : cmat) : cmat :=
    Mat (nrow v) n (fun i j => if existsb (Nat.eqb j) cols then ent v i (first_pos j cols) else (0, 0)).
  (** Rows of several matrices below each other. *)
  Definition stack2 (A B : cmat) : cmat :=
    Mat (nrow A + nrow B) (ncol B) (fun i j => if (i <? nrow A)%nat then ent A i j else ent B (i - nrow A) j).
  Definition stack (n : nat) (l : list cmat) : cmat := fold_right stack2 (mzero 0 n) l.

  (** ed_symmetry.py:271-318; [rel] is [states_related_by_symm] restricted to
      the rows of [p].  The order of the rows within a block, which python leaves
      to an unstable sort, is taken to be increasing. *)
  Definition reduce_many (p rel : cmat) : cmat :=
    let keys := map (first_col rel) (seq 0 (nrow p)) in
    stack (ncol p) (map (fun v =>
      let rows := filter (fun i => (nth i keys O =? v)%nat) (seq 0 (nrow p)) in
      let cols := row_cols rel (hd O rows) in
      spread (ncol p) cols (svd_rows (block p rows cols))) (unique_nats keys)).

  (** ed_symmetry.py:220-329 [reduce_symm_projector]. *)
  Definition reduce_projector (p : cmat) (dim : CR) (rel : cmat) : cmat :=
    let p := cleaned p in
    let keep := rows_noz p in
    let p' := take_rows p keep in
    normalised (if cr_eq_dec dim (1, 0) then reduce_one p' else reduce_many p' (take_rows rel keep)).

  (** ed_symmetry.py:792-827 [validate_char_table].  A table is given by its
      shape and entries.  Broadcasting a row against a list of class sizes of
      another length is an error unless one of the lengths is 1; reading a column
      which does not exist is an error.  [np.round] to an integer is [round_z].
      An empty class would make [order / cc_sizes] infinite: taken to be
      rejected. *)
  Definition round_z (x : R) : Z :=
    let f := (up x - 1)%Z in
    if Rlt_dec (x - IZR f) (1 / 2) then f
    else if Rlt_dec (1 / 2) (x - IZR f) then (f + 1)%Z
    else if Z.even f then f else (f + 1)%Z.
  Definition z_all (n : nat) (f g : nat -> nat -> Z) : bool :=
    forallb (fun i => forallb (fun j => (f i j =? g i j)%Z) (seq 0 n)) (seq 0 n).
  Definition col_cross (T : cmat) (i j : nat) : Z :=
    round_z (fst (ksum (nrow T) (fun k => cr_mul (ent T k i) (cr_conj (ent T k j))))).
  Definition row_cross (T : cmat) (sizes : list nat) (i j : nat) : Z :=
    let w := Nat.max (ncol T) (length sizes) in
    let pick (l k : nat) := if (l =? 1)%nat then O else k in
    round_z (fst (ksum w (fun k =>
      cr_mul (cr_mul (ent T i (pick (ncol T) k)) (cr_conj (ent T j (pick (ncol T) k))))
             (real (INR (nth (pick (length sizes) k) sizes O)))))).
  Definition validate_table (T : cmat) (sizes : list nat) : res bool :=
    let n := nrow T in
    let order := list_sum sizes in
    if (ncol T <? n)%nat then Raise IndexError else
    let cols_ok := (length sizes =? n)%nat && negb (existsb (Nat.eqb 0) sizes) &&
      z_all n (fun i j => if (i =? j)%nat then Z.of_nat (order / nth i sizes O) else 0%Z) (col_cross T) in
    if (0 <? n)%nat && negb ((ncol T =? length sizes)%nat || (ncol T =? 1)%nat || (length sizes =? 1)%nat)
    then Raise ValueError else
    let rows_ok := z_all n (fun i j => if (i =? j)%nat then Z.of_nat order else 0%Z) (row_cross T sizes) in
    Ok (cols_ok && rows_ok).

  (** ed_symmetry.py:352, :355: all operators in absolute value; class sums. *)
  Definition op_abs (A : cmat) : cmat := Mat (nrow A) (ncol A) (fun i j => real (modulus (ent A i j))).
  Definition related (n : nat) (classes : list (list cmat)) : cmat :=
    op_sum n (map (fun cc => op_sum n (map op_abs cc)) classes).
  (** ed_symmetry.py:358: the operator of row [a] of the table. *)
  Definition sector_op (n : nat) (T : cmat) (classes : list (list cmat)) (a : nat) : cmat :=
    op_sum n (map (fun ks => mscale (cr_conj (ent T a (fst ks))) (snd ks))
      (combine (seq 0 (ncol T)) (map (op_sum n) classes))).

  (** ed_symmetry.py:332-367 [get_symmetry_projectors], for operators on a space
      of dimension [n]. *)
  Definition symmetry_projectors (n : nat) (T : cmat) (classes : list (list cmat)) : res (list cmat) :=
    ok <- validate_table T (map (@length cmat) classes) ;;
    if negb ok then Raise GenericException else
    let rel := related n classes in
    let projs := map (fun a => reduce_projector (sector_op n T classes a) (ent T a O) rel) (seq 0 (nrow T)) in
    if (list_sum (map (@nrow CR) projs) =? n)%nat then Ok projs else Raise GenericException.

  (** ed_symmetry.py:370-409 [getZnProjectors]; the division by zero for no
      transformation is an exception. *)
  Definition zn_table (n : nat) : cmat :=
    Mat n n (fun i j => cexp (- 2 * PI / INR n * INR (i * j))).
  Definition zn_projectors (T : cmat) (n : nat) : res (list cmat) :=
    if (n =? 0)%nat then Raise GenericException else
    symmetry_projectors (nrow T) (zn_table n) (map (fun l => [op_pow T l]) (seq 0 n)).
  Definition zn_ks (n : nat) : list R := map (fun k => 2 * PI * INR k / INR n) (seq 0 n).

  (** ed_symmetry.py:412-452 [get2DTranslationProjectors].  [proj.size] is the
      number of non-zero entries; unpacking an empty zip is a ValueError. *)
  Definition has_entries (A : cmat) : bool :=
    existsb (fun i => match row_cols A i with [] => false | _ => true end) (seq 0 (nrow A)).
  Definition translation_projectors (T1 : cmat) (n1 : nat) (T2 : cmat) (n2 : nat)
    : res (list (cmat * R * R)) :=
    ps <- zn_projectors T1 n1 ;;
    parts <- rmap (fun pk =>
      let p := fst pk in
      sub <- zn_projectors (mmul p (mmul T2 (madj p))) n2 ;;
      if (list_sum (map (@nrow CR) sub) =? nrow p)%nat
      then Ok (map (fun qk => (mmul (fst qk) p, snd pk, snd qk)) (combine sub (zn_ks n2)))
      else Raise GenericException) (combine ps (zn_ks n1)) ;;
    match filter (fun x => has_entries (fst (fst x))) (concat parts) with
    | [] => Raise ValueError
    | l => Ok l
    end.

  (** Tables with integer entries. *)
  Definition int_table (rows : list (list Z)) : cmat :=
    Mat (length rows) (length (hd [] rows)) (fun i j => real (IZR (nth j (nth i rows []) 0%Z))).

  (** ed_symmetry.py:455-487 [getD2Projectors]. *)
  Definition d2_table := int_table
    [[1;  1;  1;  1];
     [1;  1; -1; -1];
     [1; -1;  1; -1];
     [1; -1; -1;  1]]%Z.
  Definition d2_classes (R S : cmat) : list (list cmat) :=
    [[meye (nrow S)]; [R]; [S]; [mmul R S]].
  Definition d2_projectors (R S : cmat) := symmetry_projectors (nrow S) d2_table (d2_classes R S).

  (** ed_symmetry.py:490-525 [getD3Projectors]. *)
  Definition d3_table := int_table
    [[1;  1;  1];
     [1;  1; -1];
     [2; -1;  0]]%Z.
  Definition d3_classes (R S : cmat) : list (list cmat) :=
    [[meye (nrow S)]; [R; op_pow R 2]; [S; mmul R S; mmul (op_pow R 2) S]].
  Definition d3_projectors (R S : cmat) := symmetry_projectors (nrow S) d3_table (d3_classes R S).

  (** ed_symmetry.py:528-568 [getD4Projectors]. *)
  Definition d4_table := int_table
    [[1;  1;  1;  1;  1];
     [1;  1;  1; -1; -1];
     [1; -1;  1;  1; -1];
     [1; -1;  1; -1;  1];
     [2;  0; -2;  0;  0]]%Z.
  Definition d4_classes (R S : cmat) : list (list cmat) :=
    [[meye (nrow S)]; [R; op_pow R 3]; [op_pow R 2];
     [S; mmul (op_pow R 2) S]; [mmul R S; mmul (op_pow R 3) S]].
  Definition d4_projectors (R S : cmat) := symmetry_projectors (nrow S) d4_table (d4_classes R S).

  (** ed_symmetry.py:571-594 [getD5Projectors]. *)
  Definition d5_table : cmat := Mat 4 4 (fun i j => real (nth j (nth i
    [[1;  1;  1; 1];
     [1; -1;  1; 1];
     [2;  0; - (1 + sqrt 5) / 2; (-1 + sqrt 5) / 2];
     [2;  0; (-1 + sqrt 5) / 2; - (1 + sqrt 5) / 2]] []) 0)).
  Definition d5_classes (R S : cmat) : list (list cmat) :=
    [[meye (nrow S)];
     [S; mmul R S; mmul (op_pow R 2) S; mmul (op_pow R 3) S; mmul (op_pow R 4) S];
     [R; op_pow R 4]; [op_pow R 2; op_pow R 3]].
  Definition d5_projectors (R S : cmat) := symmetry_projectors (nrow S) d5_table (d5_classes R S).

  (** ed_symmetry.py:597-624 [getD6Projectors]. *)
  Definition d6_table := int_table
    [[1;  1;  1;  1;  1;  1];
     [1;  1; -1; -1;  1;  1];
     [1; -1; -1;  1;  1; -1];
     [1; -1;  1; -1;  1; -1];
     [2;  2;  0;  0; -1; -1];
     [2; -2;  0;  0; -1;  1]]%Z.
  Definition d6_classes (R S : cmat) : list (list cmat) :=
    [[meye (nrow S)]; [op_pow R 3];
     [mmul R S; mmul (op_pow R 3) S; mmul (op_pow R 5) S];
     [S; mmul (op_pow R 2) S; mmul (op_pow R 4) S];
     [op_pow R 2; op_pow R 4]; [R; op_pow R 5]].
  Definition d6_projectors (R S : cmat) := symmetry_projectors (nrow S) d6_table (d6_classes R S).

  (** ed_symmetry.py:627-653 [getD7Projectors]. *)
  Definition d7_table : cmat :=
    let c (k : R) := 2 * cos (k * PI / 7) in
    Mat 5 5 (fun i j => real (nth j (nth i
    [[1;  1; 1; 1; 1];
     [1; -1; 1; 1; 1];
     [2;  0; c 2; c 4; c 6];
     [2;  0; c 4; c 6; c 2];
     [2;  0; c 6; c 2; c 4]] []) 0)).
  Definition d7_classes (R S : cmat) : list (list cmat) :=
    [[meye (nrow S)];
     [S; mmul R S; mmul (op_pow R 2) S; mmul (op_pow R 3) S; mmul (op_pow R 4) S;
      mmul (op_pow R 5) S; mmul (op_pow R 6) S];
     [R; op_pow R 6]; [op_pow R 3; op_pow R 4]; [op_pow R 2; op_pow R 5]].
  Definition d7_projectors (R S : cmat) := symmetry_projectors (nrow S) d7_table (d7_classes R S).

  (** ed_symmetry.py:656-772 [getC4V_and_3byb3]. *)
  Definition torus_table := int_table
    [[1;  1;  1;  1;  1;  1;  1;  1;  1];
     [1; -1;  1; -1;  1;  1; -1; -1;  1];
     [1; -1;  1;  1; -1;  1; -1;  1;  1];
     [1;  1;  1; -1; -1;  1;  1; -1;  1];
     [2;  0; -2;  0;  0;  2;  0;  0;  2];
     [4; -2;  0;  0;  0;  1;  1;  0; -2];
     [4;  0;  0; -2;  0; -2;  0;  1;  1];
     [4;  0;  0;  2;  0; -2;  0; -1;  1];
     [4;  2;  0;  0;  0;  1; -1;  0; -2]]%Z.
  Section Torus.
    Variables rot_op refl_op tx_op ty_op : cmat.
    Let r := rot_op. Let s := refl_op. Let x := tx_op. Let y := ty_op.
    Let r2 := op_pow r 2. Let r3 := op_pow r 3. Let x2 := op_pow x 2. Let y2 := op_pow y 2.
    (** Products of several operators, from the left as in python. *)
    Definition prod3 (a b c : cmat) := mmul (mmul a b) c.
    Definition prod4 (a b c d : cmat) := mmul (prod3 a b c) d.
    Definition torus_c1 := [meye (nrow s)].
    Definition torus_c4 := [s; mmul r2 s; mmul x s; mmul x2 s; prod3 y r2 s; prod3 y2 r2 s].
    Definition torus_c2 := [mmul r s; mmul r3 s; prod4 x y2 r s; prod4 x2 y r s; prod4 x y r3 s; prod4 x2 y2 r3 s].
    Definition torus_c3 := [r2; mmul x r2; mmul x2 r2; mmul y r2; mmul y2 r2; prod3 x y r2;
                            prod3 x y2 r2; prod3 x2 y r2; prod3 x2 y2 r2].
    Definition torus_c5 := [r; r3; mmul x r; mmul x2 r; mmul y r; mmul y2 r; prod3 x y r; prod3 x y2 r;
                            prod3 x2 y r; prod3 x2 y2 r; mmul x r3; mmul x2 r3; mmul y r3; mmul y2 r3;
                            prod3 x y r3; prod3 x y2 r3; prod3 x2 y r3; prod3 x2 y2 r3].
    Definition torus_c8 := [mmul y s; mmul y2 s; prod3 x y s; prod3 x y2 s; prod3 x2 y s; prod3 x2 y2 s;
                            prod3 x r2 s; prod3 x2 r2 s; prod4 x y r2 s; prod4 x y2 r2 s;
                            prod4 x2 y r2 s; prod4 x2 y2 r2 s].
    Definition torus_c7 := [prod3 x r s; prod3 x2 r s; prod3 y r s; prod3 y2 r s; prod4 x y r s; prod4 x2 y2 r s;
                            prod3 x r3 s; prod3 x2 r3 s; prod3 y r3 s; prod3 y2 r3 s;
                            prod4 x y2 r3 s; prod4 x2 y r3 s].
    Definition torus_c9 := [x; x2; y; y2].
    Definition torus_c6 := [mmul x y; mmul x2 y; mmul x y2; mmul x2 y2].
    Definition torus_classes : list (list cmat) :=
      [torus_c1; torus_c2; torus_c3; torus_c4; torus_c5; torus_c6; torus_c7; torus_c8; torus_c9].
    Definition torus_projectors := symmetry_projectors (nrow s) torus_table torus_classes.
  End Torus.

  (** ed_symmetry.py:775-789 [getC4V_and_4by4]. *)
  Definition torus4_projectors (R S Tx Ty : cmat) : res (list cmat) := Raise NotImplementedError.
End Reduce.
