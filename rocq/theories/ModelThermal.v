(** Model of diagonalisation, time evolution, expectation values, thermal
    averages and response functions: exact_diag/ed_base.py lines 165-279,
    483-793 and 840-1202, exact_diag/ed_fermions.py lines 521-649.

    Simplified: real and complex numbers are exact, so [np.round(x, 13) == 0] is
    the condition |x| <= 0.5e-13; the functions of several temperatures call the
    one of a single temperature in a loop, only the latter is modelled; printed
    reports are left out; sparse and dense storage are one.  Numpy's broadcasting
    of a single row or column against a longer one is reported as ValueError.
    [np.argsort] is modelled by a stable sort. *)
From Coq Require Import List Arith Reals Bool.
From Verif Require Import Scalars Res Matrix ModelGeometry ModelPhase ModelSymmetry ModelBase.
Import ListNotations.
Local Open Scope R_scope.

(** One state vector (an array of one dimension) or several, as columns. *)
Inductive states := OneState (n : nat) (v : nat -> CR) | Columns (A : cmat).
(** [np.expand_dims(states, axis=1)] *)
Definition as_columns (s : states) : cmat :=
  match s with OneState n v => Mat n 1 (fun i _ => v i) | Columns A => A end.

(** [np.sum] of an array of one dimension. *)
Definition lsum (l : list R) : R := fold_right Rplus 0 l.
(** [np.multiply] of two arrays of one dimension. *)
Fixpoint lmul (l m : list R) : list R :=
  match l, m with x :: l', y :: m' => x * y :: lmul l' m' | _, _ => [] end.
(** [x == 0] *)
Definition is_zero (x : R) : bool := if Req_EM_T x 0 then true else false.

(** ed_base.py:483-512 [get_exp_vals]. *)
Definition col_exp (S OS : cmat) (j : nat) : R :=
  fst (ksum (nrow S) (fun i => kmul (kconj (ent S i j)) (ent OS i j))).
Definition exp_vals (st : states) (op : cmat) : res (list R) :=
  let S := as_columns st in
  if ((ncol op =? nrow S) && (nrow op =? nrow S))%nat then
    Ok (map (col_exp S (mmul op S)) (seq 0 (ncol S)))
  else Raise ValueError.

(** ed_base.py:514-549 [get_overlaps], before [np.squeeze] drops the axes of
    length one. *)
Definition overlaps (s1 s2 : states) : res cmat :=
  let A := as_columns s1 in
  let B := as_columns s2 in
  if (nrow A =? nrow B)%nat then Ok (mmul (madj A) B) else Raise ValueError.

(** ed_base.py:551-575 [get_norms].  For a single vector line 565 calls
    [np.expand_dim], a name which numpy does not have. *)
Definition norms (st : states) : res (list R) :=
  match st with
  | OneState _ _ => Raise AttributeError
  | Columns A => Ok (map (col_exp A A) (seq 0 (ncol A)))
  end.

(** ed_base.py:764-793 [get_subspace_overlaps], before [np.squeeze]: one row for
    every projector. *)
Definition subspace_overlaps (st : states) (projs : list cmat) : res (list (list R)) :=
  rmap (fun P => exp_vals (Columns (as_columns st)) (mmul (madj P) P)) projs.

(** [projector * op * projector.conj().transpose()]; the product of matrices of
    different sizes raises ValueError. *)
Definition cmulv (A B : cmat) : res cmat :=
  if (ncol A =? nrow B)%nat then Ok (mmul A B) else Raise ValueError.
Definition conj_by (P : option cmat) (n : nat) (op : cmat) : res cmat :=
  let P := match P with None => meye n | Some P => P end in
  PO <- cmulv P op ;; cmulv PO (madj P).

(** ed_base.py:580-618 [get_exp_vals_sites]; [site_op] gives the full operator of
    a site ([get_single_site_op], ModelBase). *)
Definition exp_vals_sites (st : states) (nsites : nat) (site_op : nat -> res cmat)
  (sites : option (list nat)) (P : option cmat) : res (list (list R) * list nat) :=
  let S := as_columns st in
  let sites := match sites with None => seq 0 nsites | Some l => l end in
  vals <- rmap (fun site => op <- site_op site ;; full <- conj_by P (nrow S) op ;; exp_vals (Columns S) full) sites ;;
  Ok (vals, sites).

(** ed_base.py:696-698, :744-746: [meshgrid] fills its rows with the first site,
    its columns with the second one, and the pairs with [xx >= yy] are read row
    by row. *)
Definition all_pairs (n : nat) : list (nat * nat) :=
  flat_map (fun y => map (fun x => (x, y)) (filter (fun x => y <=? x)%nat (seq 0 n))) (seq 0 n).

(** ed_base.py:665-711 [get_corr_sites]; [pair_op] gives the full operator of two
    sites ([get_two_site_op], ModelBase).  Only the number of first sites is
    looked at; a missing second site raises IndexError. *)
Fixpoint zip_sites (l1 l2 : list nat) : res (list (nat * nat)) :=
  match l1, l2 with
  | [], _ => Ok []
  | _ :: _, [] => Raise IndexError
  | x :: l1', y :: l2' => t <- zip_sites l1' l2' ;; Ok ((x, y) :: t)
  end.
Definition corr_sites (st : states) (nsites : nat) (pair_op : nat -> nat -> res cmat)
  (sites : option (list nat * list nat)) (P : option cmat) : res (list (list R) * list (nat * nat)) :=
  let S := as_columns st in
  pairs <- match sites with None => Ok (all_pairs nsites) | Some (l1, l2) => zip_sites l1 l2 end ;;
  vals <- rmap (fun p => op <- pair_op (fst p) (snd p) ;; full <- conj_by P (nrow S) op ;; exp_vals (Columns S) full) pairs ;;
  Ok (vals, pairs).

(** ed_base.py:888-933 [get_thermal_weights]. *)
Definition rounds_to_0 (x : R) : bool := rle_b (Rabs x) (/ 2 * / 10 ^ 13).
Definition thermal_weights (offset : bool) (E : list R) (T : R) : res (list R * R) :=
  E <- (if offset then match E with [] => Raise IndexError | e0 :: _ => Ok (map (fun e => e - e0) E) end
        else Ok E) ;;
  if is_zero T then
    let n := length (filter rounds_to_0 E) in
    Ok (repeat 1 n ++ repeat 0 (length E - n), INR n)
  else
    let w := map (fun e => exp (- (1 / T) * e)) E in
    Ok (w, lsum w).

(** [eig_vects[:, 0:n]] *)
Definition first_cols (n : nat) (A : cmat) : cmat := Mat (nrow A) (Nat.min n (ncol A)) (ent A).

(** ed_base.py:840-886 [get_exp_vals_thermal], one temperature. *)
Definition exp_vals_thermal (V op : cmat) (E : list R) (T : R) : res R :=
  wz <- thermal_weights true E T ;;
  let '(w, z) := wz in
  if is_zero T then
    let n := length (filter (fun x => negb (is_zero x)) w) in
    ev <- exp_vals (Columns (first_cols n V)) op ;; Ok (lsum ev / z)
  else
    ev <- exp_vals (Columns V) op ;;
    if (length ev =? length w)%nat then Ok (lsum (lmul ev w) / z) else Raise ValueError.

(** [np.min]; of an empty array it raises ValueError. *)
Definition list_min (l : list R) : res R :=
  match l with [] => Raise ValueError | x :: t => Ok (fold_right Rmin x t) end.

(** ed_base.py:953-999 [get_partition_fn_sectors], one temperature. *)
Definition partition_fn_sectors (secs : list (list R)) (T : R) : res (list R) :=
  mins <- rmap list_min secs ;;
  emin <- list_min mins ;;
  rmap (fun E => wz <- thermal_weights false (map (fun e => e - emin) E) T ;; Ok (snd wz)) secs.

(** ed_base.py:1001-1044 [thermal_avg_combine_sectors], one temperature and one
    number for every sector. *)
Definition combine_sectors (vals : list R) (secs : list (list R)) (T : R) : res R :=
  z <- partition_fn_sectors secs T ;;
  if (length vals =? length z)%nat then Ok (lsum (lmul vals z) / lsum z) else Raise ValueError.

(** ed_base.py:165-204 [diagH].  [eigh] stands for [np.linalg.eigh], [eigsh] for
    scipy's iterative solver asked for eigenvalues of largest magnitude. *)
Section Diag.
  Variable eigh : cmat -> list R * cmat.
  Variable eigsh : cmat -> nat -> list R * cmat.

  Definition r_le (f : nat -> R) (i j : nat) : bool := rle_b (f i) (f j).
  Definition argsort (l : list R) : list nat := stable_sort (r_le (fun i => nth i l 0)) (seq 0 (length l)).
  Definition take_cols (A : cmat) (l : list nat) : cmat :=
    Mat (nrow A) (length l) (fun i j => ent A i (nth j l O)).

  Definition shift_offset : R := 100.
  Definition diagH (H : cmat) (neigs : nat) (use_sparse : bool) : list R * cmat :=
    let '(E, V) :=
      if use_sparse then
        let '(E, V) := eigsh (madd H (mscale (real shift_offset) (meye (nrow H)))) neigs in
        (map (fun e => e - shift_offset) E, V)
      else eigh H in
    let s := argsort E in
    (map (fun i => nth i E 0) s, take_cols V s).
End Diag.

(** ed_base.py:206-279 [quench_time_evolve]. *)
Definition to_eig (V : cmat) (psi : nat -> CR) (k : nat) : CR :=
  ksum (nrow V) (fun j => kmul (kconj (ent V j k)) (psi j)).
Definition evolve (V : cmat) (E : list R) (psi : nat -> CR) (t : R) (i : nat) : CR :=
  ksum (ncol V) (fun k => kmul (ent V i k) (kmul (cexp (- (t * nth k E 0))) (to_eig V psi k))).
(** The entries before line 269: for every initial state a matrix, row for the
    basis state, column for the time. *)
Definition quench (st : states) (V : cmat) (E : list R) (times : list R) : res (list cmat) :=
  let S := as_columns st in
  if ((nrow V =? nrow S) && (ncol V =? length E))%nat then
    Ok (map (fun s => Mat (nrow V) (length times) (fun i a => evolve V E (fun j => ent S j s) (nth a times 0) i))
            (seq 0 (ncol S)))
  else Raise ValueError.
(** ed_base.py:269-272: shape of the returned array. *)
Definition quench_shape (nbasis ntimes nstates : nat) : list nat :=
  let sh := filter (fun d => negb (d =? 1)%nat) [nbasis; ntimes; nstates] in
  match sh with [d] => [d; 1]%nat | _ => sh end.

(** ed_base.py:1046-1069 [get_matrix_elems]. *)
Definition matrix_elems (V op : cmat) : res cmat :=
  A <- cmulv op V ;; cmulv (madj V) A.

(** ** Response functions *)
Inductive stat_format := BosonFmt | FermionFmt | OtherFmt.
(** Two sums over a matrix, flattened row by row. *)
Definition sum2 (n : nat) (f : nat -> nat -> R) : R :=
  lsum (flat_map (fun i => map (f i) (seq 0 n)) (seq 0 n)).
Definition sum1 (n : nat) (f : nat -> R) : R := lsum (map f (seq 0 n)).

(** ed_base.py:1098 *)
Definition lor (w eta amp : R) : R := (amp * eta / PI) / (eta ^ 2 + w ^ 2).

(** The shapes which numpy accepts: square matrices of the size of the spectrum. *)
Definition square_of (A : cmat) (E : list R) : bool :=
  ((nrow A =? length E) && (ncol A =? length E))%nat.

(** ed_base.py:1071-1141 [get_response_fn_retarded]: value of the returned function
    at frequency [w] and broadening [eta] (not zero). *)
Definition response_retarded (A B : cmat) (E : list R) (T : R) (f : stat_format) (w eta : R) : res R :=
  factor <- match f with BosonFmt => Ok (-1) | FermionFmt => Ok 1 | OtherFmt => Raise GenericException end ;;
  if negb (square_of A E && square_of B E) then Raise ValueError else
  match E with
  | [] => Raise IndexError
  | e0 :: _ =>
      let e n := nth n E 0 - e0 in
      let N := length E in
      if is_zero T then
        Ok (PI / 1 * (sum1 N (fun n => lor (w + - e n) eta (fst (kmul (ent A O n) (ent B n O)))) +
                      sum1 N (fun n => lor (w + e n) eta (factor * fst (kmul (ent A n O) (ent B O n))))))
      else
        let beta := 1 / T in
        let z := sum1 N (fun n => exp (- beta * e n)) in
        Ok (PI / z * sum2 N (fun n m =>
              (1 + factor * exp (beta * (e n - e m))) *
              lor (w + (e n - e m)) eta (fst (kmul (ent A n m) (ent B m n)) * exp (- beta * e m))))
  end.

(** ed_base.py:1143-1202 [get_response_fn_time_ordered].  The amplitudes keep
    their imaginary parts: the value is a complex number. *)
Definition clor (wo eta w : R) (amp : CR) : CR := kmul (real (lor (w - wo) eta 1)) amp.
Definition response_time_ordered (A B : cmat) (E : list R) (T w eta : R) : res CR :=
  if negb (square_of A E && square_of B E) then Raise ValueError else
  match E with
  | [] => Raise IndexError
  | e0 :: _ =>
      let e n := nth n E 0 - e0 in
      let N := length E in
      if is_zero T then
        Ok (kmul (real (PI / 1))
             (ksub (ksum N (fun n => clor (Rabs w) eta (e n) (kmul (ent A n O) (ent B O n))))
                   (ksum N (fun n => clor (Rabs w) eta (- e n) (kmul (ent A O n) (ent B n O))))))
      else
        let beta := 1 / T in
        let z := sum1 N (fun n => exp (- beta * e n)) in
        Ok (kmul (real (PI / z))
             (ksub (ksum N (fun n => ksum N (fun m =>
                       clor w eta (e n - e m) (kmul (kmul (ent A n m) (ent B m n)) (real (exp (- beta * e m)))))))
                   (ksum N (fun n => ksum N (fun m =>
                       clor w eta (- (e n - e m)) (kmul (kmul (ent A m n) (ent B n m)) (real (exp (- beta * e m)))))))))
  end.

(** ed_fermions.py:521-582 [integrate_conductivity]. *)
Definition integrate_conductivity (nsites : nat) (J : cmat) (E : list R) (T : R) : res R :=
  if negb (square_of J E) then Raise ValueError else
  match E with
  | [] => Raise IndexError
  | e0 :: _ =>
      let e n := nth n E 0 - e0 in
      let N := length E in
      if is_zero T then
        Ok (2 * (PI / INR nsites * sum1 N (fun n =>
              modulus (ent J n O) ^ 2 * (if is_zero (e n) then 0 else 1 / e n))))
      else
        let beta := 1 / T in
        let z := sum1 N (fun n => exp (- beta * e n)) in
        Ok (PI / z / INR nsites * sum2 N (fun n m =>
              modulus (ent J n m) ^ 2 * exp (- beta * e m) *
              (if is_zero (e n - e m) then 0 else (1 - exp (- beta * (e n - e m))) / (e n - e m))))
  end.

(** ed_fermions.py:584-649 [get_optical_cond_fn]: value of the returned function at
    a frequency which is not zero.  Line 605: entries up to 1e-16 are left out. *)
Definition not_tiny (z : CR) : bool := rlt_b (/ 10 ^ 16) (modulus z).
Definition optical_cond (nsites : nat) (J : cmat) (E : list R) (T w eta : R) : res R :=
  if negb (square_of J E) then Raise ValueError else
  match E with
  | [] => Raise IndexError
  | e0 :: _ =>
      let e n := nth n E 0 - e0 in
      let N := length E in
      if is_zero T then
        Ok (PI / 1 / INR nsites * sum1 N (fun n =>
              if not_tiny (ent J n O) then
                if is_zero (e n) then 0 else lor (e n - Rabs w) eta (modulus (ent J n O) ^ 2) / e n
              else 0))
      else
        let beta := 1 / T in
        let z := sum1 N (fun n => exp (- beta * e n)) in
        Ok (PI / z / INR nsites * sum2 N (fun n m =>
              if not_tiny (ent J n m) then
                (1 - exp (- beta * (e n - e m))) *
                lor (e n - e m - w) eta (modulus (ent J n m) ^ 2 * exp (- beta * e m)) / w
              else 0))
  end.
