(** Model of remaining methods: sums over sites with a wave vector, thermal
    averages of many sites, the partition function of a Hamiltonian, regular
    polygons and interactions that decay with distance.

    Simplified: numbers are exact; printed reports are left out; an empty list of
    temperatures is not modelled (the result is empty). *)
From Coq Require Import List String Arith Reals Bool.
From Verif Require Import Scalars Res Matrix ModelGeometry ModelPhase ModelSymmetry ModelBase ModelThermal.
Import ListNotations.
Local Open Scope R_scope.

(** ed_base.py:435-465 [get_sum_op_q]; [xs] and [ys] are the locations of the
    sites.  The accumulator starts as the integer 0 ([None] here), which is
    returned if there are no sites. *)
Definition sum_op_q (s : sys) (xs ys : list R) (q : R * R) (op : cmat) (species : nat) (f : fmt) : res (option cmat) :=
  rfold (fun acc ii =>
      A <- single_site_op s ii species op f ;;
      let phase := nth ii xs 0 * fst q + nth ii ys 0 * snd q in
      opt_add acc (mscale (cos phase, sin phase) A))
    (seq 0 (s_nsites s)) None.

(** ed_base.py:617-663 [get_thermal_exp_sites]; [site_op] gives the full operator
    of a site ([get_single_site_op]). *)
Definition thermal_exp_sites (V : cmat) (E : list R) (nsites : nat) (site_op : nat -> res cmat) (temps : list R)
  (sites : option (list nat)) (P : option cmat) : res (list (list R) * list nat) :=
  let sites := match sites with None => seq 0 nsites | Some l => l end in
  vals <- rmap (fun site =>
      op <- site_op site ;;
      full <- conj_by P (nrow V) op ;;
      rmap (exp_vals_thermal V full E) temps) sites ;;
  Ok (vals, sites).

(** ed_base.py:710-760 [get_thermal_corr_sites]; [pair_op] gives the full operator
    of two sites ([get_two_site_op]). *)
Definition thermal_corr_sites (V : cmat) (E : list R) (nsites : nat) (pair_op : nat -> nat -> res cmat) (temps : list R)
  (sites : option (list nat * list nat)) (P : option cmat) : res (list (list R) * list (nat * nat)) :=
  pairs <- match sites with None => Ok (all_pairs nsites) | Some (l1, l2) => zip_sites l1 l2 end ;;
  vals <- rmap (fun p =>
      op <- pair_op (fst p) (snd p) ;;
      full <- conj_by P (nrow V) op ;;
      rmap (exp_vals_thermal V full E) temps) pairs ;;
  Ok (vals, pairs).

Section Trace.
  (** ed_base.py:935-951 [get_partition_fn_hamiltonian]; [expm] is scipy's matrix
      exponential, which gives a sparse matrix for a sparse one and an array for
      an array; an array has no method [toarray]. *)
  Variable expm : cmat -> cmat.
  Definition partition_fn_hamiltonian (sparse : bool) (H : cmat) (beta : R) : res R :=
    if is_zero beta then Ok (INR (nrow H))
    else
      let X := expm (mscale (real (- beta)) H) in
      if sparse then
        Ok (lsum (map (fun i => fst (ent X i i)) (seq 0 (Nat.min (nrow X) (ncol X)))))
      else Raise AttributeError.
End Trace.

(** ed_geometry.py:198-229 [createRegularPolygonGeometry] without arguments for
    the matrices: assignments to an array of zeros, then the locations.  The
    indices -1 and -2 count from the end. *)
Definition from_end (n k : nat) : res nat := if (k <=? n)%nat then Ok (n - k)%nat else Raise IndexError.
Definition set_one (n : nat) (A : nat -> nat -> R) (i j : nat) : res (nat -> nat -> R) :=
  if ((i <? n) && (j <? n))%nat then Ok (fun a b => if ((a =? i) && (b =? j))%nat then 1 else A a b) else Raise IndexError.
Definition polygon_adjacency (n : nat) : res (nat -> nat -> R) :=
  A <- set_one n (fun _ _ => 0) 0 1 ;;
  l1 <- from_end n 1 ;;
  A <- set_one n A 0 l1 ;;
  A <- set_one n A l1 0 ;;
  l2 <- from_end n 2 ;;
  A <- set_one n A l1 l2 ;;
  rfold (fun A ii => B <- set_one n A ii (ii - 1) ;; set_one n B ii (ii + 1)) (seq 1 (n - 2)) A.
Definition polygon_site (n ii : nat) : R * R :=
  let theta := 2 * PI / INR n in
  let d := / 2 / sin (theta / 2) in
  (d * sin (theta * INR ii), d * cos (theta * INR ii)).
(** [validate_adjacency_mat], ed_geometry.py:562-577, of an n x n matrix. *)
Definition adjacency_valid (n : nat) (A : nat -> nat -> R) : bool :=
  forallb (fun i => forallb (fun j => is_zero (A i j - A j i) && (is_zero (A i j) || is_zero (A i j - 1))) (seq 0 n)) (seq 0 n).
Definition polygon (n : nat) : res (list (R * R) * (nat -> nat -> R)) :=
  A <- polygon_adjacency n ;;
  if adjacency_valid n A then Ok (map (polygon_site n) (seq 0 n), A) else Raise ValueError.

(** ed_spins.py:128-142 [get_interaction_mat_c6].  A geometry object has the
    attributes which its constructor (ed_geometry.py:81-124) sets; looking up
    another name raises AttributeError.  Arrays as functions of two indices. *)
Definition array := nat -> nat -> R.
Definition attributes (xd yd adj : array) : list (string * array) :=
  [("xdist_mat", xd); ("ydist_mat", yd); ("adjacency_mat", adj)]%string.
Fixpoint attribute (l : list (string * array)) (name : string) : res array :=
  match l with
  | [] => Raise AttributeError
  | (n, v) :: t => if String.eqb n name then Ok v else attribute t name
  end.
Definition interaction_mat_c6 (geometry : list (string * array)) (c6 cutoff : R) : res array :=
  x <- attribute geometry "site_distances_reduced_x" ;;
  y <- attribute geometry "site_distances_reduced_y" ;;
  Ok (fun i j => let d := sqrt (x i j ^ 2 + y i j ^ 2) in if is_zero d then 0 else c6 * (/ d) ^ 6).
