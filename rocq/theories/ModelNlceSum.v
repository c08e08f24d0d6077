(** Model of the summation functions of exact_diag/ed_nlce.py (lines 504-587).

    Numbers are reals.  The arrays of expectation values have one row per cluster
    (or order) and any further axes; the numbers at one position of the further
    axes are treated independently of the others, and the model follows one
    position.  What happens to the further axes themselves is [weights_shape]. *)
From Coq Require Import List Arith Reals.
From Verif Require Import Res.
Import ListNotations.
Local Open Scope R_scope.

Definition dot (xs ys : list R) : R := fold_right Rplus 0 (map (fun p => fst p * snd p) (combine xs ys)).
(** [l[k] = x]. *)
Fixpoint set_at (k : nat) (x : R) (l : list R) : list R :=
  match l, k with
  | [], _ => []
  | y :: t, O => x :: t
  | y :: t, S k => y :: set_at k x t
  end.
(** [l[a:b]]. *)
Definition slice {A} (a b : nat) (l : list A) : list A := firstn (b - a) (skipn a l).

(** ed_nlce.py:533-549, the loop over clusters; [tensordot] raises unless the rows
    of the multiplicity matrix are as long as the list of clusters. *)
Definition nlce_weights (sc : list (list R)) (vals : list R) : res (list R) :=
  rfold (fun w ii =>
    match nth_error sc ii with
    | None => Raise IndexError
    | Some row => if (length row =? length vals)%nat then Ok (set_at ii (nth ii vals 0 - dot row w) w) else Raise ValueError
    end) (seq 0 (length vals)) (repeat 0 (length vals)).

(** ed_nlce.py:504-563 [get_nlce_exp_val]: total, contribution of each order, weights.
    Division by zero sites gives inf or nan. *)
Definition nlce_exp_val (vals : list R) (sc : list (list R)) (mult : list R) (inds : list nat) (nsites : nat)
  : res (R * list R * list R) :=
  w <- nlce_weights sc vals ;;
  if negb (length mult =? length vals)%nat then Raise ValueError else
  if (nsites =? 0)%nat then Raise NotFinite else
  if (length vals =? 0)%nat then Raise IndexError else
  let per_site x := x / INR nsites in
  let orders := map (fun ii => per_site (dot (slice (nth ii inds O) (nth (S ii) inds O) mult) (slice (nth ii inds O) (nth (S ii) inds O) w)))
                    (seq 0 (length inds - 1)) in
  Ok (per_site (dot mult w), orders, w).

(** [scipy.special.binom] at natural numbers. *)
Fixpoint choose (n k : nat) : nat :=
  match k, n with
  | O, _ => 1
  | S _, O => 0
  | S k', S n' => choose n' k' + choose n' k
  end.

(** ed_nlce.py:566-587 [euler_resum]: the sum and the terms. *)
Definition euler_term (y : R) (xs : list R) (ii : nat) : R :=
  / (1 + y) ^ (S ii) * dot (map (fun jj => INR (choose ii jj) * y ^ (S jj)) (seq 0 (S ii))) (firstn (S ii) xs).
Definition euler_resum (y : R) (xs : list R) : R * list R :=
  let terms := map (euler_term y xs) (seq 0 (length xs)) in (fold_right Rplus 0 terms, terms).

(** ** Axes *)
Local Open Scope nat_scope.
(** [np.squeeze]. *)
Definition squeezed (s : list nat) : list nat := filter (fun k => negb (k =? 1)) s.
(** numpy's broadcasting, on shapes written from the last axis to the first. *)
Fixpoint broadcast_rev (s t : list nat) : option (list nat) :=
  match s, t with
  | [], t => Some t
  | s, [] => Some s
  | a :: s, b :: t =>
    match broadcast_rev s t with
    | None => None
    | Some r => if a =? b then Some (a :: r) else if a =? 1 then Some (b :: r) else if b =? 1 then Some (a :: r) else None
    end
  end.
Definition broadcast (s t : list nat) : option (list nat) := option_map (@rev nat) (broadcast_rev (rev s) (rev t)).
Fixpoint shape_eqb (s t : list nat) : bool :=
  match s, t with
  | [], [] => true
  | a :: s, b :: t => (a =? b) && shape_eqb s t
  | _, _ => false
  end.
(** ed_nlce.py:548-549: [weights[ii, ...]] has the further axes [s], and is assigned
    the difference of an array with axes [s] and a squeezed array with axes [1 :: s];
    assignment broadcasts the right-hand side to [s]. *)
Definition weights_shape (s : list nat) : res unit :=
  match broadcast s (squeezed (1 :: s)) with
  | None => Raise ValueError
  | Some r => match broadcast r s with
              | Some r' => if shape_eqb r' s then Ok tt else Raise ValueError
              | None => Raise ValueError
              end
  end.
