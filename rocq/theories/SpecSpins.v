(** Specification of [n] sites with [d] local states each.  Basis state [k] is
    read as a number with [n] digits in base [d], the leading digit belonging
    to site 0; digit 0 is the state with the largest [S^z]. *)
From Coq Require Import List Arith Lia Bool QArith.
From Verif Require Import Scalars Matrix.
Import ListNotations.
Local Open Scope nat_scope.

Definition digit (d n p k : nat) : nat := (k / d ^ (n - 1 - p)) mod d.

(** [a] and [b] have the same digits except possibly at the sites in [L]. *)
Definition agree_off (d n : nat) (L : list nat) (a b : nat) : bool :=
  forallb (fun p => existsb (Nat.eqb p) L || (digit d n p a =? digit d n p b)) (seq 0 n).

(** The local states of [a] are those of [b] carried along by [pi]: site
    [pi p] of [a] is in the state of site [p] of [b]. *)
Definition carried (d n : nat) (pi : nat -> nat) (a b : nat) : bool :=
  forallb (fun p => digit d n (pi p) a =? digit d n p b) (seq 0 n).

(** Number of sites in local state 0 (spin up for spin 1/2). *)
Definition ups (n k : nat) : nat := length (filter (fun p => digit 2 n p k =? 0) (seq 0 n)).

(** Sum of the digits; the magnetisation is [n*s] minus it. *)
Definition digit_sum (d n k : nat) : nat := list_sum (map (fun p => digit d n p k) (seq 0 n)).

Section SpecSpins.
  Context {K : Type} {SR : StarRing K}.

  (** [<a| A_i |b>] and [<a| A_i B_j |b>] for [i <> j]. *)
  Definition site_elem (d n i : nat) (A : nat -> nat -> K) (a b : nat) : K :=
    if agree_off d n [i] a b then A (digit d n i a) (digit d n i b) else k0.
  Definition pair_elem (d n i j : nat) (A B : nat -> nat -> K) (a b : nat) : K :=
    if agree_off d n [i; j] a b
    then (A (digit d n i a) (digit d n i b) * B (digit d n j a) (digit d n j b))%K else k0.

  (** Pauli matrices, index 0 for spin up. *)
  Definition sigma_x (r c : nat) : K := if r =? c then k0 else k1.
  Definition sigma_y (r c : nat) : K := if r =? c then k0 else if r =? 0 then kopp ki else ki.
  Definition sigma_z (r c : nat) : K := if r =? c then (if r =? 0 then k1 else kopp k1) else k0.

  (** [sum_{i>j} c J^a_ij A^a_i A^a_j - sum_i c' h^a_i A^a_i], summed over a = x, y, z. *)
  Definition spin_elem (d n : nat) (c c' : K) (Ax Ay Az : nat -> nat -> K)
      (Jx Jy Jz : nat -> nat -> K) (hx hy hz : nat -> K) (a b : nat) : K :=
    (ksum n (fun i => ksum i (fun j =>
       c * (Jx i j * pair_elem d n i j Ax Ax a b
            + Jy i j * pair_elem d n i j Ay Ay a b
            + Jz i j * pair_elem d n i j Az Az a b)))
     - ksum n (fun i => c' * (hx i * site_elem d n i Ax a b
            + hy i * site_elem d n i Ay a b
            + hz i * site_elem d n i Az a b)))%K.

  (** The documented Hamiltonian of a spin-1/2 system in terms of Pauli
      matrices (class docstring of ed_spins.py). *)
  Definition pauli_hamiltonian (n : nat) Jx Jy Jz hx hy hz : mat K :=
    Mat (2 ^ n) (2 ^ n) (spin_elem 2 n (kQ (1 # 2)) (kQ (1 # 2)) sigma_x sigma_y sigma_z Jx Jy Jz hx hy hz).

  (** Matrix carrying the local states along a permutation of the sites. *)
  Definition carry_mat (d n : nat) (pi : nat -> nat) : mat K :=
    Mat (d ^ n) (d ^ n) (fun a b => if carried d n pi a b then k1 else k0).
End SpecSpins.
