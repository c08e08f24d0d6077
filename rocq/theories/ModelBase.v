(** Model of the operator-building part of exact_diag/ed_base.py.

    Site and species indices are natural numbers (python's negative indices are
    not modelled).  Matrices are modelled by [mat]; scipy's shape errors by
    [Raise ValueError]. *)
From Coq Require Import List Arith Lia QArith Bool.
From Verif Require Import Scalars Res Matrix.
Import ListNotations.
Local Open Scope nat_scope.

(** The [format] argument: "fermion", "boson", or any other string. *)
Inductive fmt := Fermion | Boson | OtherFormat.

(** The three numbers of an [ed_base] object the operator builders read:
    [geometry.nsites], [nspecies], [nbasis] (ed_base.py:22-23, 101-104). *)
Record sys := Sys { s_nsites : nat; s_nspecies : nat; s_nbasis : nat }.

(** [n_logical_sites = geometry.nsites * nspecies] (ed_base.py:333, 371). *)
Definition nlog (s : sys) : nat := s_nsites s * s_nspecies s.

(** [self.nstates] (ed_base.py:103). *)
Definition nstates (s : sys) : nat := s_nbasis s ^ nlog s.

(** ed_base.py:285-300 [spinful2spinlessIndex]. *)
Definition spinful2spinless (site n spin : nat) : nat := n * spin + site.

(** ed_base.py:302-317 [spinless2spinfullIndex].  The python code divides with
    [/]; the quotient is exact, the float type of the result is not modelled.
    [n = 0] is a division by zero in numpy and not used. *)
Definition spinless2spinful (idx n : nat) : nat * nat :=
  let site := idx mod n in (site, (idx - site) / n).

Section Base.
  Context {K : Type} {SR : StarRing K}.

  (** scipy's [A + B] and [A * B] raise ValueError on shape mismatch. *)
  Definition cadd (A B : mat K) : res (mat K) :=
    if (nrow A =? nrow B) && (ncol A =? ncol B) then Ok (madd A B) else Raise ValueError.
  Definition csub (A B : mat K) : res (mat K) :=
    if (nrow A =? nrow B) && (ncol A =? ncol B) then Ok (msub A B) else Raise ValueError.
  Definition cmul (A B : mat K) : res (mat K) :=
    if ncol A =? nrow B then Ok (mmul A B) else Raise ValueError.

  (** ed_base.py:26-37: class attributes. *)
  Definition pauli_z : mat K := mlit 2 2 [[k1; k0]; [k0; kopp k1]].
  Definition pauli_y : mat K := mlit 2 2 [[k0; kopp ki]; [ki; k0]].
  Definition pauli_x : mat K := mlit 2 2 [[k0; k1]; [k1; k0]].
  Definition pauli_plus : mat K := mlit 2 2 [[k0; k1]; [k0; k0]].
  Definition pauli_minus : mat K := mlit 2 2 [[k0; k0]; [k1; k0]].
  Definition parity_op : mat K := mlit 2 2 [[k1; k0]; [k0; kopp k1]].

  (** [sp.eye(b ** e)] for a possibly negative exponent [e = a - c - 1]: python
      gives a float below one, which scipy's [eye] truncates to 0. *)
  Definition eye_pow (b a c : nat) : mat K :=
    if a <? c + 1 then meye 0 else meye (b ^ (a - c - 1)).

  (** The loop [for ii in range(0, n): E = sp.kron(E, parity_op)] started at
      [sp.eye(1, 1)] (ed_base.py:337-339, 396-398). *)
  Fixpoint parity_loop (n : nat) : mat K :=
    match n with O => meye 1 | S m => mkron (parity_loop m) parity_op end.

  (** ed_base.py:319-346 [get_single_site_op]. *)
  Definition single_site_op (s : sys) (site species : nat) (op : mat K) (f : fmt) : res (mat K) :=
    let q := spinful2spinless site (s_nsites s) species in
    endmat <- match f with
              | Fermion => Ok (parity_loop (nlog s - q - 1))
              | Boson => Ok (eye_pow 2 (nlog s) q)
              | OtherFormat => Raise GenericException
              end ;;
    Ok (mkron (mkron (meye (s_nbasis s ^ q)) op) endmat).

  (** ed_base.py:348-408 [get_two_site_op]. *)
  Definition two_site_op (s : sys) (site1 sp1 site2 sp2 : nat) (op1 op2 : mat K) (f : fmt)
    : res (mat K) :=
    let q1 := spinful2spinless site1 (s_nsites s) sp1 in
    let q2 := spinful2spinless site2 (s_nsites s) sp2 in
    if q1 =? q2 then
      p <- cmul op1 op2 ;; single_site_op s site1 sp1 p Boson
    else
      let qa := Nat.min q1 q2 in
      let qb := Nat.max q1 q2 in
      ab <- (if q1 =? qa then
               opb <- match f with Fermion => cmul parity_op op2 | _ => Ok op2 end ;; Ok (op1, opb)
             else
               opb <- match f with Fermion => cmul op1 parity_op | _ => Ok op1 end ;; Ok (op2, opb)) ;;
      mid <- match f with
             | Fermion => Ok (parity_loop (qb - qa - 1))
             | Boson => Ok (meye (s_nbasis s ^ (qb - qa - 1)))
             | OtherFormat => Raise GenericException
             end ;;
      Ok (mkron (mkron (mkron (meye (s_nbasis s ^ qa)) (fst ab)) mid)
                (mkron (snd ab) (eye_pow (s_nbasis s) (nlog s) qb))).

  (** ed_base.py:410-433 [get_sum_op].  The accumulator starts as the integer 0
      ([None] here); with no sites [0 .tocsr()] raises AttributeError. *)
  Definition opt_add (acc : option (mat K)) (A : mat K) : res (option (mat K)) :=
    match acc with
    | None => Ok (Some A)
    | Some B => C <- cadd B A ;; Ok (Some C)
    end.

  Definition sum_op (s : sys) (op : mat K) (species : nat) (f : fmt) : res (mat K) :=
    r <- rfold (fun acc ii => A <- single_site_op s ii species op f ;; opt_add acc A)
               (seq 0 (s_nsites s)) None ;;
    match r with Some A => Ok A | None => Raise AttributeError end.

  (** ed_base.py:123-152 [get_xform_op]; [swap] is the subclass's [get_swap_op].
      The python accumulators start as the integer 1 ([None] here); multiplying
      by it leaves the matrix unchanged.  When no cycle has two elements the
      integer 1 is returned. *)
  Definition one_mul (A : mat K) (acc : option (mat K)) : res (option (mat K)) :=
    match acc with
    | None => Ok (Some A)
    | Some B => C <- cmul A B ;; Ok (Some C)
    end.

  (** The inner loop [for jj in range(len(cycle) - 1, 0, -1)]: the pairs
      [(cycle[jj-1], cycle[jj])] from the last one to the first. *)
  Definition cycle_pairs (c : list nat) : list (nat * nat) :=
    rev (combine c (tl c)).

  Definition cycle_op (swap : nat -> nat -> nat -> res (mat K)) (c : list nat) (species : nat)
    : res (option (mat K)) :=
    rfold (fun acc p => A <- swap (fst p) (snd p) species ;; one_mul A acc) (cycle_pairs c) None.

  (** [None] stands for the integer 1. *)
  Definition xform_op (s : sys) (swap : nat -> nat -> nat -> res (mat K)) (cycles : list (list nat))
    : res (option (mat K)) :=
    rfold (fun trans c =>
             if 1 <? length c then
               rfold (fun trans ii =>
                        C <- cycle_op swap c ii ;;
                        match C with
                        | None => Ok trans
                        | Some A => one_mul A trans
                        end) (seq 0 (s_nspecies s)) trans
             else Ok trans) cycles None.

  (** ed_base.py:795-834 [get_subspace_projs].  [is_csr] is the storage check on
      line 813; nothing checks that the operator is diagonal.  The projector of
      an eigenvalue is a row selection matrix. *)
  Definition sel (n : nat) (idx : list nat) : mat K :=
    Mat (length idx) n (fun i j => kb (nth i idx n =? j)).

  Definition diag_indices (op : mat K) (v : K) : list nat :=
    filter (fun i => negb (kneb (ent op i i) v)) (seq 0 (Nat.min (nrow op) (ncol op))).

  Definition diagonal (op : mat K) : list K := map (fun i => ent op i i) (seq 0 (Nat.min (nrow op) (ncol op))).

  (** [eig_vals = None] means [np.unique] of the diagonal; numpy returns the
      values sorted, the order is not modelled (complex values). *)
  Definition subspace_projs (is_csr : bool) (op : mat K) (eig_vals : option (list K))
    : res (list (mat K) * list K) :=
    if is_csr then
      let ev := match eig_vals with Some l => l | None => nodup keq_dec (diagonal op) end in
      Ok (map (fun v => sel (Nat.min (nrow op) (ncol op)) (diag_indices op v)) ev, ev)
    else Raise GenericException.

  (** ed_base.py:483-512 [get_exp_vals] for one state given as a column; the
      [.real] at the end is [kre].  [get_overlaps] is in ModelThermal.v. *)
  Definition vec := nat -> K.
  Definition mapply (A : mat K) (v : vec) : vec := fun i => ksum (ncol A) (fun k => kmul (ent A i k) (v k)).
  Definition exp_val (n : nat) (v : vec) (A : mat K) : K :=
    kre (ksum n (fun i => kmul (kconj (v i)) (mapply A v i))).
End Base.
