(** Model of exact_diag/ed_spins.py: class [spinSystem], constructor,
    Hamiltonian and operators. *)
From Coq Require Import List Arith Lia QArith Bool.
From Verif Require Import Scalars Res Matrix ModelBase.
Import ListNotations.
Local Open Scope nat_scope.

(** A coupling argument of the constructor: a python int or float, a 1-D
    array, a 2-D array (shape and entries), or anything else (complex numbers
    and numpy integers included, ed_spins.py:152-163). *)
Inductive coupling (K : Type) :=
  | JNum (j : K) | JArr1 (l : list K) | JArr2 (r c : nat) (m : nat -> nat -> K) | JOther.
Arguments JNum {K}. Arguments JArr1 {K}. Arguments JArr2 {K}. Arguments JOther {K}.

(** A field argument; arrays with two or more axes are not modelled. *)
Inductive field (K : Type) := HNum (h : K) | HArr (l : list K) | HOther.
Arguments HNum {K}. Arguments HArr {K}. Arguments HOther {K}.

(** What a spin system reads from its geometry (ed_geometry.py:90-127). *)
Record sgeom (K : Type) := SGeom {
  sg_nsites : nat; sg_adj : nat -> nat -> bool; sg_phase : nat -> nat -> K }.
Arguments SGeom {K}. Arguments sg_nsites {K}. Arguments sg_adj {K}. Arguments sg_phase {K}.

(** Attributes set by the constructor.  [sp_two] is twice the spin. *)
Record spins (K : Type) := Spins {
  sp_geom : sgeom K; sp_two : nat;
  sp_jx : nat -> nat -> K; sp_jy : nat -> nat -> K; sp_jz : nat -> nat -> K;
  sp_hx : nat -> K; sp_hy : nat -> K; sp_hz : nat -> K }.
Arguments Spins {K}. Arguments sp_geom {K}. Arguments sp_two {K}.
Arguments sp_jx {K}. Arguments sp_jy {K}. Arguments sp_jz {K}.
Arguments sp_hx {K}. Arguments sp_hy {K}. Arguments sp_hz {K}.

Section Spins.
  Context {K : Type} {SR : StarRing K}.

  (** [np.sqrt] on natural numbers. *)
  Variable rt : nat -> K.
  (** [imag > 10 ** -14] (ed_spins.py:246). *)
  Variable imag_pos : K -> bool.

  (** ed_spins.py:15-19: class attributes. *)
  Definition ng_op : mat K := mlit 2 2 [[k0; k0]; [k0; k1]].
  Definition nr_op : mat K := mlit 2 2 [[k1; k0]; [k0; k0]].

  (** ed_spins.py:77-85 [get_splus] for spin [two/2]: with [m = spin-1-i] the
      radicand is [(spin-m)(spin+m+1) = (i+1)(two-i)]; offset -1 is the
      diagonal below the main one. *)
  Definition splus_op (two : nat) : mat K :=
    Mat (two + 1) (two + 1) (fun r c => if r =? c + 1 then rt ((c + 1) * (two - c)) else k0).
  (** ed_spins.py:87-96 [get_sminus]: [m = spin-i], radicand
      [(spin+m)(spin-m+1) = (two-i)(i+1)], offset 1. *)
  Definition sminus_op (two : nat) : mat K :=
    Mat (two + 1) (two + 1) (fun r c => if c =? r + 1 then rt ((two - r) * (r + 1)) else k0).
  (** ed_spins.py:98-106 [get_sx]. *)
  Definition sx_op (two : nat) : mat K := mscale (kQ (1 # 2)) (madd (splus_op two) (sminus_op two)).
  (** ed_spins.py:108-116 [get_sy]; dividing by [1j] is multiplying by [-1j]. *)
  Definition sy_op (two : nat) : mat K :=
    mscale (kopp ki) (mscale (kQ (1 # 2)) (msub (splus_op two) (sminus_op two))).
  (** ed_spins.py:118-126 [get_sz]: [spin, spin-1, ..., -spin]. *)
  Definition sz_op (two : nat) : mat K :=
    mdiag (two + 1) (fun i => ksub (kmul (kQ (1 # 2)) (kofnat two)) (kofnat i)).

  (** ed_spins.py:143-165 [get_interaction_mat].  A 1-D array of the right size
      reaches [np.diag(j[-1], -1)] with a scalar, which raises ValueError.  A
      2-D array of that size but a different shape fails either in adding the
      two diagonals or in the assignment to [j_mat[0, nsites - 1]]. *)
  Definition interaction_mat (g : sgeom K) (j : coupling K) : res (nat -> nat -> K) :=
    match j with
    | JNum j => Ok (fun a b => kmul (kmul j (kb (sg_adj g a b))) (sg_phase g a b))
    | JArr1 l => if length l =? sg_nsites g then Raise ValueError else Raise GenericException
    | JArr2 r c m =>
        if (r =? sg_nsites g) && (c =? sg_nsites g) then Ok m
        else if r * c =? sg_nsites g then
          (if Nat.min (r - 1) (c - 1) =? 1 then Raise IndexError else Raise ValueError)
        else Raise GenericException
    | JOther => Raise GenericException
    end.

  (** ed_spins.py:167-178 [get_field_mat]. *)
  Definition field_mat (g : sgeom K) (h : field K) : res (nat -> K) :=
    match h with
    | HNum h => Ok (fun _ => kmul h k1)
    | HArr l => if negb (length l =? sg_nsites g) then Raise ValueError else Ok (fun i => nth i l k0)
    | HOther => Raise ValueError
    end.

  (** ed_spins.py:231-249 [get_rydberg_detunes]. *)
  Definition rydberg_detunes (n : nat) (js : nat -> nat -> K) : nat -> K :=
    let det i := kmul (kopp (kofnat 2)) (kmul (kQ (1 # 2)) (ksum n (fun j => js i j))) in
    if negb (existsb (fun i => imag_pos (det i)) (seq 0 n)) then (fun i => kre (det i)) else det.

  (** ed_spins.py:21-74 [__init__]. *)
  Definition spins_init (g : sgeom K) (jx jy jz : coupling K) (hx hy hz : field K) (ryd : bool)
      (two : nat) : res (spins K) :=
    jx <- interaction_mat g jx ;;
    jy <- interaction_mat g jy ;;
    jz <- interaction_mat g jz ;;
    hx <- field_mat g hx ;;
    hy <- field_mat g hy ;;
    hz <- field_mat g hz ;;
    let hz := if ryd then (fun i => kadd (hz i) (rydberg_detunes (sg_nsites g) jz i)) else hz in
    Ok (Spins g two jx jy jz hx hy hz).

  (** [nspecies = 1], [nbasis = int(2 * spin + 1)] (ed_spins.py:11, 56). *)
  Definition sp_sys (s : spins K) : sys := Sys (sg_nsites (sp_geom s)) 1 (sp_two s + 1).

  (** [H - h * projector * op * projector.conj().transpose()] and the same
      with [+] and [2 * j] (ed_spins.py:278, 301): python multiplies from the
      left. *)
  Definition scaled_sandwich (P : mat K) (c : K) (A : mat K) : res (mat K) :=
    t <- cmul (mscale c P) A ;; cmul t (madj P).
  Definition field_term (s : spins K) (P : mat K) (h : K) (i : nat) (op : mat K) (H : mat K)
    : res (mat K) :=
    if kneb h k0 then
      A <- single_site_op (sp_sys s) i 0 op Boson ;; t <- scaled_sandwich P h A ;; csub H t
    else Ok H.
  Definition pair_term (s : spins K) (P : mat K) (j : K) (a b : nat) (op : mat K) (H : mat K)
    : res (mat K) :=
    if kneb j k0 then
      A <- two_site_op (sp_sys s) a 0 b 0 op op Boson ;;
      t <- scaled_sandwich P (kmul (kofnat 2) j) A ;; cadd H t
    else Ok H.

  (** ed_spins.py:251-323 [createH]. *)
  Definition sp_createH (s : spins K) (projector : option (mat K)) : res (mat K) :=
    let n := sg_nsites (sp_geom s) in
    let P := match projector with Some P => P | None => meye (nstates (sp_sys s)) end in
    H <- rfold (fun H ii =>
           H <- field_term s P (sp_hx s ii) ii (sx_op (sp_two s)) H ;;
           H <- field_term s P (sp_hy s ii) ii (sy_op (sp_two s)) H ;;
           field_term s P (sp_hz s ii) ii (sz_op (sp_two s)) H)
         (seq 0 n) (mzero (nrow P) (nrow P)) ;;
    if 1 <? n then
      rfold (fun H p =>
           let ii := fst p in let jj := snd p in
           if jj <? ii then
             H <- pair_term s P (sp_jx s ii jj) ii jj (sx_op (sp_two s)) H ;;
             H <- pair_term s P (sp_jy s ii jj) ii jj (sy_op (sp_two s)) H ;;
             pair_term s P (sp_jz s ii jj) ii jj (sz_op (sp_two s)) H
           else Ok H)
         (list_prod (seq 0 n) (seq 0 n)) H
    else Ok H.

  (** ed_spins.py:463-478 [get_swap_op]. *)
  Definition sp_swap_op (s : sys) (site1 site2 species : nat) : res (mat K) :=
    A <- two_site_op s site1 species site2 species pauli_plus pauli_minus Boson ;;
    B <- two_site_op s site1 species site2 species pauli_minus pauli_plus Boson ;;
    S1 <- cadd A B ;;
    S2 <- cadd S1 (mscale (kQ (1 # 2)) (meye (nstates s))) ;;
    C <- two_site_op s site1 species site2 species pauli_z pauli_z Boson ;;
    cadd S2 (mscale (kQ (1 # 2)) C).

  (** ed_spins.py:453-461 [get_swap_up_down_op]: a csc matrix whose column [k]
      has the single entry 1 in row [nstates - 1 - k]. *)
  Definition swap_up_down (s : sys) : mat K :=
    Mat (nstates s) (nstates s) (fun r c => kb (r =? nstates s - 1 - c)).

  (** ed_spins.py:428-440 [get_allsite_op]. *)
  Fixpoint allsite_loop (n : nat) (op : mat K) : mat K :=
    match n with O => mlit 1 1 [[k1]] | S m => mkron (allsite_loop m op) op end.
  Definition allsite_op (s : sys) (op : mat K) : mat K := allsite_loop (s_nsites s) op.

  (** ed_spins.py:442-451 [get_sum_op]: [ed_base] is the class, so
      [ed_base.ed_base] raises AttributeError. *)
  Definition sp_sum_op (s : sys) (op : mat K) : res (mat K) := Raise AttributeError.

  (** ed_spins.py:210-225 [get_state_parity]: calls [get_state_vects] with two
      positional arguments, one more than it takes. *)
  Definition state_parity (s : sys) : res (list nat) := Raise TypeError.

  (** ed_spins.py:409-426 [get_npairs_op].  [conn] is the boolean mask over the
      pairs in the order numpy lists [xs > ys] for [meshgrid(range, range)]:
      row by row, i.e. by increasing [ys] and then increasing [xs].  With no
      selected pair the integer 0 is returned ([None]). *)
  Definition upper_pairs (n : nat) : list (nat * nat) :=
    map (fun p => (snd p, fst p)) (filter (fun p => fst p <? snd p) (list_prod (seq 0 n) (seq 0 n))).
  Definition npairs_op (s : sys) (conn : list bool) : res (option (mat K)) :=
    if length conn =? length (upper_pairs (s_nsites s)) then
      rfold (fun acc p =>
               A <- two_site_op s (fst p) 0 (snd p) 0 nr_op nr_op Boson ;; opt_add acc A)
            (map fst (filter snd (combine (upper_pairs (s_nsites s)) conn))) None
    else Raise IndexError.
End Spins.

(** ed_spins.py:180-208 [get_state_vects]: entry [row, ii] of
    [kron(ones(2^ii), kron([1; 0], ones(2^(nsites-ii-1))))]. *)
Definition sp_state_label (n row ii : nat) : nat :=
  if (row mod 2 ^ S (n - ii - 1)) / 2 ^ (n - ii - 1) =? 0 then 1 else 0.

(** ed_spins.py:362-385, 397 [find_special_states]: row indices of the states.
    The quotients are floats in python; they are exact, and the float type
    (which newer scipy refuses as an index) is not modelled. *)
Definition afm_indices (n xsites : nat) (left2right : bool) : nat * nat :=
  let nst := 2 ^ n in
  if ((xsites mod 2 =? 1) || negb left2right) && (1 <? n) then
    let i1 := if n mod 2 =? 1 then (1 + nst) / 3 - 1 else (2 + nst) / 3 - 1 in
    (i1, nst - i1)
  else (0, nst - 1).
Definition fm_indices (n : nat) : nat * nat := (0, 2 ^ n - 1).
Definition symm_exc_rows (n : nat) : list nat := map (fun i => 2 ^ n - 2 ^ i - 1) (seq 0 n).
