(** Model of exact_diag/ed_fermions.py: class [fermions], constructor and
    Hamiltonian.  Nested python loops are written as one loop over the list of
    index tuples in the same order. *)
From Coq Require Import List Arith Lia QArith Qabs Bool.
From Verif Require Import Scalars Res Matrix ModelBase.
Import ListNotations.
Local Open Scope nat_scope.

(** An ndarray argument: shape and row-major data. *)
Record nd (K : Type) := Nd { shape : list nat; flat : nat -> K }.
Arguments Nd {K}. Arguments shape {K}. Arguments flat {K}.
Definition nd_size {K} (a : nd K) : nat := fold_right Nat.mul 1 (shape a).

Fixpoint list_nat_eqb (a b : list nat) : bool :=
  match a, b with
  | [], [] => true
  | x :: a, y :: b => (x =? y) && list_nat_eqb a b
  | _, _ => false
  end.

(** What a fermion system reads from its geometry: number of sites, adjacency
    matrix, phase matrix, x and y distance matrices (ed_geometry.py:90-127). *)
Record fgeom (K : Type) := FGeom {
  fg_nsites : nat;
  fg_adj : nat -> nat -> bool;
  fg_phase : nat -> nat -> K;
  fg_xdist : nat -> nat -> Q;
  fg_ydist : nat -> nat -> Q }.
Arguments FGeom {K}. Arguments fg_nsites {K}. Arguments fg_adj {K}. Arguments fg_phase {K}.
Arguments fg_xdist {K}. Arguments fg_ydist {K}.

(** The attributes the constructor sets. *)
Record fermions (K : Type) := Ferm {
  f_geom : fgeom K;
  f_nspecies : nat;
  f_ts : nat -> nat -> nat -> K;
  f_us : nat -> K;
  f_same : nat -> nat -> nat -> K;
  f_mus : nat -> K;
  f_pot : nat -> nat -> K;
  f_proj : mat K }.
Arguments Ferm {K}. Arguments f_geom {K}. Arguments f_nspecies {K}. Arguments f_ts {K}.
Arguments f_us {K}. Arguments f_same {K}. Arguments f_mus {K}. Arguments f_pot {K}. Arguments f_proj {K}.

Section Fermions.
  Context {K : Type} {SR : StarRing K}.

  (** ed_fermions.py:12-14: one-site operators. *)
  Definition cdag_op : mat K := mlit 2 2 [[k0; k0]; [k1; k0]].
  Definition c_op : mat K := mlit 2 2 [[k0; k1]; [k0; k0]].
  Definition n_op : mat K := mlit 2 2 [[k0; k0]; [k0; k1]].

  Definition fsys (nsites nspecies : nat) : sys := Sys nsites nspecies 2.

  (** ed_fermions.py:228-248 [get_hopping_mat].  The result array is created
      with [np.zeros] (real), so numpy stores only the real part of each
      value ([kre]); afterwards the stored matrix is required to be Hermitian.
      [t] has one value or one per species (other shapes of that size are read
      row-major). *)
  Definition hopping_mat (g : fgeom K) (nspecies : nat) (t : nd K) : res (nat -> nat -> nat -> K) :=
    let tv := fun k => if nd_size t =? 1 then flat t 0 else flat t k in
    let h := fun i j k => kre (kmul (tv k) (kmul (kb (fg_adj g i j)) (fg_phase g i j))) in
    let n := fg_nsites g in
    if forallb (fun k => forallb (fun i => forallb (fun j =>
          negb (kneb (h i j k) (kconj (h j i k)))) (seq 0 n)) (seq 0 n)) (seq 0 nspecies)
    then Ok h else Raise GenericException.

  (** ed_fermions.py:250-266 [get_samespecies_int_mat]; again a real array. *)
  Definition samespecies_int_mat (g : fgeom K) (nspecies : nat) (u : nd K) : nat -> nat -> nat -> K :=
    let uv := fun k => if nd_size u =? 1 then flat u 0 else flat u k in
    fun i j k => kre (kmul (uv k) (kb (fg_adj g i j))).

  (** A full [nsites x nsites x nspecies] array argument, or the
      [nsites x nsites] one allowed for a single species. *)
  Definition full3 (n m : nat) (a : nd K) : nat -> nat -> nat -> K :=
    fun i j k => flat a ((i * n + j) * m + k).

  (** ed_fermions.py:72-83: tunneling. *)
  Definition init_ts (g : fgeom K) (nspecies : nat) (ts : nd K) : res (nat -> nat -> nat -> K) :=
    let n := fg_nsites g in
    if (nd_size ts =? nspecies) || (nd_size ts =? 1) then hopping_mat g nspecies ts
    else if list_nat_eqb (shape ts) [n; n; nspecies] then Ok (full3 n nspecies ts)
    else if list_nat_eqb (shape ts) [n; n] && (nspecies =? 1) then Ok (full3 n 1 ts)
    else Raise GenericException.

  (** ed_fermions.py:86-93: inter-species interaction. *)
  Definition init_us (g : fgeom K) (us : nd K) : res (nat -> K) :=
    if nd_size us =? 1 then Ok (fun _ => flat us 0)
    else if nd_size us =? fg_nsites g then Ok (flat us) else Raise GenericException.

  (** ed_fermions.py:96-107: same-species interaction. *)
  Definition init_same (g : fgeom K) (nspecies : nat) (us : nd K) : res (nat -> nat -> nat -> K) :=
    let n := fg_nsites g in
    if (nd_size us =? 1) || (nd_size us =? nspecies) then Ok (samespecies_int_mat g nspecies us)
    else if list_nat_eqb (shape us) [n; n; nspecies] then Ok (full3 n nspecies us)
    else if list_nat_eqb (shape us) [n; n] && (nspecies =? 1) then Ok (full3 n 1 us)
    else Raise GenericException.

  (** ed_fermions.py:110-117: chemical potentials.  With any other size the
      attribute is never set and the size check raises AttributeError. *)
  Definition init_mus (nspecies : nat) (mus : nd K) : res (nat -> K) :=
    if nd_size mus =? 1 then Ok (fun _ => flat mus 0)
    else if nd_size mus =? nspecies then Ok (flat mus)
    else Raise AttributeError.

  (** ed_fermions.py:120-136: potentials.  In the per-species branch the array
      has shape [nsites x nspecies] and the code assigns a vector of length
      [nsites] to row [ii] (of length [nspecies]) for each species [ii]. *)
  Definition assign_row (n m : nat) (p : nat -> nat -> K) (ii : nat) (v : K) : res (nat -> nat -> K) :=
    if n <=? ii then Raise IndexError
    else if (n =? m) || (n =? 1) then Ok (fun i k => if i =? ii then v else p i k)
    else Raise ValueError.

  Definition init_pot (g : fgeom K) (nspecies : nat) (pot : nd K) : res (nat -> nat -> K) :=
    let n := fg_nsites g in
    if nd_size pot =? 1 then Ok (fun _ _ => flat pot 0)
    else if nd_size pot =? nspecies then
      rfold (fun p ii => assign_row n nspecies p ii (flat pot ii)) (seq 0 nspecies) (fun _ _ => k0)
    else if list_nat_eqb (shape pot) [n; nspecies] then Ok (fun i k => flat pot (i * nspecies + k))
    else if list_nat_eqb (shape pot) [n] && (nspecies =? 1) then Ok (fun i _ => flat pot i)
    else Raise GenericException.

  (** ed_fermions.py:139-176: number projection.  [ns = None] means no
      projection; an entry [None] leaves the running projector alone. *)
  Definition n_projector (s : sys) (ns : option (list (option nat))) : res (mat K) :=
    match ns with
    | None => Ok (meye (nstates s))
    | Some l =>
      if negb (length l =? s_nspecies s) then Raise GenericException
      else
        rfold (fun run p =>
          match snd p with
          | None => Ok run
          | Some n =>
            N <- sum_op s n_op (fst p) Boson ;;
            t <- cmul N (madj run) ;;
            d <- cmul run t ;;
            ps <- subspace_projs true d (Some [kofnat n]) ;;
            match fst ps with
            | P :: _ => cmul P run
            | [] => Raise IndexError
            end
          end) (combine (seq 0 (s_nspecies s)) l) (meye (nstates s))
    end.

  (** ed_fermions.py:20-176: constructor. *)
  Definition fermions_init (g : fgeom K) (us ts : nd K) (ns : option (list (option nat)))
      (mus pot same : nd K) (nspecies : nat) : res (fermions K) :=
    ts' <- init_ts g nspecies ts ;;
    us' <- init_us g us ;;
    same' <- init_same g nspecies same ;;
    mus' <- init_mus nspecies mus ;;
    pot' <- init_pot g nspecies pot ;;
    proj <- n_projector (fsys (fg_nsites g) nspecies) ns ;;
    Ok (Ferm g nspecies ts' us' same' mus' pot' proj).

  Definition f_sys (f : fermions K) : sys := fsys (fg_nsites (f_geom f)) (f_nspecies f).

  (** [c * projector * op * projector.conj().transpose()] added to an
      accumulator. *)
  Definition sandwich (P A : mat K) : res (mat K) := t <- cmul P A ;; cmul t (madj P).
  Definition add_term (P : mat K) (c : K) (A acc : mat K) : res (mat K) :=
    t <- sandwich P A ;; cadd acc (mscale c t).

  (** ed_fermions.py:351-379 [get_u_interspecies_op]. *)
  Definition u_interspecies_op (f : fermions K) (us : nat -> K) (P : mat K) : res (mat K) :=
    rfold (fun acc ii =>
      if kneb (us ii) k0 then
        A <- two_site_op (f_sys f) ii 0 ii 1 n_op n_op Boson ;; add_term P (us ii) A acc
      else Ok acc) (seq 0 (fg_nsites (f_geom f))) (mzero (nrow P) (nrow P)).

  (** Index triples of the double site loop with condition and species loop. *)
  Definition triples (cond : nat -> nat -> bool) (n m : nat) : list (nat * nat * nat) :=
    list_prod (filter (fun p => cond (fst p) (snd p)) (list_prod (seq 0 n) (seq 0 n))) (seq 0 m).

  (** ed_fermions.py:381-408 [get_u_samespecies_op], pairs with [ii >= jj]. *)
  Definition u_samespecies_op (f : fermions K) (us : nat -> nat -> nat -> K) (P : mat K) : res (mat K) :=
    rfold (fun acc t =>
      let '(ii, jj, kk) := t in
      if kneb (us ii jj kk) k0 then
        A <- two_site_op (f_sys f) ii kk jj kk n_op n_op Boson ;; add_term P (us ii jj kk) A acc
      else Ok acc)
      (triples (fun ii jj => jj <=? ii) (fg_nsites (f_geom f)) (f_nspecies f))
      (mzero (nrow P) (nrow P)).

  (** The two values of [direction_vect] createH uses: [1, 0] and [0, 1].  For
      these [sqrt((d0*xdist)^2 + (d1*ydist)^2)] is [|xdist|] or [|ydist|]
      (ed_fermions.py:322-323). *)
  Inductive axis := AxisX | AxisY.
  Definition sep_along (g : fgeom K) (d : axis) (i j : nat) : Q :=
    match d with AxisX => Qabs (fg_xdist g i j) | AxisY => Qabs (fg_ydist g i j) end.

  (** ed_fermions.py:302-349 [get_kinetic_op], pairs with [ii > jj]. *)
  Definition kinetic_op (f : fermions K) (P : mat K) (d : axis) : res (mat K) :=
    let n := fg_nsites (f_geom f) in
    if 1 <? n then
      rfold (fun acc t =>
        let '(ii, jj, kk) := t in
        if kneb (f_ts f ii jj kk) k0 then
          A <- two_site_op (f_sys f) ii kk jj kk cdag_op c_op Fermion ;;
          B <- two_site_op (f_sys f) jj kk ii kk cdag_op c_op Fermion ;;
          a <- sandwich P A ;;
          b <- sandwich P B ;;
          h <- csub (mopp a) b ;;
          cadd acc (mscale (kmul (f_ts f ii jj kk) (kQ (sep_along (f_geom f) d ii jj))) h)
        else Ok acc)
        (triples (fun ii jj => jj <? ii) n (f_nspecies f)) (mzero (nrow P) (nrow P))
    else Ok (mzero (nrow P) (nrow P)).

  (** ed_fermions.py:410-431 [get_potential_op]. *)
  Definition potential_op (f : fermions K) (vs : nat -> nat -> K) (P : mat K) : res (mat K) :=
    rfold (fun acc t =>
      let '(ii, kk) := t in
      if kneb (vs ii kk) k0 then
        A <- single_site_op (f_sys f) ii kk n_op Boson ;; add_term P (vs ii kk) A acc
      else Ok acc)
      (list_prod (seq 0 (fg_nsites (f_geom f))) (seq 0 (f_nspecies f))) (mzero (nrow P) (nrow P)).

  (** ed_fermions.py:433-458 [get_chemical_pot_op]: minus sign. *)
  Definition chemical_pot_op (f : fermions K) (mus : nat -> K) (P : mat K) : res (mat K) :=
    rfold (fun acc t =>
      let '(ii, jj) := t in
      if kneb (mus jj) k0 then
        A <- single_site_op (f_sys f) ii jj n_op Boson ;;
        t <- sandwich P A ;; csub acc (mscale (mus jj) t)
      else Ok acc)
      (list_prod (seq 0 (fg_nsites (f_geom f))) (seq 0 (f_nspecies f))) (mzero (nrow P) (nrow P)).

  (** ed_fermions.py:268-300 [createH]. *)
  Definition createH (f : fermions K) (projector : option (mat K)) : res (mat K) :=
    let P := match projector with Some P => P | None => meye (nstates (f_sys f)) end in
    h1 <- u_interspecies_op f (f_us f) P ;;
    h1 <- cadd (mzero (nrow P) (nrow P)) h1 ;;
    h2 <- u_samespecies_op f (f_same f) P ;;
    h2 <- cadd h1 h2 ;;
    h3 <- kinetic_op f P AxisX ;;
    h3 <- cadd h2 h3 ;;
    h4 <- kinetic_op f P AxisY ;;
    h4 <- cadd h3 h4 ;;
    h5 <- chemical_pot_op f (f_mus f) P ;;
    h5 <- cadd h4 h5 ;;
    h6 <- potential_op f (f_pot f) P ;;
    cadd h5 h6.

  (** ed_fermions.py:464-478 [get_swap_op]. *)
  Definition f_swap_op (s : sys) (site1 site2 species : nat) : res (mat K) :=
    A <- two_site_op s site1 species site2 species cdag_op c_op Fermion ;;
    B <- two_site_op s site2 species site1 species cdag_op c_op Fermion ;;
    t <- cadd A B ;;
    t <- cadd t (meye (nstates s)) ;;
    n1 <- single_site_op s site1 species n_op Boson ;;
    t <- csub t n1 ;;
    n2 <- single_site_op s site2 species n_op Boson ;;
    csub t n2.

  (** ed_fermions.py:178-223 [get_state_vects], entry (row, logical site) of
      the label array without projector: [1 - kron(ones(2^ii), kron([1;0],
      ones(2^(n-ii-1))))]. *)
  Definition f_state_label (s : sys) (row ii : nat) : nat :=
    let m := 2 ^ (nlog s - ii - 1) in
    1 - nth ((row mod (2 * m)) / m) [1; 0] 0.
End Fermions.
