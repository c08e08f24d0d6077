(** Property theorems C11..C22: the fermion Hamiltonian, its constructor and
    site permutations.  Theorems only. *)
From Coq Require Import List Arith Bool QArith Qabs.
From Verif Require Import Scalars Res Matrix ModelBase ModelFermions SpecFock SpecMat SpecHubbard SpecPerm
  HamProofs HamSym FermiApi InitProofs RefuteFermions.
Import ListNotations.
Local Open Scope nat_scope.

(** Unless there are two species, the interaction term (which always addresses
    species 0 and 1) must be switched off: [us_ok]. *)
Theorem C11_real_hamiltonian_hermitian : forall K (SR : StarRing K) (f : fermions K) pr,
  let P := match pr with Some P => P | None => meye (nstates (f_sys f)) end in
  ncol P = nstates (f_sys f) -> us_ok f -> real_couplings f ->
  exists H, createH f pr = Ok H /\ square (nrow P) H /\ meq (madj H) H.
Proof. exact @hermitian_api. Qed.
Print Assumptions C11_real_hamiltonian_hermitian.

Theorem C12_complex_hopping_refuted :
  exists (g : fgeom GQ) (ts zero : nd GQ) f H,
    (forall i j, flat ts (j * 2 + i) = kconj (flat ts (i * 2 + j)) \/ 2 <= i \/ 2 <= j) /\
    shape ts = [2; 2; 1] /\
    fermions_init g zero ts None zero zero zero 1 = Ok f /\
    createH f None = Ok H /\ ~ meq (madj H) H.
Proof. exact complex_hopping_refuted. Qed.
Print Assumptions C12_complex_hopping_refuted.

Theorem C13_number_conservation : forall K (SR : StarRing K) (f : fermions K),
  us_ok f ->
  exists H, createH f None = Ok H /\ square (nstates (f_sys f)) H /\
    (forall k, k < f_nspecies f -> fg_nsites (f_geom f) <> 0 ->
       exists Nk, sum_op (f_sys f) n_op k Boson = Ok Nk /\ meq (mmul Nk H) (mmul H Nk)) /\
    (forall k a b, k < f_nspecies f -> a < nstates (f_sys f) -> b < nstates (f_sys f) ->
       occ_species (nlog (f_sys f)) (fg_nsites (f_geom f)) a k <> occ_species (nlog (f_sys f)) (fg_nsites (f_geom f)) b k ->
       ent H a b = k0).
Proof. exact @conserve. Qed.
Print Assumptions C13_number_conservation.

(** The full claim C14 is: [createH f None] is the lattice model with the
    hopping amplitudes [f_ts f] for every geometry.  It fails for bonds that
    are not along an axis or not of unit length. *)
Theorem C14_documented_model_refuted :
  exists (g : fgeom GQ) (ts zero : nd GQ) f H,
    (fg_xdist g 1 0 * fg_xdist g 1 0 + fg_ydist g 1 0 * fg_ydist g 1 0 == 1)%Q /\
    fermions_init g zero ts None zero zero zero 1 = Ok f /\
    createH f None = Ok H /\
    ~ meq H (hubbard_spec 2 1 (f_ts f) (f_us f) (f_same f) (f_mus f) (f_pot f)).
Proof. exact documented_model_refuted. Qed.
Print Assumptions C14_documented_model_refuted.

(** What holds: with a projector, and for every geometry, [createH] is the
    sandwich of the lattice model whose hopping on the bond [i>j] is
    [t_ij (|dx| + |dy|)]. *)
Theorem C14_effective_model : forall K (SR : StarRing K) (f : fermions K) P,
  ncol P = nstates (f_sys f) -> us_ok f ->
  exists H, createH f (Some P) = Ok H /\
    meq H (mmul (mmul P (hubbard_spec (fg_nsites (f_geom f)) (f_nspecies f)
        (fun i j k => kmul (f_ts f i j k) (kQ (Qabs (fg_xdist (f_geom f) i j) + Qabs (fg_ydist (f_geom f) i j))))
        (f_us f) (f_same f) (f_mus f) (f_pot f))) (madj P)).
Proof. exact @effective_model. Qed.
Print Assumptions C14_effective_model.

(** Hence the documented model when every bond with hopping has
    [|dx| + |dy| = 1] (square, rectangular and cubic lattices with unit
    spacing).  Missing for the full claim: other bonds. *)
Theorem C14_documented_model_partial : forall K (SR : StarRing K) (f : fermions K),
  let ns := fg_nsites (f_geom f) in let m := f_nspecies f in
  us_ok f ->
  (forall i j k, j < i -> i < ns -> k < m -> f_ts f i j k <> k0 ->
     (Qabs (fg_xdist (f_geom f) i j) + Qabs (fg_ydist (f_geom f) i j) == 1)%Q) ->
  exists H, createH f None = Ok H /\
    meq H (hubbard_spec ns m (f_ts f) (f_us f) (f_same f) (f_mus f) (f_pot f)).
Proof. exact @createH_documented. Qed.
Print Assumptions C14_documented_model_partial.

Theorem C15_twist_refuted :
  exists (g : fgeom GQ) (ts zero : nd GQ) f,
    (forall i j, fg_phase g j i = kconj (fg_phase g i j)) /\ nd_size ts = 1 /\
    fermions_init g zero ts None zero zero zero 1 = Ok f /\
    fg_adj g 1 0 = true /\ f_ts f 1 0 0 <> kmul (flat ts 0) (fg_phase g 1 0).
Proof. exact twist_refuted. Qed.
Print Assumptions C15_twist_refuted.

(** What holds: for real hopping and Hermitian phases the constructor accepts
    the geometry, and a bond stores [t * phase] when that number is real (for
    instance without twist, or for a twist by half a turn).  Missing: complex
    phases. *)
Theorem C15_twist_partial : forall K (SR : StarRing K) (g : fgeom K) m (ts : nd K),
  (forall i j, fg_phase g j i = kconj (fg_phase g i j)) -> (forall i j, fg_adj g j i = fg_adj g i j) ->
  nd_size ts = 1 \/ nd_size ts = m -> (forall k, kconj (flat ts k) = flat ts k) ->
  exists h, init_ts g m ts = Ok h /\
    forall i j k, let t := if nd_size ts =? 1 then flat ts 0 else flat ts k in
      (fg_adj g i j = false -> h i j k = k0) /\
      (fg_adj g i j = true -> kconj (kmul t (fg_phase g i j)) = kmul t (fg_phase g i j) ->
         h i j k = kmul t (fg_phase g i j)).
Proof. exact @twist_real. Qed.
Print Assumptions C15_twist_partial.

Theorem C16_per_species_potential_refuted :
  exists (g : fgeom GQ) (pot : nd GQ) p, nd_size pot = 2 /\ init_pot g 2 pot = Ok p /\
    p 0 1 <> flat pot 1.
Proof. exact per_species_potential_refuted. Qed.
Print Assumptions C16_per_species_potential_refuted.

(** What the per-species form does for two or more species: it raises unless
    the numbers of sites and species agree, and then gives site [i] the value
    of species [i], for every species. *)
Theorem C16_per_species_potential_partial : forall K (SR : StarRing K) (g : fgeom K) m (pot : nd K),
  2 <= m -> nd_size pot = m ->
  (fg_nsites g <> m -> exists e, init_pot g m pot = Raise e) /\
  (fg_nsites g = m -> exists p, init_pot g m pot = Ok p /\ forall i k, i < m -> p i k = flat pot i).
Proof. exact @per_species_potential. Qed.
Print Assumptions C16_per_species_potential_partial.

(** C17 for everything but per-species potentials: what a constructor call
    that returns can have been given, and the couplings it stores. *)
Theorem C17_shape_dispatch_partial : forall K (SR : StarRing K) (g : fgeom K) us ts ns mus pot same m f,
  let n := fg_nsites g in
  fermions_init g us ts ns mus pot same m = Ok f ->
  ((nd_size ts = 1 \/ nd_size ts = m) /\
   (forall i j k, f_ts f i j k =
      if fg_adj g i j then kre (kmul (flat ts (if nd_size ts =? 1 then 0 else k)) (fg_phase g i j)) else k0) \/
   (nd_size ts <> 1 /\ nd_size ts <> m /\ (shape ts = [n; n; m] \/ (shape ts = [n; n] /\ m = 1)) /\
    forall i j k, f_ts f i j k = flat ts ((i * n + j) * m + k))) /\
  ((nd_size us = 1 /\ forall i, f_us f i = flat us 0) \/ (nd_size us = n /\ forall i, f_us f i = flat us i)) /\
  ((nd_size same = 1 \/ nd_size same = m) /\
   (forall i j k, f_same f i j k =
      if fg_adj g i j then kre (flat same (if nd_size same =? 1 then 0 else k)) else k0) \/
   (nd_size same <> 1 /\ nd_size same <> m /\ (shape same = [n; n; m] \/ (shape same = [n; n] /\ m = 1)) /\
    forall i j k, f_same f i j k = flat same ((i * n + j) * m + k))) /\
  ((nd_size mus = 1 /\ forall k, f_mus f k = flat mus 0) \/ (nd_size mus = m /\ forall k, f_mus f k = flat mus k)) /\
  ((nd_size pot = 1 /\ forall i k, f_pot f i k = flat pot 0) \/ nd_size pot = m \/
   (shape pot = [n; m] /\ forall i k, f_pot f i k = flat pot (i * m + k)) \/
   (shape pot = [n] /\ m = 1 /\ forall i, f_pot f i 0 = flat pot i)) /\
  match ns with Some l => length l = m | None => True end.
Proof. exact @shape_dispatch. Qed.
Print Assumptions C17_shape_dispatch_partial.

Theorem C17_accepts : forall K (SR : StarRing K) (g : fgeom K) us ts mus pot same m,
  let n := fg_nsites g in
  (nd_size ts <> 1 -> nd_size ts <> m -> shape ts = [n; n; m] \/ (shape ts = [n; n] /\ m = 1)) ->
  (nd_size ts = 1 \/ nd_size ts = m ->
     (forall k, kconj (flat ts k) = flat ts k) /\
     (forall i j, fg_phase g j i = kconj (fg_phase g i j)) /\ (forall i j, fg_adj g j i = fg_adj g i j)) ->
  nd_size us = 1 \/ nd_size us = n ->
  nd_size same = 1 \/ nd_size same = m \/ shape same = [n; n; m] \/ (shape same = [n; n] /\ m = 1) ->
  nd_size mus = 1 \/ nd_size mus = m ->
  nd_size pot = 1 \/ (nd_size pot <> m /\ shape pot = [n; m]) ->
  exists f, fermions_init g us ts None mus pot same m = Ok f /\ f_geom f = g /\ f_nspecies f = m.
Proof. exact @accepts. Qed.
Print Assumptions C17_accepts.

Theorem C18_fermion_swap : forall K (SR : StarRing K) s a b k,
  s_nbasis s = 2 -> a < s_nsites s -> b < s_nsites s -> k < s_nspecies s ->
  exists S : mat K, f_swap_op s a b k = Ok S /\ square (nstates s) S /\
    meq (madj S) S /\ meq (mmul S S) (meye (nstates s)) /\ fixes_first (nstates s) S /\
    carries s S (fun k' i => if k' =? k then exchange a b i else i) /\
    (a = b -> meq S (meye (nstates s))).
Proof. exact @swap_api. Qed.
Print Assumptions C18_fermion_swap.

Theorem C19_site_permutation : forall K (SR : StarRing K) s cs,
  s_nbasis s = 2 -> s_nspecies s <> 0 -> valid_cycles (s_nsites s) cs ->
  (exists c, In c cs /\ 1 < length c) ->
  exists T : mat K, xform_op s (f_swap_op s) cs = Ok (Some T) /\
    unitary_mat (nstates s) T /\ fixes_first (nstates s) T /\ carries s T (fun _ => cycles_perm cs).
Proof. exact @xform_api. Qed.
Print Assumptions C19_site_permutation.

Theorem C20_composition : forall K (SR : StarRing K) s cs1 cs2 cs3 (T1 T2 T3 : mat K),
  s_nbasis s = 2 -> s_nspecies s <> 0 ->
  valid_cycles (s_nsites s) cs1 -> valid_cycles (s_nsites s) cs2 -> valid_cycles (s_nsites s) cs3 ->
  (exists c, In c cs1 /\ 1 < length c) -> (exists c, In c cs2 /\ 1 < length c) -> (exists c, In c cs3 /\ 1 < length c) ->
  (forall x, x < s_nsites s -> cycles_perm cs3 x = cycles_perm cs1 (cycles_perm cs2 x)) ->
  xform_op s (f_swap_op s) cs1 = Ok (Some T1) ->
  xform_op s (f_swap_op s) cs2 = Ok (Some T2) ->
  xform_op s (f_swap_op s) cs3 = Ok (Some T3) ->
  meq T3 (mmul T1 T2).
Proof. exact @xform_compose. Qed.
Print Assumptions C20_composition.

Theorem C20_order : forall K (SR : StarRing K) s cs (T : mat K) n,
  s_nbasis s = 2 -> s_nspecies s <> 0 -> valid_cycles (s_nsites s) cs ->
  (exists c, In c cs /\ 1 < length c) ->
  xform_op s (f_swap_op s) cs = Ok (Some T) ->
  (forall x, x < s_nsites s -> iter (cycles_perm cs) n x = x) ->
  meq (mpow (nstates s) T n) (meye (nstates s)).
Proof. exact @xform_order. Qed.
Print Assumptions C20_order.

(** C21: trivial cycles give the python integer 1 ([None]), never a matrix. *)
Theorem C21_identity_refuted : forall K (SR : StarRing K) s (swap : nat -> nat -> nat -> res (mat K)) cs,
  (forall c, In c cs -> length c <= 1) ->
  xform_op s swap cs = Ok None /\ ~ exists T, xform_op s swap cs = Ok (Some T).
Proof. exact @identity_not_matrix. Qed.
Print Assumptions C21_identity_refuted.

Theorem C22_symmetry_commutes : forall K (SR : StarRing K) (f : fermions K) cs T,
  let n := fg_nsites (f_geom f) in let m := f_nspecies f in
  let t i j k := kmul (f_ts f i j k) (kQ (Qabs (fg_xdist (f_geom f) i j) + Qabs (fg_ydist (f_geom f) i j))) in
  let pi := cycles_perm cs in
  us_ok f -> valid_cycles n cs ->
  xform_op (f_sys f) (f_swap_op (f_sys f)) cs = Ok (Some T) ->
  (forall i j k, i < n -> j < n -> k < m -> t i j k = t j i k /\ t (pi i) (pi j) k = t i j k) ->
  (forall i, i < n -> f_us f (pi i) = f_us f i) ->
  (forall i j k, i < n -> j < n -> k < m ->
     f_same f i j k = f_same f j i k /\ f_same f (pi i) (pi j) k = f_same f i j k) ->
  (forall i k, i < n -> k < m -> f_pot f (pi i) k = f_pot f i k) ->
  exists H, createH f None = Ok H /\ meq (mmul T H) (mmul H T).
Proof. exact @symmetry_api. Qed.
Print Assumptions C22_symmetry_commutes.
