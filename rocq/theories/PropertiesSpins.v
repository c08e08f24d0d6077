(** Property theorems C23..C30 and C66..C71: spin systems.  Theorems only.

    [rt] is the square root the code takes of small integers; [roots_ok rt two]
    says that the roots needed for spin [two/2] are right and real. *)
From Coq Require Import List Arith Bool QArith.
From Verif Require Import Scalars Res Matrix ModelBase ModelSpins SpecSpins SpecPerm SpecMat
  SpinSwap SpinAlg SpinHam SpinApi RefuteSpins.
Import ListNotations.
Local Open Scope nat_scope.

Theorem C23_spin_swap : forall K (SR : StarRing K) s i j,
  s_nbasis s = 2 -> s_nspecies s = 1 -> i < s_nsites s -> j < s_nsites s -> i <> j ->
  exists S : mat K, sp_swap_op s i j 0 = Ok S /\
    meq S (carry_mat 2 (s_nsites s) (exchange i j)) /\
    meq (madj S) S /\ meq (mmul S S) (meye (2 ^ s_nsites s)).
Proof. exact @spin_swap_api. Qed.
Print Assumptions C23_spin_swap.

(** C24 fails everywhere: the operator is twice the identity. *)
Theorem C24_self_swap_refuted : forall K (SR : StarRing K) s i,
  s_nbasis s = 2 -> s_nspecies s = 1 -> i < s_nsites s ->
  exists S : mat K, sp_swap_op s i i 0 = Ok S /\ meq S (mscale (kofnat 2) (meye (2 ^ s_nsites s))) /\
    ~ meq S (meye (2 ^ s_nsites s)).
Proof. exact @spin_self_swap_api. Qed.
Print Assumptions C24_self_swap_refuted.

(** C25 fails for every spin but 0: the commutator has the opposite sign. *)
Theorem C25_spin_algebra_refuted : forall K (SR : StarRing K) rt two,
  roots_ok rt two -> two <> 0 ->
  ~ meq (msub (mmul (sx_op rt two) (sy_op rt two)) (mmul (sy_op rt two) (sx_op rt two))) (mscale ki (sz_op (K:=K) two)).
Proof. exact @spin_algebra_refuted. Qed.
Print Assumptions C25_spin_algebra_refuted.

(** What holds: Hermitian matrices with the right length that satisfy the
    algebra of [-S].  Missing: the documented sign. *)
Theorem C25_spin_commutators_partial : forall K (SR : StarRing K) rt two,
  roots_ok rt two ->
  meq (msub (mmul (sx_op rt two) (sy_op rt two)) (mmul (sy_op rt two) (sx_op rt two))) (mscale (kopp ki) (sz_op (K:=K) two)) /\
  meq (msub (mmul (sy_op rt two) (sz_op two)) (mmul (sz_op two) (sy_op rt two))) (mscale (kopp ki) (sx_op rt two)) /\
  meq (msub (mmul (sz_op two) (sx_op rt two)) (mmul (sx_op rt two) (sz_op two))) (mscale (kopp ki) (sy_op rt two)).
Proof. exact (fun K SR rt two H => conj (comm_xy rt two H) (conj (comm_yz rt two) (comm_zx rt two))). Qed.
Print Assumptions C25_spin_commutators_partial.

Theorem C25_spin_length_partial : forall K (SR : StarRing K) rt two,
  roots_ok rt two ->
  meq (madj (sx_op rt two)) (sx_op rt two) /\ meq (madj (sy_op rt two)) (sy_op rt two) /\
  meq (madj (sz_op (K:=K) two)) (sz_op two) /\
  meq (madd (madd (mmul (sx_op rt two) (sx_op rt two)) (mmul (sy_op rt two) (sy_op rt two))) (mmul (sz_op two) (sz_op two)))
      (mscale (kQ ((inject_Z (Z.of_nat two) / 2) * (inject_Z (Z.of_nat two) / 2 + 1))) (meye (two + 1))).
Proof.
  exact (fun K SR rt two H => conj (sx_herm rt two H) (conj (sy_herm rt two H) (conj (sz_herm two) (casimir rt two H)))).
Qed.
Print Assumptions C25_spin_length_partial.

Theorem C26_documented_spin_model_refuted :
  exists (s : spins GQ) H, run_spin sg1 (JNum k0) (HNum k0) (HNum k1) (HNum k0) = Ok s /\
    sp_createH rt1 s None = Ok H /\
    ~ meq H (pauli_hamiltonian 1 (sp_jx s) (sp_jy s) (sp_jz s) (sp_hx s) (sp_hy s) (sp_hz s)).
Proof. exact documented_spin_refuted. Qed.
Print Assumptions C26_documented_spin_model_refuted.

(** What holds for all couplings and fields: the documented model with the
    field along y reversed. *)
Theorem C26_effective_spin_model : forall K (SR : StarRing K) rt (s : spins K),
  sp_two s = 1 -> rt 1 = k1 -> forall P, ncol P = 2 ^ sg_nsites (sp_geom s) ->
  exists H, sp_createH rt s (Some P) = Ok H /\
    meq H (mmul (mmul P (pauli_hamiltonian (sg_nsites (sp_geom s)) (sp_jx s) (sp_jy s) (sp_jz s)
                           (sp_hx s) (fun i => kopp (sp_hy s i)) (sp_hz s))) (madj P)).
Proof. exact @half_model. Qed.
Print Assumptions C26_effective_spin_model.

(** Missing for the full claim: fields along y. *)
Theorem C26_documented_spin_model_partial : forall K (SR : StarRing K) rt (s : spins K),
  sp_two s = 1 -> rt 1 = k1 -> (forall i, i < sg_nsites (sp_geom s) -> sp_hy s i = k0) ->
  exists H, sp_createH rt s None = Ok H /\
    meq H (pauli_hamiltonian (sg_nsites (sp_geom s)) (sp_jx s) (sp_jy s) (sp_jz s) (sp_hx s) (sp_hy s) (sp_hz s)).
Proof. exact @half_model_documented. Qed.
Print Assumptions C26_documented_spin_model_partial.

Theorem C27_complex_coupling_refuted :
  exists (s : spins GQ) H, run_spin (sg2 RefuteFermions.gi) (JNum k1) (HNum k0) (HNum k0) (HNum k0) = Ok s /\
    (forall i j, sg_phase (sg2 RefuteFermions.gi) j i = kconj (sg_phase (sg2 RefuteFermions.gi) i j)) /\
    sp_createH rt1 s None = Ok H /\ ~ meq (madj H) H.
Proof. exact complex_spin_refuted. Qed.
Print Assumptions C27_complex_coupling_refuted.

(** Missing for the full claim: couplings that are not real. *)
Theorem C27_real_spin_hamiltonian_partial : forall K (SR : StarRing K) rt (s : spins K) pr,
  let D := (sp_two s + 1) ^ sg_nsites (sp_geom s) in
  let P := match pr with Some P => P | None => meye D end in
  ncol P = D -> roots_ok rt (sp_two s) ->
  (forall i j, i < sg_nsites (sp_geom s) -> j < i ->
     kconj (sp_jx s i j) = sp_jx s i j /\ kconj (sp_jy s i j) = sp_jy s i j /\ kconj (sp_jz s i j) = sp_jz s i j) ->
  (forall i, i < sg_nsites (sp_geom s) ->
     kconj (sp_hx s i) = sp_hx s i /\ kconj (sp_hy s i) = sp_hy s i /\ kconj (sp_hz s i) = sp_hz s i) ->
  (sp_two s = 1 \/ forall i, i < sg_nsites (sp_geom s) - 1 -> sp_hx s i = k0 /\ sp_hy s i = k0 /\ sp_hz s i = k0) ->
  exists H, sp_createH rt s pr = Ok H /\ square (nrow P) H /\ meq (madj H) H.
Proof. exact @spin_hermitian. Qed.
Print Assumptions C27_real_spin_hamiltonian_partial.

Theorem C28_magnetisation : forall K (SR : StarRing K) rt (s : spins K),
  let n := sg_nsites (sp_geom s) in let d := sp_two s + 1 in
  roots_ok rt (sp_two s) ->
  (forall i j, i < n -> j < i -> sp_jx s i j = sp_jy s i j) ->
  (forall i, i < n -> sp_hx s i = k0 /\ sp_hy s i = k0) ->
  (sp_two s = 1 \/ forall i, i < n - 1 -> sp_hz s i = k0) ->
  exists H, sp_createH rt s None = Ok H /\ square (d ^ n) H /\
    (forall a b, a < d ^ n -> b < d ^ n -> digit_sum d n a <> digit_sum d n b -> ent H a b = k0) /\
    (sp_two s = 1 -> n <> 0 ->
       exists Sz, sum_op (sp_sys s) (sz_op 1) 0 Boson = Ok Sz /\ meq (mmul Sz H) (mmul H Sz)).
Proof. exact @xxz_conserves. Qed.
Print Assumptions C28_magnetisation.

Theorem C28_spin_flip : forall K (SR : StarRing K) rt (s : spins K),
  let n := sg_nsites (sp_geom s) in let d := sp_two s + 1 in
  (forall i, i < n -> sp_hy s i = k0 /\ sp_hz s i = k0) ->
  (sp_two s = 1 \/ forall i, i < n - 1 -> sp_hx s i = k0) ->
  exists H, sp_createH rt s None = Ok H /\ square (d ^ n) H /\
    meq (mmul (swap_up_down (sp_sys s)) H) (mmul H (swap_up_down (sp_sys s))).
Proof. exact @flip_commutes. Qed.
Print Assumptions C28_spin_flip.

Theorem C29_flip_involution : forall K (SR : StarRing K) (s : sys),
  unitary_mat (nstates s) (swap_up_down (K:=K) s) /\
  meq (mmul (swap_up_down s) (swap_up_down s)) (meye (K:=K) (nstates s)).
Proof. exact @flip_unitary. Qed.
Print Assumptions C29_flip_involution.

Theorem C29_flip_reverses_every_spin : forall K (SR : StarRing K) (s : sys) a b,
  s_nspecies s = 1 -> s_nbasis s <> 0 -> a < nstates s -> b < nstates s ->
  ent (swap_up_down (K:=K) s) a b =
  if forallb (fun p => digit (s_nbasis s) (s_nsites s) p a + digit (s_nbasis s) (s_nsites s) p b =? s_nbasis s - 1)
             (seq 0 (s_nsites s))
  then k1 else k0.
Proof. exact @flip_digits. Qed.
Print Assumptions C29_flip_reverses_every_spin.

Theorem C29_flip_is_product : forall K (SR : StarRing K) (s : sys),
  s_nbasis s = 2 -> s_nspecies s = 1 -> meq (allsite_op s pauli_x) (swap_up_down (K:=K) s).
Proof. exact @flip_is_allsite_x. Qed.
Print Assumptions C29_flip_is_product.

Theorem C29_spin_labels : forall n row ii, ii < n -> sp_state_label n row ii = 1 - digit 2 n ii row.
Proof. exact sp_label. Qed.
Print Assumptions C29_spin_labels.

(** C30 fails for every number of sites: the second state never is the flipped
    first one. *)
Theorem C30_second_neel_state_refuted : forall n xs l2r, 1 < n -> xs mod 2 = 1 \/ l2r = false ->
  ~ (forall p, p < n -> digit 2 n p (snd (afm_indices n xs l2r)) = 1 - p mod 2).
Proof. exact afm_second. Qed.
Print Assumptions C30_second_neel_state_refuted.

(** What holds: the first state alternates.  Missing: the second state. *)
Theorem C30_first_neel_state_partial : forall n xs l2r, 1 < n -> xs mod 2 = 1 \/ l2r = false ->
  fst (afm_indices n xs l2r) < 2 ^ n /\
  (forall p, p < n -> digit 2 n p (fst (afm_indices n xs l2r)) = p mod 2) /\
  snd (afm_indices n xs l2r) = 2 ^ n - fst (afm_indices n xs l2r).
Proof. exact afm_first. Qed.
Print Assumptions C30_first_neel_state_partial.

Theorem C66_any_spin : forall K (SR : StarRing K) rt (s : spins K),
  (forall i, i < sg_nsites (sp_geom s) - 1 -> sp_hx s i = k0 /\ sp_hy s i = k0 /\ sp_hz s i = k0) ->
  exists H, sp_createH rt s None = Ok H /\ meq H (spin_hamiltonian rt s).
Proof. exact @any_spin. Qed.
Print Assumptions C66_any_spin.

(** C66 fails for spins above 1/2 as soon as there is a field anywhere but on
    the last site: no Hamiltonian is returned. *)
Theorem C66_higher_spin_field_refuted : forall K (SR : StarRing K) rt (s : spins K),
  1 < sp_two s ->
  (exists i, i < sg_nsites (sp_geom s) - 1 /\ (sp_hx s i <> k0 \/ sp_hy s i <> k0 \/ sp_hz s i <> k0)) ->
  sp_createH rt s None = Raise ValueError.
Proof. exact @createH_raises. Qed.
Print Assumptions C66_higher_spin_field_refuted.

Theorem C67_rydberg_form : forall K (SR : StarRing K) imag_pos rt (g : sgeom K) jx jy jz hx hy hz s s',
  let n := sg_nsites g in
  spins_init imag_pos g jx jy jz hx hy hz true 1 = Ok s ->
  spins_init imag_pos g jx jy (JNum k0) hx hy hz false 1 = Ok s' ->
  rt 1 = k1 ->
  (forall i j, i < n -> j < n -> sp_jz s i j = sp_jz s j i) -> (forall i, i < n -> sp_jz s i i = k0) ->
  (forall i j, i < n -> j < n -> kconj (sp_jz s i j) = sp_jz s i j) ->
  exists H H', sp_createH rt s None = Ok H /\ sp_createH rt s' None = Ok H' /\
    square (2 ^ n) H /\ square (2 ^ n) H' /\
    forall a b, a < 2 ^ n -> b < 2 ^ n ->
      ent H a b = kadd (ent H' a b) (if a =? b then rydberg_elem n (sp_jz s) a else k0).
Proof. exact @rydberg. Qed.
Print Assumptions C67_rydberg_form.

Theorem C68_spin_site_permutation : forall K (SR : StarRing K) s cs,
  s_nbasis s = 2 -> s_nspecies s = 1 -> valid_cycles (s_nsites s) cs -> (exists c, In c cs /\ 1 < length c) ->
  exists T : mat K, xform_op s (sp_swap_op s) cs = Ok (Some T) /\
    meq T (carry_mat 2 (s_nsites s) (cycles_perm cs)) /\ unitary_mat (2 ^ s_nsites s) T.
Proof. exact @spin_xform_api. Qed.
Print Assumptions C68_spin_site_permutation.

Theorem C68_spin_composition : forall K (SR : StarRing K) s cs1 cs2 cs3 (T1 T2 T3 : mat K),
  s_nbasis s = 2 -> s_nspecies s = 1 ->
  valid_cycles (s_nsites s) cs1 -> valid_cycles (s_nsites s) cs2 -> valid_cycles (s_nsites s) cs3 ->
  (exists c, In c cs1 /\ 1 < length c) -> (exists c, In c cs2 /\ 1 < length c) -> (exists c, In c cs3 /\ 1 < length c) ->
  (forall x, x < s_nsites s -> cycles_perm cs3 x = cycles_perm cs1 (cycles_perm cs2 x)) ->
  xform_op s (sp_swap_op s) cs1 = Ok (Some T1) ->
  xform_op s (sp_swap_op s) cs2 = Ok (Some T2) ->
  xform_op s (sp_swap_op s) cs3 = Ok (Some T3) ->
  meq T3 (mmul T1 T2).
Proof. exact @spin_xform_compose. Qed.
Print Assumptions C68_spin_composition.

Theorem C69_spin_symmetry_commutes : forall K (SR : StarRing K) rt (s : spins K) cs T,
  let n := sg_nsites (sp_geom s) in let pi := cycles_perm cs in
  sp_two s = 1 -> valid_cycles n cs ->
  xform_op (sp_sys s) (sp_swap_op (sp_sys s)) cs = Ok (Some T) ->
  (forall i j, i < n -> j < n ->
     sp_jx s i j = sp_jx s j i /\ sp_jx s (pi i) (pi j) = sp_jx s i j /\
     sp_jy s i j = sp_jy s j i /\ sp_jy s (pi i) (pi j) = sp_jy s i j /\
     sp_jz s i j = sp_jz s j i /\ sp_jz s (pi i) (pi j) = sp_jz s i j) ->
  (forall i, i < n -> sp_hx s (pi i) = sp_hx s i /\ sp_hy s (pi i) = sp_hy s i /\ sp_hz s (pi i) = sp_hz s i) ->
  exists H, sp_createH rt s None = Ok H /\ meq (mmul T H) (mmul H T).
Proof. exact @spin_symmetry. Qed.
Print Assumptions C69_spin_symmetry_commutes.

(** C70: what a constructor call that returns stores; and the advertised list
    of [nsites] couplings never returns. *)
Theorem C70_spin_couplings_partial : forall K (SR : StarRing K) imag_pos (g : sgeom K) jx jy jz hx hy hz two s,
  spins_init imag_pos g jx jy jz hx hy hz false two = Ok s ->
  let stored j J := match j with
    | JNum x => forall a b, J a b = if sg_adj g a b then kmul x (sg_phase g a b) else k0
    | JArr2 r c m => r = sg_nsites g /\ c = sg_nsites g /\ J = m
    | _ => False end in
  let fstored h F := match h with
    | HNum x => forall i : nat, F i = x
    | HArr l => length l = sg_nsites g /\ forall i, F i = nth i l k0
    | HOther => False end in
  sp_geom s = g /\ sp_two s = two /\ stored jx (sp_jx s) /\ stored jy (sp_jy s) /\ stored jz (sp_jz s) /\
  fstored hx (sp_hx s) /\ fstored hy (sp_hy s) /\ fstored hz (sp_hz s).
Proof. exact @spins_init_ok. Qed.
Print Assumptions C70_spin_couplings_partial.

Theorem C70_coupling_list_refuted : forall K (SR : StarRing K) imag_pos (g : sgeom K) l jy jz hx hy hz ryd two,
  spins_init imag_pos g (JArr1 l) jy jz hx hy hz ryd two =
  Raise (if length l =? sg_nsites g then ValueError else GenericException).
Proof. exact @list_coupling. Qed.
Print Assumptions C70_coupling_list_refuted.

Theorem C71_excitation_pairs : forall K (SR : StarRing K) (s : sys) conn,
  s_nbasis s = 2 -> s_nspecies s = 1 -> length conn = length (upper_pairs (s_nsites s)) ->
  match npairs_op (K:=K) s conn with
  | Raise _ => False
  | Ok None => forall b, In b conn -> b = false
  | Ok (Some T) => square (2 ^ s_nsites s) T /\ forall a b, a < 2 ^ s_nsites s -> b < 2 ^ s_nsites s ->
      ent T a b = if a =? b then kofnat (length (filter
         (fun p => (digit 2 (s_nsites s) (fst p) a =? 0) && (digit 2 (s_nsites s) (snd p) a =? 0))
         (map fst (filter snd (combine (upper_pairs (s_nsites s)) conn))))) else k0
  end.
Proof. exact @npairs. Qed.
Print Assumptions C71_excitation_pairs.

Theorem C72_single_excitation_rows : forall n k, In k (symm_exc_rows n) ->
  exists q, q < n /\ forall p, p < n -> digit 2 n p k = if p =? q then 0 else 1.
Proof. exact exc_rows. Qed.
Print Assumptions C72_single_excitation_rows.

Theorem C72_ferromagnetic_states : forall n,
  (forall p, p < n -> digit 2 n p (fst (fm_indices n)) = 0) /\
  (forall p, p < n -> digit 2 n p (snd (fm_indices n)) = 1).
Proof. exact fm_states. Qed.
Print Assumptions C72_ferromagnetic_states.
