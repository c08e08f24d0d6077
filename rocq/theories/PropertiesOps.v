(** Property theorems C01..C10: operators and bases.  Theorems only. *)
From Coq Require Import List Arith Bool QArith Sorted.
From Verif Require Import Scalars Res Matrix ModelBase ModelFermions SpecFock SpecMat
  OpsProofs FermiOps SubspaceProofs FermiApi RefuteFermions.
Import ListNotations.
Local Open Scope nat_scope.

Theorem C01_logical_index_bijection : forall nsites nspecies, nsites <> 0 ->
  (forall i k, i < nsites -> k < nspecies ->
     spinful2spinless i nsites k < nsites * nspecies /\
     spinless2spinful (spinful2spinless i nsites k) nsites = (i, k)) /\
  (forall q, q < nsites * nspecies ->
     exists i k, spinless2spinful q nsites = (i, k) /\ i < nsites /\ k < nspecies /\
                 spinful2spinless i nsites k = q).
Proof. exact logical_bijection. Qed.
Print Assumptions C01_logical_index_bijection.

Theorem C02_two_site_is_product : forall K (SR : StarRing K) s site1 sp1 site2 sp2 (op1 op2 : mat K) f,
  s_nbasis s = 2 -> f <> OtherFormat ->
  site1 < s_nsites s -> sp1 < s_nspecies s -> site2 < s_nsites s -> sp2 < s_nspecies s ->
  square 2 op1 -> square 2 op2 ->
  exists T A B,
    two_site_op s site1 sp1 site2 sp2 op1 op2 f = Ok T /\
    single_site_op s site1 sp1 op1 f = Ok A /\
    single_site_op s site2 sp2 op2 f = Ok B /\
    square (nstates s) A /\ square (nstates s) B /\ meq T (mmul A B).
Proof. exact @two_site_product. Qed.
Print Assumptions C02_two_site_is_product.

Theorem C03_anticommutation : forall K (SR : StarRing K) s i si j sj,
  s_nbasis s = 2 -> i < s_nsites s -> si < s_nspecies s -> j < s_nsites s -> sj < s_nspecies s ->
  exists ci ci' cj cj' : mat K,
    single_site_op s i si c_op Fermion = Ok ci /\ single_site_op s i si cdag_op Fermion = Ok ci' /\
    single_site_op s j sj c_op Fermion = Ok cj /\ single_site_op s j sj cdag_op Fermion = Ok cj' /\
    square (nstates s) ci /\ square (nstates s) ci' /\
    meq (anticomm ci cj') (if (i =? j) && (si =? sj) then meye (nstates s) else mzero (nstates s) (nstates s)) /\
    meq (anticomm ci cj) (mzero (nstates s) (nstates s)) /\
    meq (anticomm ci' cj') (mzero (nstates s) (nstates s)).
Proof. exact @anticommutation. Qed.
Print Assumptions C03_anticommutation.

Theorem C04_boson_format : forall K (SR : StarRing K) s i si j sj (A B : mat K) (c : K),
  s_nbasis s = 2 -> i < s_nsites s -> si < s_nspecies s -> j < s_nsites s -> sj < s_nspecies s ->
  square 2 A -> square 2 B ->
  exists Ai Bi Bj Li Mi Di Ii Tij,
    single_site_op s i si A Boson = Ok Ai /\ single_site_op s i si B Boson = Ok Bi /\
    single_site_op s j sj B Boson = Ok Bj /\
    single_site_op s i si (madd (mscale c A) B) Boson = Ok Li /\
    single_site_op s i si (mmul A B) Boson = Ok Mi /\
    single_site_op s i si (madj A) Boson = Ok Di /\
    single_site_op s i si (meye 2) Boson = Ok Ii /\
    two_site_op s i si j sj A B Boson = Ok Tij /\
    square (nstates s) Ai /\ square (nstates s) Bj /\
    meq Li (madd (mscale c Ai) Bi) /\ meq Mi (mmul Ai Bi) /\ meq Di (madj Ai) /\
    meq Ii (meye (nstates s)) /\ meq Tij (mmul Ai Bj) /\
    (i <> j \/ si <> sj -> meq (mmul Ai Bj) (mmul Bj Ai)).
Proof. exact @boson_format. Qed.
Print Assumptions C04_boson_format.

Theorem C05_basis_state_is_ordered_product : forall K (SR : StarRing K) s (Op : nat -> nat -> mat K) k,
  s_nbasis s = 2 ->
  (forall i sp, i < s_nsites s -> sp < s_nspecies s -> single_site_op s i sp cdag_op Fermion = Ok (Op i sp)) ->
  k < nstates s ->
  (** creation operators of the sites occupied in [k], lower logical index applied first *)
  forall a, a < nstates s ->
  fold_left (fun v p => if occ (nlog s) k (s_nsites s * snd p + fst p) then mapply (Op (fst p) (snd p)) v else v)
    (flat_map (fun sp => map (fun i => (i, sp)) (seq 0 (s_nsites s))) (seq 0 (s_nspecies s))) (unit_vec 0) a
  = unit_vec k a.
Proof. exact @basis_state_api. Qed.
Print Assumptions C05_basis_state_is_ordered_product.

Theorem C05_state_labels : forall s row ii, ii < nlog s ->
  f_state_label s row ii = Nat.b2n (occ (nlog s) row ii).
Proof. exact state_label_occ. Qed.
Print Assumptions C05_state_labels.

Theorem C06_matrix_elements : forall K (SR : StarRing K) s i si,
  s_nbasis s = 2 -> i < s_nsites s -> si < s_nspecies s ->
  exists cd c n : mat K,
    single_site_op s i si cdag_op Fermion = Ok cd /\ single_site_op s i si c_op Fermion = Ok c /\
    single_site_op s i si n_op Boson = Ok n /\
    meq cd (cdag_spec (nlog s) (s_nsites s * si + i)) /\
    meq c (c_spec (nlog s) (s_nsites s * si + i)) /\ meq c (madj cd) /\
    meq n (n_spec (nlog s) (s_nsites s * si + i)).
Proof. exact @matrix_elements. Qed.
Print Assumptions C06_matrix_elements.

(** The full claim C07 is: for every [nbasis], [single_site_op] returns a
    matrix of dimension [nstates s].  It fails for local dimension 3. *)
Theorem C07_dimension_refuted :
  exists s i si (op A : mat GQ), square (s_nbasis s) op /\ i < s_nsites s /\ si < s_nspecies s /\
    single_site_op s i si op Boson = Ok A /\ nrow A <> nstates s.
Proof. exact single_site_dim_refuted. Qed.
Print Assumptions C07_dimension_refuted.

(** What holds: the dimension is [nbasis^(q+1) * 2^(sites after q)]; it is the
    dimension of the state space for two local states, and in general only for
    the last logical site.  Missing for the full claim: local dimension other
    than 2 on the other sites. *)
Theorem C07_dimension_partial : forall K (SR : StarRing K) s i si (op : mat K) f A,
  square (s_nbasis s) op -> i < s_nsites s -> si < s_nspecies s ->
  single_site_op s i si op f = Ok A ->
  let q := s_nsites s * si + i in
  nrow A = s_nbasis s ^ (q + 1) * 2 ^ (nlog s - q - 1) /\ ncol A = nrow A /\
  (s_nbasis s = 2 \/ q + 1 = nlog s -> square (nstates s) A).
Proof. exact @single_site_dims. Qed.
Print Assumptions C07_dimension_partial.

Theorem C08_number_operator : forall K (SR : StarRing K) s sp,
  s_nbasis s = 2 -> s_nsites s <> 0 -> sp < s_nspecies s ->
  exists N : mat K, sum_op s n_op sp Boson = Ok N /\ meq N (number_spec (nlog s) (s_nsites s) sp).
Proof. exact @sum_op_number. Qed.
Print Assumptions C08_number_operator.

Theorem C09_subspace_projectors : forall K (SR : StarRing K) n (O : mat K) ev,
  diagonal_mat n O ->
  exists ps vs, subspace_projs true O ev = Ok (ps, vs) /\ length ps = length vs /\
    (forall l, ev = Some l -> vs = l) /\
    (ev = None -> NoDup vs /\ forall v, In v vs <-> exists k, k < n /\ ent O k k = v) /\
    (forall t, t < length vs -> exists idx,
       let P := nth t ps (mzero 0 0) in let v := nth t vs k0 in
       StronglySorted lt idx /\ (forall k, In k idx <-> k < n /\ ent O k k = v) /\
       rows_are n P idx /\
       meq (mmul P (madj P)) (meye (length idx)) /\
       meq (mmul (madj P) P) (mdiag n (fun k => if keq_dec (ent O k k) v then k1 else k0)) /\
       meq (mmul P (mmul O (madj P))) (mscale v (meye (length idx)))) /\
    (ev = None -> meq (msum n (map (fun P => mmul (madj P) P) ps)) (meye n)).
Proof. exact @projs_spec. Qed.
Print Assumptions C09_subspace_projectors.

Theorem C09_wrong_storage_rejected : forall K (SR : StarRing K) (O : mat K) ev,
  subspace_projs false O ev = Raise GenericException.
Proof. exact @not_csr. Qed.
Print Assumptions C09_wrong_storage_rejected.

Theorem C10_fixed_number_basis : forall K (SR : StarRing K) s l,
  s_nbasis s = 2 -> s_nsites s <> 0 -> length l = s_nspecies s ->
  exists (P : mat K) idx, n_projector s (Some l) = Ok P /\ rows_are (nstates s) P idx /\
    StronglySorted lt idx /\
    (forall k, In k idx <-> k < nstates s /\
       forall sp n, nth_error l sp = Some (Some n) -> occ_species (nlog s) (s_nsites s) k sp = n) /\
    (forall ns, l = map Some ns -> nrow P = fold_right Nat.mul 1 (map (binom (s_nsites s)) ns)).
Proof. exact @number_basis. Qed.
Print Assumptions C10_fixed_number_basis.
