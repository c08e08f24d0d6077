(** Property theorems C54..C57 and C78..C89: diagonalisation, time evolution,
    thermal averages and response functions.  Theorems only.

    [eigh] and [eigsh] stand for the eigenvalue routines of numpy and scipy. *)
From Coq Require Import List Arith Reals Bool Permutation.
From Verif Require Import Scalars Res Matrix SpecMat ModelGeometry ModelPhase ModelSymmetry SymBase ModelBase SpecSymmetry
  ModelThermal SpecThermal ThermalSectors ThermalBasis ThermalDiag ThermalResponse ThermalCond ThermalSites RefuteThermal ThermalFacts ThermalBlocks ThermalBase.
Import ListNotations.
Local Open Scope R_scope.

(** C54. *)
Theorem C54_boltzmann : forall V op E T, fits V op E -> T <> 0 ->
  exp_vals_thermal V op E T = Ok (boltzmann T (levels E V op)).
Proof. exact thermal_finite. Qed.
Print Assumptions C54_boltzmann.
Theorem C54_zero_temperature : forall V op E, fits V op E -> sorted_list E -> apart gap13 E ->
  exp_vals_thermal V op E 0 = Ok (average_at (nth 0 E 0) (levels E V op)).
Proof. exact thermal_zero. Qed.
Print Assumptions C54_zero_temperature.
Theorem C54_offset : forall V op E T c, fits V op E -> T <> 0 ->
  exp_vals_thermal V op (map (fun e => e + c) E) T = exp_vals_thermal V op E T.
Proof. exact thermal_shift. Qed.
Print Assumptions C54_offset.
Theorem C54_bounds : forall V op E T lo hi, fits V op E -> T <> 0 \/ (sorted_list E /\ apart gap13 E) ->
  (forall k, (k < ncol V)%nat -> lo <= expect (nrow V) op (col V k) <= hi) ->
  exists r, exp_vals_thermal V op E T = Ok r /\ lo <= r <= hi.
Proof. exact thermal_bounds. Qed.
Print Assumptions C54_bounds.
Theorem C54_continuous_at_zero : forall V op E, fits V op E -> sorted_list E -> apart gap13 E ->
  exists r0, exp_vals_thermal V op E 0 = Ok r0 /\
    tends_at_0 (fun T => match exp_vals_thermal V op E T with Ok r => r | Raise _ => 0 end) r0.
Proof. exact thermal_limit. Qed.
Print Assumptions C54_continuous_at_zero.

(** C55. *)
Theorem C55_finite_temperature : forall secs V op E T, secs <> [] -> (forall s, In s secs -> sector_ok s) -> fits V op E -> T <> 0 ->
  Permutation (levels E V op) (concat (map sector_levels secs)) ->
  (vals <- rmap (fun s => exp_vals_thermal (sV s) (sop s) (sE s) T) secs ;; combine_sectors vals (map sE secs) T) =
  exp_vals_thermal V op E T.
Proof. exact combine_full_finite. Qed.
Print Assumptions C55_finite_temperature.
Theorem C55_zero_temperature : forall secs V op E, secs <> [] -> (forall s, In s secs -> sector_ok s) -> fits V op E ->
  Permutation (levels E V op) (concat (map sector_levels secs)) ->
  sorted_list E -> (forall s, In s secs -> sorted_list (sE s)) -> apart gap13 E ->
  (vals <- rmap (fun s => exp_vals_thermal (sV s) (sop s) (sE s) 0) secs ;; combine_sectors vals (map sE secs) 0) =
  exp_vals_thermal V op E 0.
Proof. exact combine_full_zero. Qed.
Print Assumptions C55_zero_temperature.

(** C56.  [U t] takes a state to the state at time [t]. *)
Theorem C56_evolution : forall H V E, eigenbasis H V E ->
  exists U : R -> (nat -> CR) -> nat -> CR,
    (forall st times, nrow (as_columns st) = nrow V ->
       exists Ms, quench st V E times = Ok Ms /\ length Ms = ncol (as_columns st) /\
         forall s, (s < length Ms)%nat -> nrow (nth s Ms (mzero 0 0)) = nrow V /\ ncol (nth s Ms (mzero 0 0)) = length times /\
           forall i a, (i < nrow V)%nat -> (a < length times)%nat ->
             ent (nth s Ms (mzero 0 0)) i a = U (nth a times 0) (col (as_columns st) s) i) /\
    (forall psi i, (i < nrow V)%nat -> U 0 psi i = psi i) /\
    (forall s t psi i, (i < nrow V)%nat -> U t (U s psi) i = U (s + t) psi i) /\
    (forall t phi psi, inner (nrow V) (U t phi) (U t psi) = inner (nrow V) phi psi) /\
    (forall t psi, norm2 (nrow V) (U t psi) = norm2 (nrow V) psi) /\
    (forall t psi, expect (nrow V) H (U t psi) = expect (nrow V) H psi) /\
    (forall t psi i, (i < nrow V)%nat ->
       derivable_pt_lim (fun t => fst (U t psi i)) t (snd (apply (nrow V) H (U t psi) i)) /\
       derivable_pt_lim (fun t => snd (U t psi i)) t (- fst (apply (nrow V) H (U t psi) i))).
Proof. exact quench_group. Qed.
Print Assumptions C56_evolution.

(** C57. *)
Theorem C57_dense : forall eigh eigsh H k, eigenbasis H (snd (eigh H)) (fst (eigh H)) ->
  let EV := diagH eigh eigsh H k false in
  sorted_list (fst EV) /\ eigenbasis H (snd EV) (fst EV) /\ Permutation (fst EV) (fst (eigh H)) /\ nrow (snd EV) = nrow (snd (eigh H)).
Proof. exact diagH_dense. Qed.
Print Assumptions C57_dense.

(** C78. *)
Theorem C78_basis_independence : forall H V V' O E E' T, hermitian (nrow V) H -> eigenbasis H V E -> eigenbasis H V' E' -> nrow V' = nrow V ->
  fits V O E -> E' <> [] ->
  T <> 0 \/ (sorted_list E /\ sorted_list E' /\ apart gap13 E) ->
  exp_vals_thermal V O E T = exp_vals_thermal V' O E' T.
Proof. exact thermal_basis. Qed.
Print Assumptions C78_basis_independence.

(** C79, false in general: the eigenvalues of largest magnitude of H + 100 are the
    highest ones of H.  Full statement: the sparse branch returns the lowest
    [neigs] eigenvalues.  Proved: what is returned are sorted eigenpairs of H. *)
Theorem C79_sparse_refuted : exists H k, nrow H = 2%nat /\ ncol H = 2%nat /\ hermitian 2 H /\
  (exists r : list R * cmat, length (fst r) = k /\ nrow (snd r) = 2%nat /\ eigen (plus_const 100 H) (snd r) (fst r) /\
     orthonormal (snd r) /\ largest_magnitude 2 (plus_const 100 H) (fst r)) /\
  forall eigh eigsh,
    let r := eigsh (plus_const 100 H) k in
    length (fst r) = k -> nrow (snd r) = 2%nat -> eigen (plus_const 100 H) (snd r) (fst r) -> orthonormal (snd r) ->
    largest_magnitude 2 (plus_const 100 H) (fst r) ->
    exists e, eigenvalue 2 H e /\ forall x, In x (fst (diagH eigh eigsh H k true)) -> e < x.
Proof. exact sparse_wrong. Qed.
Print Assumptions C79_sparse_refuted.
Theorem C79_sparse_partial : forall eigh eigsh H k, nrow H = ncol H ->
  let EV' := eigsh (plus_const 100 H) k in
  eigen (plus_const 100 H) (snd EV') (fst EV') -> orthonormal (snd EV') ->
  let EV := diagH eigh eigsh H k true in
  sorted_list (fst EV) /\ eigen H (snd EV) (fst EV) /\ orthonormal (snd EV) /\
  Permutation (fst EV) (map (fun e => e - 100) (fst EV')).
Proof. exact diagH_sparse. Qed.
Print Assumptions C79_sparse_partial.

(** C80, false: the squares of the norms are returned, and a single vector raises. *)
Theorem C80_norms_refuted : exists M l, norms (Columns M) = Ok l /\ nth 0 l 0 <> sqrt (norm2 (nrow M) (col M 0)).
Proof. exact norms_wrong. Qed.
Print Assumptions C80_norms_refuted.
Theorem C80_one_vector_refuted : forall n v, norms (OneState n v) = Raise AttributeError.
Proof. exact norms_vector. Qed.
Print Assumptions C80_one_vector_refuted.
Theorem C80_squares_partial : forall M, norms (Columns M) = Ok (map (fun k => norm2 (nrow M) (col M k)) (seq 0 (ncol M))).
Proof. exact norms_columns. Qed.
Print Assumptions C80_squares_partial.

(** C81.  [is_eq x v] is one if x = v and zero otherwise, [nsq] the squared modulus. *)
Theorem C81_subspace_weights : forall n (op M : cmat), diagonal_mat n op -> nrow M = n ->
  exists ps vs ws, subspace_projs true op None = Ok (ps, vs) /\ subspace_overlaps (Columns M) ps = Ok ws /\
    length ws = length vs /\
    (forall w, In w ws -> length w = ncol M) /\
    (forall k t, (k < ncol M)%nat -> (t < length vs)%nat ->
       nth k (nth t ws []) 0 = rsum n (fun i => is_eq (ent op i i) (nth t vs (0, 0)) * nsq (ent M i k))) /\
    (forall k, (k < ncol M)%nat -> total (fun w => nth k w 0) ws = norm2 n (col M k)) /\
    ((forall i, (i < n)%nat -> snd (ent op i i) = 0) -> forall k, (k < ncol M)%nat ->
       total (fun t => nth k (nth t ws []) 0 * fst (nth t vs (0, 0))) (seq 0 (length vs)) = expect n op (col M k)).
Proof. exact subspace_weights. Qed.
Print Assumptions C81_subspace_weights.

(** C82, false at finite temperature.  Full statement: the value returned is the
    Lehmann sum.  Proved: the limit of zero temperature. *)
Theorem C82_finite_temperature_refuted : exists A E T w eta r, hermitian 2 A /\ square_size A (length E) /\ unique_ground E /\ sorted_list E /\ 0 < T /\ 0 < eta /\
  response_retarded A A E T BosonFmt w eta = Ok r /\ lehmann (-1) A A E T w eta = 0 /\ r < 0.
Proof. exact retarded_wrong. Qed.
Print Assumptions C82_finite_temperature_refuted.
Theorem C82_zero_temperature_partial : forall A B E f w eta, square_size A (length E) -> square_size B (length E) -> unique_ground E -> f <> OtherFmt ->
  exists r, response_retarded A B E 0 f w eta = Ok r /\
    tends_at_0 (fun T => lehmann (match f with BosonFmt => -1 | _ => 1 end) A B E T w eta) r.
Proof. exact retarded_zero_sign. Qed.
Print Assumptions C82_zero_temperature_partial.

(** C83, false for negative frequencies.  Proved: real and imaginary part ([p]) at
    finite temperature, and continuity at zero temperature for frequencies which
    are not negative. *)
Theorem C83_negative_frequency_refuted : exists A E w eta z f, hermitian 2 A /\ square_size A (length E) /\ unique_ground E /\ sorted_list E /\ 0 < eta /\
  response_time_ordered A A E 0 w eta = Ok z /\
  (forall T, 0 < T -> exists zT, response_time_ordered A A E T w eta = Ok zT /\ fst zT = f T) /\
  ~ tends_at_0 f (fst z).
Proof. exact time_ordered_wrong. Qed.
Print Assumptions C83_negative_frequency_refuted.
Theorem C83_finite_temperature_partial : forall (A B : cmat) (E : list R) (w eta : R) (p : CR -> R),
  square_size A (length E) -> square_size B (length E) -> E <> [] -> p = fst \/ p = snd -> forall T, T <> 0 ->
  exists z, response_time_ordered A B E T w eta = Ok z /\
    p z = PI * sum_nm (length E) (fun n m => p (kmul (ent A n m) (ent B m n)) * (prob T E m - prob T E n) * lorentz eta (w - (nth n E 0 - nth m E 0))).
Proof. exact time_ordered_finite. Qed.
Print Assumptions C83_finite_temperature_partial.
Theorem C83_limit_partial : forall (A B : cmat) (E : list R) (w eta : R) (p : CR -> R),
  square_size A (length E) -> square_size B (length E) -> E <> [] -> p = fst \/ p = snd -> unique_ground E -> 0 <= w ->
  exists z, response_time_ordered A B E 0 w eta = Ok z /\
    tends_at_0 (fun T => PI * sum_nm (length E) (fun n m => p (kmul (ent A n m) (ent B m n)) * (prob T E m - prob T E n) * lorentz eta (w - (nth n E 0 - nth m E 0)))) (p z).
Proof. exact time_ordered_limit. Qed.
Print Assumptions C83_limit_partial.

(** C84, false for a degenerate ground state. *)
Theorem C84_degenerate_refuted : exists J E r, hermitian 3 J /\ square_size J (length E) /\ sorted_list E /\ apart gap13 E /\
  integrate_conductivity 1 J E 0 = Ok r /\
  (forall T, T <> 0 -> integrate_conductivity 1 J E T = Ok (kubo_weight 1 J E T)) /\
  ~ tends_at_0 (fun T => kubo_weight 1 J E T) r.
Proof. exact degenerate_wrong. Qed.
Print Assumptions C84_degenerate_refuted.
Theorem C84_finite_temperature_partial : forall nsites J E, square_size J (length E) -> E <> [] -> (0 < nsites)%nat ->
  forall T, T <> 0 -> integrate_conductivity nsites J E T = Ok (kubo_weight nsites J E T).
Proof. exact integrate_finite. Qed.
Print Assumptions C84_finite_temperature_partial.
Theorem C84_not_negative_partial : forall nsites J E, square_size J (length E) -> E <> [] -> (0 < nsites)%nat ->
  forall T, 0 <= T -> (forall k, (k < length E)%nat -> nth 0 E 0 <= nth k E 0) ->
  exists r, integrate_conductivity nsites J E T = Ok r /\ 0 <= r.
Proof. exact integrate_ge. Qed.
Print Assumptions C84_not_negative_partial.
Theorem C84_limit_partial : forall nsites J E, square_size J (length E) -> E <> [] -> (0 < nsites)%nat ->
  unique_ground E -> (forall n m, (n < length E)%nat -> (m < length E)%nat -> abs2 (ent J n m) = abs2 (ent J m n)) ->
  exists r, integrate_conductivity nsites J E 0 = Ok r /\ tends_at_0 (fun T => kubo_weight nsites J E T) r.
Proof. exact integrate_limit. Qed.
Print Assumptions C84_limit_partial.

(** C85.  Squared moduli of the matrix elements are symmetric for a current
    operator, which is Hermitian. *)
Theorem C85_even : forall nsites J E, square_size J (length E) -> E <> [] -> (0 < nsites)%nat ->
  (forall n m, (n < length E)%nat -> (m < length E)%nat -> abs2 (ent J n m) = abs2 (ent J m n)) ->
  forall T w eta, w <> 0 -> optical_cond nsites J E T (- w) eta = optical_cond nsites J E T w eta.
Proof. exact optical_even. Qed.
Print Assumptions C85_even.
Theorem C85_not_negative : forall nsites J E, square_size J (length E) -> E <> [] -> (0 < nsites)%nat ->
  (forall n m, (n < length E)%nat -> (m < length E)%nat -> abs2 (ent J n m) = abs2 (ent J m n)) ->
  forall T w eta, 0 <= T -> w <> 0 -> 0 < eta -> (forall k, (k < length E)%nat -> nth 0 E 0 <= nth k E 0) ->
  exists r, optical_cond nsites J E T w eta = Ok r /\ 0 <= r.
Proof. exact optical_ge. Qed.
Print Assumptions C85_not_negative.

(** C86, false for a space of dimension one. *)
Theorem C86_dimension_one_refuted : exists nbasis ntimes, (0 < nbasis)%nat /\ (1 < ntimes)%nat /\ quench_shape nbasis ntimes 1 <> [nbasis; ntimes].
Proof. exact shape_wrong. Qed.
Print Assumptions C86_dimension_one_refuted.
Theorem C86_shape_partial : forall nbasis ntimes, (1 < nbasis)%nat -> quench_shape nbasis ntimes 1 = [nbasis; ntimes].
Proof. exact shape_right. Qed.
Print Assumptions C86_shape_partial.

(** C87. *)
Theorem C87_sites : forall st nsites site_op sites P, let M := as_columns st in
  let Q := the_projector P (nrow M) in
  let l := match sites with None => seq 0 nsites | Some l => l end in
  nrow Q = nrow M -> (forall i, In i l -> exists op, site_op i = Ok op /\ nrow op = ncol Q /\ ncol op = ncol Q) ->
  exists rows, exp_vals_sites st nsites site_op sites P = Ok (rows, l) /\
    Forall2 (fun i row => exists op, site_op i = Ok op /\ row = map (fun k => expect (ncol Q) op (lift Q (col M k))) (seq 0 (ncol M))) l rows.
Proof. exact exp_vals_sites_ok. Qed.
Print Assumptions C87_sites.
Theorem C87_pairs : forall st nsites pair_op P, let M := as_columns st in
  let Q := the_projector P (nrow M) in
  nrow Q = nrow M ->
  (forall i j, (j <= i < nsites)%nat -> exists op, pair_op i j = Ok op /\ nrow op = ncol Q /\ ncol op = ncol Q) ->
  exists rows pairs, corr_sites st nsites pair_op None P = Ok (rows, pairs) /\
    NoDup pairs /\ (forall i j, In (i, j) pairs <-> (j <= i < nsites)%nat) /\
    Forall2 (fun p row => exists op, pair_op (fst p) (snd p) = Ok op /\
       row = map (fun k => expect (ncol Q) op (lift Q (col M k))) (seq 0 (ncol M))) pairs rows.
Proof. exact corr_sites_ok. Qed.
Print Assumptions C87_pairs.

(** C88, false at zero temperature with the default argument. *)
Theorem C88_no_offset_refuted : exists E e w z k, sorted_list E /\ apart gap13 E /\ smallest e E /\
  thermal_weights false E 0 = Ok (w, z) /\ (k < length E)%nat /\ nth k E 0 <> e /\ nth k w 0 <> 0.
Proof. exact weights_wrong. Qed.
Print Assumptions C88_no_offset_refuted.
Theorem C88_no_state_refuted : thermal_weights false [1] 0 = Ok ([0], 0).
Proof. exact weights_none. Qed.
Print Assumptions C88_no_state_refuted.
Theorem C88_offset_partial : forall E T, E <> [] -> sorted_list E -> (T = 0 -> apart gap13 E) ->
  exists w z, thermal_weights true E T = Ok (w, z) /\ length w = length E /\ 0 < z /\ total (fun x => x) w = z /\
    (T <> 0 -> forall k, (k < length E)%nat -> nth k w 0 / z = prob T E k) /\
    (T = 0 -> forall k, (k < length E)%nat ->
       nth k w 0 / z = at_energy (nth 0 E 0) (nth k E 0, 0) / total (fun e => at_energy (nth 0 E 0) (e, 0)) E).
Proof. exact weights_offset. Qed.
Print Assumptions C88_offset_partial.
Theorem C88_no_offset_partial : forall E T, E <> [] -> T <> 0 ->
  exists w z, thermal_weights false E T = Ok (w, z) /\ z = total (fun e => exp (- e / T)) E /\
    length w = length E /\ forall k, (k < length E)%nat -> nth k w 0 / z = prob T E k.
Proof. exact weights_plain. Qed.
Print Assumptions C88_no_offset_partial.

(** C89.  A block is a basis of a sector ([fst (fst x)], as rows), eigenvectors in
    this basis and energies. *)
Theorem C89_sectors : forall (N : nat) (H : cmat) (l : list block),
  square N H -> splits N (map (fun x => fst (fst x)) l) -> block_diagonal (map (fun x => fst (fst x)) l) H ->
  (forall x, In x l -> eigenbasis (seen_in (fst (fst x)) H) (snd (fst x)) (snd x)) ->
  forall V E O T, hermitian N H -> eigenbasis H V E -> nrow V = N -> square N O -> (0 < N)%nat ->
  (forall x, In x l -> (0 < nrow (fst (fst x)))%nat) ->
  T <> 0 \/ (sorted_list E /\ (forall x, In x l -> sorted_list (snd x)) /\ apart gap13 E) ->
  (vals <- rmap (fun x => exp_vals_thermal (snd (fst x)) (seen_in (fst (fst x)) O) (snd x) T) l ;;
   combine_sectors vals (map (fun x => snd x) l) T) =
  exp_vals_thermal V O E T.
Proof. exact blocks_thermal. Qed.
Print Assumptions C89_sectors.
