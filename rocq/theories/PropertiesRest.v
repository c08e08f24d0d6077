(** Property theorems C121..C125: averages of many sites, the partition function of
    a Hamiltonian, sums over sites with a wave vector, regular polygons and
    interactions that decay with distance.  Theorems only. *)
From Coq Require Import String List Arith Reals ZArith Bool.
From Verif Require Import Scalars Sums Res Matrix SpecMat ModelGeometry ModelPhase ModelSymmetry ModelBase ModelFermions ModelThermal ModelRest
  SpecThermal SpecFermiGas OpsProofs SpecRest RestThermal RestFourier RestPolygon.
Import ListNotations.
Local Open Scope R_scope.

(** C121. *)
Theorem C121_sites : forall V E P temps, nrow (the_projector P (nrow V)) = nrow V -> ncol V = length E -> E <> [] ->
  (forall T, In T temps -> cold_ok E T) ->
  forall nsites site_op sites, let l := match sites with None => seq 0 nsites | Some l => l end in
  (forall i, In i l -> exists op, site_op i = Ok op /\ nrow op = ncol (the_projector P (nrow V)) /\ ncol op = ncol (the_projector P (nrow V))) ->
  exists rs, thermal_exp_sites V E nsites site_op temps sites P = Ok (rs, l) /\
    Forall2 (fun i row => exists op, site_op i = Ok op /\ Forall2 (fun T v => thermal_mean T E (fun k => expect (ncol (the_projector P (nrow V))) op (lift (the_projector P (nrow V)) (col V k))) v) temps row) l rs.
Proof. exact thermal_sites_ok. Qed.
Print Assumptions C121_sites.

Theorem C121_pairs : forall V E P temps, nrow (the_projector P (nrow V)) = nrow V -> ncol V = length E -> E <> [] ->
  (forall T, In T temps -> cold_ok E T) ->
  forall nsites pair_op, (forall i j, (j <= i < nsites)%nat -> exists op, pair_op i j = Ok op /\ nrow op = ncol (the_projector P (nrow V)) /\ ncol op = ncol (the_projector P (nrow V))) ->
  exists rs pairs, thermal_corr_sites V E nsites pair_op temps None P = Ok (rs, pairs) /\
    NoDup pairs /\ (forall i j, In (i, j) pairs <-> (j <= i < nsites)%nat) /\
    Forall2 (fun p row => exists op, pair_op (fst p) (snd p) = Ok op /\ Forall2 (fun T v => thermal_mean T E (fun k => expect (ncol (the_projector P (nrow V))) op (lift (the_projector P (nrow V)) (col V k))) v) temps row) pairs rs.
Proof. exact thermal_pairs_ok. Qed.
Print Assumptions C121_pairs.

Theorem C121_given_pairs : forall V E P temps, nrow (the_projector P (nrow V)) = nrow V -> ncol V = length E -> E <> [] ->
  (forall T, In T temps -> cold_ok E T) ->
  forall nsites pair_op l1 l2,
  (length l2 < length l1)%nat /\ thermal_corr_sites V E nsites pair_op temps (Some (l1, l2)) P = Raise IndexError \/
  (length l1 <= length l2)%nat /\ ((forall i j, In (i, j) (combine l1 l2) -> exists op, pair_op i j = Ok op /\ nrow op = ncol (the_projector P (nrow V)) /\ ncol op = ncol (the_projector P (nrow V))) ->
  exists rs, thermal_corr_sites V E nsites pair_op temps (Some (l1, l2)) P = Ok (rs, combine l1 l2) /\
    Forall2 (fun p row => exists op, pair_op (fst p) (snd p) = Ok op /\ Forall2 (fun T v => thermal_mean T E (fun k => expect (ncol (the_projector P (nrow V))) op (lift (the_projector P (nrow V)) (col V k))) v) temps row) (combine l1 l2) rs).
Proof. exact thermal_given_ok. Qed.
Print Assumptions C121_given_pairs.

(** C122 fails for arrays: the method asks the exponential for [toarray]. *)
Theorem C122_dense_refuted : forall expm H beta, beta <> 0 -> partition_fn_hamiltonian expm false H beta = Raise AttributeError.
Proof. exact partition_dense. Qed.
Print Assumptions C122_dense_refuted.

(** What holds: for sparse matrices.  Missing: arrays. *)
Theorem C122_sparse_partial : forall expm H V E, eigenbasis H V E ->
  forall beta, (beta <> 0 -> is_exponential (mscale (real (- beta)) H) (expm (mscale (real (- beta)) H))) ->
  partition_fn_hamiltonian expm true H beta = Ok (total (fun e => exp (- beta * e)) E).
Proof. exact partition_trace. Qed.
Print Assumptions C122_sparse_partial.

Theorem C122_weights_partial : forall expm H V E, eigenbasis H V E ->
  forall T, is_exponential (mscale (real (- (1 / T))) H) (expm (mscale (real (- (1 / T))) H)) -> T <> 0 ->
  exists w z, thermal_weights false E T = Ok (w, z) /\ partition_fn_hamiltonian expm true H (1 / T) = Ok z.
Proof. exact partition_same. Qed.
Print Assumptions C122_weights_partial.

(** C123. *)
Theorem C123_entries : forall s op sp f, two_state s -> f <> OtherFormat -> (sp < s_nspecies s)%nat -> square 2 op ->
  forall xs ys q A, s_nsites s <> 0%nat -> (forall i, (i < s_nsites s)%nat -> single_site_op s i sp op f = Ok (A i)) ->
  exists M, sum_op_q s xs ys q op sp f = Ok (Some M) /\ square (2 ^ nlog s) M /\
    forall a b, ent M a b = ksum (s_nsites s) (fun i => kmul (site_wave xs ys q i) (ent (A i) a b)).
Proof. exact sum_q_entries. Qed.
Print Assumptions C123_entries.

Theorem C123_zero : forall s op sp f, two_state s -> f <> OtherFormat -> (sp < s_nspecies s)%nat -> square 2 op ->
  forall xs ys, s_nsites s <> 0%nat ->
  exists M M', sum_op_q s xs ys (0, 0) op sp f = Ok (Some M) /\ sum_op s op sp f = Ok M' /\ meq M M'.
Proof. exact sum_q_zero. Qed.
Print Assumptions C123_zero.

Theorem C123_period : forall s op sp f, two_state s -> f <> OtherFormat -> (sp < s_nspecies s)%nat -> square 2 op ->
  forall zx zy q m1 m2, s_nsites s <> 0%nat -> let xs := map IZR zx in let ys := map IZR zy in
  exists M M', sum_op_q s xs ys q op sp f = Ok (Some M) /\
    sum_op_q s xs ys (fst q + 2 * PI * IZR m1, snd q + 2 * PI * IZR m2) op sp f = Ok (Some M') /\ meq M M'.
Proof. exact sum_q_period. Qed.
Print Assumptions C123_period.

Theorem C123_adjoint : forall s op sp f xs ys q, two_state s -> f <> OtherFormat -> (sp < s_nspecies s)%nat -> square 2 op -> s_nsites s <> 0%nat ->
  exists M M', sum_op_q s xs ys q op sp f = Ok (Some M) /\
    sum_op_q s xs ys (- fst q, - snd q) (madj op) sp f = Ok (Some M') /\ meq M' (madj M).
Proof. exact sum_q_adjoint. Qed.
Print Assumptions C123_adjoint.

Theorem C123_inverse : forall s op sp f, two_state s -> f <> OtherFormat -> (sp < s_nspecies s)%nat -> square 2 op ->
  forall sh n zx zy j, (1 <= n)%nat -> (j < s_nsites s)%nat ->
  (forall i, (i < s_nsites s)%nat -> i <> j -> same_site sh n (nth i zx 0 - nth j zx 0, nth i zy 0 - nth j zy 0)%Z = false) ->
  exists A M, single_site_op s j sp op f = Ok A /\
    (forall p, sum_op_q s (map IZR zx) (map IZR zy) (wave_vector sh n p) op sp f = Ok (Some (M p))) /\
    forall a b, klsum (modes sh n) (fun p => kmul (kconj (plane sh n (nth j zx 0, nth j zy 0)%Z p)) (ent (M p) a b)) =
      kmul (real (INR (length (modes sh n)))) (ent A a b).
Proof. exact sum_q_inverse. Qed.
Print Assumptions C123_inverse.

Theorem C123_fermions : forall s xs ys sp sp' q q', two_state s -> (sp < s_nspecies s)%nat -> (sp' < s_nspecies s)%nat -> s_nsites s <> 0%nat ->
  exists a_q a_q' ad_q', sum_op_q s xs ys q c_op sp Fermion = Ok (Some a_q) /\ sum_op_q s xs ys q' c_op sp' Fermion = Ok (Some a_q') /\
    sum_op_q s xs ys (- fst q', - snd q') cdag_op sp' Fermion = Ok (Some ad_q') /\
    meq (anticomm a_q ad_q') (mscale (if (sp =? sp')%nat then overlap s xs ys q q' else k0) (meye (nstates s))) /\
    meq (anticomm a_q a_q') (mzero (nstates s) (nstates s)).
Proof. exact momentum_anticommute. Qed.
Print Assumptions C123_fermions.

Theorem C123_modes : forall s sh n p p', (1 <= n)%nat -> s_nsites s = length (modes sh n) -> In p (modes sh n) -> In p' (modes sh n) ->
  overlap s (lattice_x sh n) (lattice_y sh n) (wave_vector sh n p) (wave_vector sh n p') =
    if ((fst p =? fst p') && (snd p =? snd p'))%nat then real (INR (s_nsites s)) else k0.
Proof. exact overlap_modes. Qed.
Print Assumptions C123_modes.

(** C124. *)
Theorem C124_polygon : forall n, (2 <= n)%nat -> exists sites A, polygon n = Ok (sites, A) /\ length sites = n /\
  (forall i, (i < n)%nat -> A i i = 0) /\
  forall i j, (i < n)%nat -> (j < n)%nat -> i <> j ->
    A i j = A j i /\ (A i j = 0 \/ A i j = 1) /\ 1 <= distance (nth i sites (0, 0)) (nth j sites (0, 0)) /\
    (A i j = 1 <-> distance (nth i sites (0, 0)) (nth j sites (0, 0)) = 1) /\
    (A i j = 1 <-> (j = (i + 1) mod n \/ i = (j + 1) mod n)%nat).
Proof. exact polygon_ok. Qed.
Print Assumptions C124_polygon.

Theorem C124_small : forall n, (n < 2)%nat -> polygon n = Raise IndexError.
Proof. exact polygon_small. Qed.
Print Assumptions C124_small.

(** C125 fails for every geometry. *)
Theorem C125_refuted : forall xd yd adj c6 cutoff, interaction_mat_c6 (attributes xd yd adj) c6 cutoff = Raise AttributeError.
Proof. exact c6_raises. Qed.
Print Assumptions C125_refuted.

(** Nor would the distance of the cutoff count if the geometry had the names. *)
Theorem C125_cutoff_refuted : exists g x y c6 cutoff M, attribute g "site_distances_reduced_x"%string = Ok x /\ attribute g "site_distances_reduced_y"%string = Ok y /\
  interaction_mat_c6 g c6 cutoff = Ok M /\ cutoff < distance (0, 0) (x 0%nat 2%nat, y 0%nat 2%nat) /\ M 0%nat 2%nat <> 0.
Proof. exact c6_no_cutoff. Qed.
Print Assumptions C125_cutoff_refuted.

(** What would hold: the law of decay.  Missing: a geometry with these names. *)
Theorem C125_formula_partial : forall g x y c6 cutoff, attribute g "site_distances_reduced_x"%string = Ok x -> attribute g "site_distances_reduced_y"%string = Ok y ->
  exists M, interaction_mat_c6 g c6 cutoff = Ok M /\
    forall i j, let d := distance (0, 0) (x i j, y i j) in (d = 0 -> M i j = 0) /\ (d <> 0 -> M i j * d ^ 6 = c6).
Proof. exact c6_formula. Qed.
Print Assumptions C125_formula_partial.
