(** Property theorems C58..C61 and C90..C103: the lattice Fermi gas, and the
    overlaps of states.  Theorems only.

    [root_scalar] and [minimize] stand for the routines of scipy. *)
From Coq Require Import List Arith Reals ZArith Bool.
From Verif Require Import Scalars Res Sums Matrix ModelPhase ModelSymmetry SymBase SpecSymmetry ModelBase ModelThermal SpecThermal
  ModelFermiGas SpecFermiGas FermiBase FermiGrid FermiModes FermiGas FermiGreen FermiCorr RefuteFermi FermiDos FermiGfn.
Import ListNotations.
Local Open Scope R_scope.

(** C58. *)
Theorem C58_fermi_function : forall b mu e,
  0 < fermi (Beta b) mu e < 1 /\
  fermi (Beta b) mu e + fermi (Beta b) (- mu) (- e) = 1 /\
  fermi (Beta b) mu e = occupation b mu e /\
  (forall e', 0 < b -> e < e' -> fermi (Beta b) mu e' < fermi (Beta b) mu e) /\
  (forall mu', 0 < b -> mu < mu' -> fermi (Beta b) mu e < fermi (Beta b) mu' e).
Proof. exact fermi_function. Qed.
Print Assumptions C58_fermi_function.
Theorem C58_derivatives : forall b mu e eta, exists dmu de db,
  fermi_derivatives (Beta b) mu e eta = Ok (dmu, de, db) /\
  derivable_pt_lim (fun m => fermi (Beta b) m e) mu dmu /\
  derivable_pt_lim (fun x => fermi (Beta b) mu x) e de /\
  derivable_pt_lim (fun c => fermi (Beta c) mu e) b db.
Proof. exact derivatives_ok. Qed.
Print Assumptions C58_derivatives.

(** C59: false for odd sizes, where [fg_mu] returns 0 at half filling; what holds for even sizes. *)
Theorem C59_half_filling_refuted : exists s n b x, good_size s n /\ 0 < b /\
  fg_density (Beta b) 0 n (dim_of s) = Ok x /\ x <> 1 / 2 /\
  (forall root_scalar minimize, fg_mu root_scalar minimize (Beta b) (1 / 2) n (dim_of s) = Ok 0).
Proof. exact half_filling_odd. Qed.
Print Assumptions C59_half_filling_refuted.
Theorem C59_half_filling_partial : forall s n b, good_size s n -> Nat.even n = true -> exists N,
  (forall mu, fg_density (Beta b) mu n (dim_of s) = Ok (N mu)) /\ (forall mu, N mu + N (- mu) = 1) /\ N 0 = 1 / 2.
Proof. exact particle_hole. Qed.
Print Assumptions C59_half_filling_partial.

(** C60. *)
Theorem C60_balanced_grid : forall nx ny, (1 <= nx)%nat -> (1 <= ny)%nat -> exists points,
  allowed_kvects nx ny Balanced = Ok (points, 2 * PI / INR nx, 2 * PI / INR ny) /\ good_grid (- PI) nx ny points.
Proof. exact balanced_grid. Qed.
Print Assumptions C60_balanced_grid.
Theorem C60_positive_grid : forall nx ny, (1 <= nx)%nat -> (1 <= ny)%nat -> exists points,
  allowed_kvects nx ny Positive = Ok (points, 2 * PI / INR nx, 2 * PI / INR ny) /\ good_grid 0 nx ny points.
Proof. exact positive_grid. Qed.
Print Assumptions C60_positive_grid.

(** C61: false for chains at non-zero wave vector; what holds. *)
Theorem C61_chain_refuted : exists n b mu q omega eta chi chi', (1 <= n)%nat /\ 0 < b /\
  density_response (Beta b) mu q omega eta n Dim1 = Ok chi /\
  lindhard_sum Chain n b mu q omega eta chi' /\ (forall c, lindhard_sum Chain n b mu q omega eta c -> c = chi') /\ chi <> chi'.
Proof. exact chain_response_refuted. Qed.
Print Assumptions C61_chain_refuted.
Theorem C61_square_partial : forall n b mu q omega eta, (1 <= n)%nat -> exists chi,
  density_response (Beta b) mu q omega eta n Dim2 = Ok chi /\ lindhard_sum Square n b mu q omega eta chi.
Proof. exact response2. Qed.
Print Assumptions C61_square_partial.
Theorem C61_chain_partial : forall n b mu omega eta, (1 <= n)%nat -> exists chi,
  density_response (Beta b) mu (0, 0) omega eta n Dim1 = Ok chi /\ lindhard_sum Chain n b mu (0, 0) omega eta chi.
Proof. exact response1_q0. Qed.
Print Assumptions C61_chain_partial.

(** C90: false at the chemical potential, and for the derivatives; what holds. *)
Theorem C90_level_refuted : exists mu e L,
  tends_at_0 (fun T => fermi (Beta (1 / T)) mu e) L /\ fermi BetaInf mu e <> L.
Proof. exact zero_temperature_level. Qed.
Print Assumptions C90_level_refuted.
Theorem C90_derivative_refuted : exists mu e dmu de db,
  fermi_derivatives BetaInf mu e (1 / 10) = Ok (dmu, de, db) /\ 0 < de /\
  (forall x y, x < y -> fermi BetaInf mu y <= fermi BetaInf mu x).
Proof. exact zero_temperature_derivative. Qed.
Print Assumptions C90_derivative_refuted.
Theorem C90_limit_partial : forall mu e, e <> mu ->
  tends_at_0 (fun T => fermi (Beta (1 / T)) mu e) (fermi BetaInf mu e).
Proof. exact fermi_zero_temperature. Qed.
Print Assumptions C90_limit_partial.

(** C91. *)
Theorem C91_density : forall s n b, good_size s n -> exists N,
  (forall mu, fg_density (Beta b) mu n (dim_of s) = Ok (N mu)) /\
  (forall mu, N mu = mean (fun p => occupation b mu (level_of s n p)) (modes s n)) /\
  (forall mu, 0 < N mu < 1) /\
  (0 < b -> forall mu mu', mu < mu' -> N mu < N mu') /\
  (0 <= b -> forall mu, exists c, fg_compressibility (Beta b) mu n (dim_of s) = Ok c /\ derivable_pt_lim N mu c /\ (0 < b -> 0 < c)).
Proof. exact density_ok. Qed.
Print Assumptions C91_density.

(** C92: false. *)
Theorem C92_single_site_refuted : forall s beta mu, fg_density beta mu 1 (dim_of s) = Raise ValueError.
Proof. exact single_site. Qed.
Print Assumptions C92_single_site_refuted.

(** C93. *)
Theorem C93_chemical_potential : forall root_scalar minimize s n b density mu,
  (forall f x, root_scalar f = Ok x -> f x = Ok 0) ->
  good_size s n -> 0 < b -> (density <> 1 / 2 \/ Nat.even n = true) ->
  fg_mu root_scalar minimize (Beta b) density n (dim_of s) = Ok mu ->
  fg_density (Beta b) mu n (dim_of s) = Ok density /\
  (forall mu', fg_density (Beta b) mu' n (dim_of s) = Ok density -> mu' = mu).
Proof. exact mu_ok. Qed.
Print Assumptions C93_chemical_potential.

(** C94: false where the times coincide; what holds. *)
Theorem C94_coinciding_times_refuted : exists s n beta mu G, good_size s n /\
  (forall ty, ty <> OtherType -> realspace_gfn beta mu (0, 0)%Z 0 n (dim_of s) ty = Ok (G ty)) /\
  c_sub (G Retarded) (G Advanced) <> c_sub (G Greater) (G Lesser) /\
  G TimeOrdered <> G Greater /\ G TimeOrdered <> G Lesser.
Proof. exact coinciding_times_refuted. Qed.
Print Assumptions C94_coinciding_times_refuted.
Theorem C94_relations_partial : forall s n beta mu, good_size s n -> exists G,
  (forall r t ty, ty <> OtherType -> realspace_gfn beta mu r t n (dim_of s) ty = Ok (G r t ty)) /\
  (forall r t, G r t Greater = c_mean (fun p => plane s n r p *c (kopp im *c (wave (- ((level_of s n p - mu) * t)) *c re (1 - fermi beta mu (level_of s n p))))) (modes s n)) /\
  (forall r t, G r t Lesser = c_mean (fun p => plane s n r p *c (im *c (wave (- ((level_of s n p - mu) * t)) *c re (fermi beta mu (level_of s n p))))) (modes s n)) /\
  (forall r, c_sub (G r 0 Greater) (G r 0 Lesser) = if same_site s n r then kopp im else c0) /\
  (forall r t, 0 < t ->
     G r t Retarded = c_sub (G r t Greater) (G r t Lesser) /\ G r t Advanced = c0 /\ G r t TimeOrdered = G r t Greater) /\
  (forall r t, t < 0 ->
     G r t Retarded = c0 /\ G r t Advanced = c_sub (G r t Lesser) (G r t Greater) /\ G r t TimeOrdered = G r t Lesser).
Proof. exact gfn_relations. Qed.
Print Assumptions C94_relations_partial.

(** C95. *)
Theorem C95_motion : forall s n beta mu ty, good_size s n -> ty = Greater \/ ty = Lesser -> exists G,
  (forall r t, realspace_gfn beta mu r t n (dim_of s) ty = Ok (G r t)) /\
  (forall r t, c_deriv (fun y => G r y) t (im *c (klsum (neighbours s r) (fun r' => G r' t) +c re mu *c G r t))) /\
  (forall r t, G (- fst r, - snd r)%Z (- t) = kopp (conj (G r t))).
Proof. exact gfn_motion. Qed.
Print Assumptions C95_motion.
Theorem C95_detailed_balance : forall b mu e t, exists g l,
  kspace_gfn (Beta b) mu e t Greater = Ok g /\ kspace_gfn (Beta b) mu e t Lesser = Ok l /\
  l = re (- exp (- b * (e - mu))) *c g.
Proof. exact gfn_balance. Qed.
Print Assumptions C95_detailed_balance.

(** C96: false for the time-ordered function; what holds. *)
Theorem C96_time_ordered_refuted : exists s n b mu G d, good_size s n /\ 0 < b /\
  (forall m, realspace_gfn (Beta b) m (0, 0)%Z 0 n (dim_of s) TimeOrdered = Ok (G m)) /\
  realspace_dgdmu (Beta b) mu (0, 0)%Z 0 n (dim_of s) TimeOrdered = Ok d /\ ~ c_deriv G mu d.
Proof. exact time_ordered_derivative_refuted. Qed.
Print Assumptions C96_time_ordered_refuted.
Theorem C96_derivative_partial : forall s n b r t ty, good_size s n -> ty = Greater \/ ty = Lesser \/ ty = Retarded \/ ty = Advanced -> exists G,
  (forall mu, realspace_gfn (Beta b) mu r t n (dim_of s) ty = Ok (G mu)) /\
  (forall mu, exists d, realspace_dgdmu (Beta b) mu r t n (dim_of s) ty = Ok d /\ c_deriv G mu d).
Proof. exact gfn_derivative. Qed.
Print Assumptions C96_derivative_partial.

(** C97. *)
Theorem C97_fluctuations : forall s n beta mu, good_size s n -> exists C,
  (forall r, fg_corr beta mu r n (dim_of s) = Ok (C r)) /\
  total C (sites s n) = mean (fun p => fermi beta mu (level_of s n p) * (1 - fermi beta mu (level_of s n p))) (modes s n) /\
  (forall b, beta = Beta b -> 0 <= b -> fg_compressibility beta mu n (dim_of s) = Ok (b * total C (sites s n))).
Proof. exact fluctuation. Qed.
Print Assumptions C97_fluctuations.

(** C98: false; what holds. *)
Theorem C98_chain_index_refuted : exists n beta mu r r', good_size Chain n /\ fst r = fst r' /\
  fg_corr beta mu r n Dim1 <> fg_corr beta mu r' n Dim1.
Proof. exact chain_default_index_refuted. Qed.
Print Assumptions C98_chain_index_refuted.
Theorem C98_winding_refuted : exists n beta mu r r', good_size Square n /\ same_place Square n r r' = true /\
  fg_corr beta mu r n Dim2 <> fg_corr beta mu r' n Dim2.
Proof. exact winding_index_refuted. Qed.
Print Assumptions C98_winding_refuted.
Theorem C98_displacements_partial : forall s n beta mu r r', good_size s n -> same_place s n r r' = true ->
  (forall t ty, realspace_gfn beta mu r t n (dim_of s) ty = realspace_gfn beta mu r' t n (dim_of s) ty) /\
  ((r = (0, 0)%Z <-> r' = (0, 0)%Z) -> fg_corr beta mu r n (dim_of s) = fg_corr beta mu r' n (dim_of s)).
Proof. exact equivalent_displacements. Qed.
Print Assumptions C98_displacements_partial.

(** C99. *)
Theorem C99_static_response : forall n b mu q, (1 <= n)%nat -> 0 < b -> exists x,
  density_response (Beta b) mu q 0 0 n Dim2 = Ok (re x) /\ x < 0.
Proof. exact static_response. Qed.
Print Assumptions C99_static_response.
Theorem C99_compressibility : forall s n b mu, good_size s n -> 0 <= b -> exists k,
  fg_compressibility (Beta b) mu n (dim_of s) = Ok k /\
  density_response (Beta b) mu (0, 0) 0 0 n (dim_of s) = Ok (re (- k)).
Proof. exact compressibility_sum_rule. Qed.
Print Assumptions C99_compressibility.

(** C100. *)
Theorem C100_two_species : forall s n beta mu_up mu_dn r, good_size s n -> exists n_up n_dn c_up c_dn,
  fg_density beta mu_up n (dim_of s) = Ok n_up /\ fg_density beta mu_dn n (dim_of s) = Ok n_dn /\
  fg_corr beta mu_up r n (dim_of s) = Ok c_up /\ fg_corr beta mu_dn r n (dim_of s) = Ok c_dn /\
  forall p q, pair_stats p n_up c_up -> pair_stats q n_dn c_dn ->
    fg_singles beta mu_up mu_dn n (dim_of s) = Ok (average2 p q (fun u _ d _ => u + d - 2 * u * d)) /\
    fg_doubles beta mu_up mu_dn n (dim_of s) = Ok (average2 p q (fun u _ d _ => u * d)) /\
    fg_singles_corr beta mu_up mu_dn r n (dim_of s) = Ok (connected p q (fun u d => u + d - 2 * u * d)) /\
    fg_doubles_corr beta mu_up mu_dn r n (dim_of s) = Ok (connected p q (fun u d => u * d)) /\
    fg_sz_corr beta mu_up mu_dn r n (dim_of s) = Ok (connected p q (fun u d => u - d)).
Proof. exact two_species. Qed.
Print Assumptions C100_two_species.
Theorem C100_isotropy : forall s n beta mu r, good_size s n ->
  fg_sx_corr beta mu mu r n (dim_of s) = fg_sz_corr beta mu mu r n (dim_of s).
Proof. exact spin_isotropy. Qed.
Print Assumptions C100_isotropy.

(** C101. *)
Theorem C101_weight : forall es a edges, es <> [] -> edges <> [] -> increasing (a :: edges) -> exists dos,
  get_dos es (a :: edges) = Ok dos /\ (forall x, In x dos -> 0 <= x) /\
  total (fun p => fst p * snd p) (combine dos (widths (a :: edges))) =
  INR (length (filter (fun x => rle_b a x && rle_b x (last edges a)) es)) / INR (length es).
Proof. exact dos_ok. Qed.
Print Assumptions C101_weight.
Theorem C101_normalised : forall es a edges, es <> [] -> edges <> [] -> increasing (a :: edges) ->
  (forall x, In x es -> a <= x <= last edges a) -> exists dos,
  get_dos es (a :: edges) = Ok dos /\ (forall x, In x dos -> 0 <= x) /\
  total (fun p => fst p * snd p) (combine dos (widths (a :: edges))) = 1.
Proof. exact dos_normalised. Qed.
Print Assumptions C101_normalised.

(** C102: false. *)
Theorem C102_refuted : forall n dim, is_ok (get_dos2 n dim) = false.
Proof. exact dos2_raises. Qed.
Print Assumptions C102_refuted.

(** C103. *)
Theorem C103_overlaps : forall A B, nrow A = nrow B -> exists M,
  overlaps (Columns A) (Columns B) = Ok M /\ nrow M = ncol A /\ ncol M = ncol B /\
  (forall i j, (i < ncol A)%nat -> (j < ncol B)%nat -> ent M i j = inner (nrow A) (col A i) (col B j)) /\
  (complete_basis A -> forall j, (j < ncol B)%nat ->
     total (fun i => modulus (ent M i j) * modulus (ent M i j)) (seq 0 (ncol A)) = norm2 (nrow B) (col B j)).
Proof. exact overlaps_ok. Qed.
Print Assumptions C103_overlaps.
