{
 "claims": [
  {
   "property": "C01",
   "status": "proved",
   "theorems": [
    "C01_logical_index_bijection"
   ],
   "note": ""
  },
  {
   "property": "C02",
   "status": "proved",
   "theorems": [
    "C02_two_site_is_product"
   ],
   "note": "For two local states, every scalar ring with conjugation, both formats."
  },
  {
   "property": "C03",
   "status": "proved",
   "theorems": [
    "C03_anticommutation"
   ],
   "note": ""
  },
  {
   "property": "C04",
   "status": "proved",
   "theorems": [
    "C04_boson_format"
   ],
   "note": ""
  },
  {
   "property": "C05",
   "status": "proved",
   "theorems": [
    "C05_basis_state_is_ordered_product",
    "C05_state_labels"
   ],
   "note": ""
  },
  {
   "property": "C06",
   "status": "proved",
   "theorems": [
    "C06_matrix_elements"
   ],
   "note": ""
  },
  {
   "property": "C07",
   "status": "partial",
   "theorems": [
    "C07_dimension_refuted",
    "C07_dimension_partial"
   ],
   "note": "False as stated: with local dimension 3 the operator has the wrong dimension (the trailing identity uses base 2). Proved for two local states and for the last logical site, with the exact dimension otherwise."
  },
  {
   "property": "C08",
   "status": "proved",
   "theorems": [
    "C08_number_operator"
   ],
   "note": ""
  },
  {
   "property": "C09",
   "status": "proved",
   "theorems": [
    "C09_subspace_projectors",
    "C09_wrong_storage_rejected"
   ],
   "note": ""
  },
  {
   "property": "C10",
   "status": "proved",
   "theorems": [
    "C10_fixed_number_basis"
   ],
   "note": ""
  },
  {
   "property": "C11",
   "status": "proved",
   "theorems": [
    "C11_real_hamiltonian_hermitian"
   ],
   "note": "The interaction term addresses species 0 and 1, so it must be zero when there is one species."
  },
  {
   "property": "C12",
   "status": "partial",
   "theorems": [
    "C12_complex_hopping_refuted"
   ],
   "note": "False: createH adds c+_i c_j and its adjoint with the same coefficient, so a Hermitian complex hopping gives a non-Hermitian matrix."
  },
  {
   "property": "C13",
   "status": "proved",
   "theorems": [
    "C13_number_conservation"
   ],
   "note": ""
  },
  {
   "property": "C14",
   "status": "partial",
   "theorems": [
    "C14_documented_model_refuted",
    "C14_effective_model",
    "C14_documented_model_partial"
   ],
   "note": "False for bonds not along an axis or not of unit length: the hopping is multiplied by |dx|+|dy|. Proved when |dx|+|dy|=1 on every bond, and the effective model in general."
  },
  {
   "property": "C15",
   "status": "partial",
   "theorems": [
    "C15_twist_refuted",
    "C15_twist_partial"
   ],
   "note": "False: the hopping array is real, imaginary parts of the phases are dropped. Proved when t*phase is real."
  },
  {
   "property": "C16",
   "status": "partial",
   "theorems": [
    "C16_per_species_potential_refuted",
    "C16_per_species_potential_partial"
   ],
   "note": "False: the per-species branch assigns rows; exact behaviour proved."
  },
  {
   "property": "C17",
   "status": "partial",
   "theorems": [
    "C17_shape_dispatch_partial",
    "C17_accepts"
   ],
   "note": "Everything except per-species potentials (see C16)."
  },
  {
   "property": "C18",
   "status": "proved",
   "theorems": [
    "C18_fermion_swap"
   ],
   "note": ""
  },
  {
   "property": "C19",
   "status": "proved",
   "theorems": [
    "C19_site_permutation"
   ],
   "note": ""
  },
  {
   "property": "C20",
   "status": "proved",
   "theorems": [
    "C20_composition",
    "C20_order"
   ],
   "note": ""
  },
  {
   "property": "C21",
   "status": "partial",
   "theorems": [
    "C21_identity_refuted"
   ],
   "note": "False: the python integer 1 is returned when no cycle has two elements."
  },
  {
   "property": "C22",
   "status": "proved",
   "theorems": [
    "C22_symmetry_commutes"
   ],
   "note": ""
  },
  {
   "property": "C23",
   "status": "proved",
   "theorems": [
    "C23_spin_swap"
   ],
   "note": ""
  },
  {
   "property": "C24",
   "status": "partial",
   "theorems": [
    "C24_self_swap_refuted"
   ],
   "note": "False for every site: the operator is twice the identity."
  },
  {
   "property": "C25",
   "status": "partial",
   "theorems": [
    "C25_spin_algebra_refuted",
    "C25_spin_commutators_partial",
    "C25_spin_length_partial"
   ],
   "note": "The sign of the commutators is wrong for every non-zero spin (S^y has the wrong sign); the rest is proved."
  },
  {
   "property": "C26",
   "status": "partial",
   "theorems": [
    "C26_documented_spin_model_refuted",
    "C26_effective_spin_model",
    "C26_documented_spin_model_partial"
   ],
   "note": "The field along y enters with the wrong sign; the model is otherwise the documented one."
  },
  {
   "property": "C27",
   "status": "partial",
   "theorems": [
    "C27_complex_coupling_refuted",
    "C27_real_spin_hamiltonian_partial"
   ],
   "note": "False for complex boundary phases; proved for real couplings and every spin."
  },
  {
   "property": "C28",
   "status": "proved",
   "theorems": [
    "C28_magnetisation",
    "C28_spin_flip"
   ],
   "note": ""
  },
  {
   "property": "C29",
   "status": "proved",
   "theorems": [
    "C29_flip_involution",
    "C29_flip_reverses_every_spin",
    "C29_flip_is_product",
    "C29_spin_labels"
   ],
   "note": ""
  },
  {
   "property": "C30",
   "status": "partial",
   "theorems": [
    "C30_second_neel_state_refuted",
    "C30_first_neel_state_partial"
   ],
   "note": "The index of the second state is off by one for every number of sites."
  },
  {
   "property": "C66",
   "status": "partial",
   "theorems": [
    "C66_any_spin",
    "C66_higher_spin_field_refuted"
   ],
   "note": "False with a field on a site other than the last one; proved otherwise."
  },
  {
   "property": "C67",
   "status": "proved",
   "theorems": [
    "C67_rydberg_form"
   ],
   "note": ""
  },
  {
   "property": "C68",
   "status": "proved",
   "theorems": [
    "C68_spin_site_permutation",
    "C68_spin_composition"
   ],
   "note": ""
  },
  {
   "property": "C69",
   "status": "proved",
   "theorems": [
    "C69_spin_symmetry_commutes"
   ],
   "note": ""
  },
  {
   "property": "C70",
   "status": "partial",
   "theorems": [
    "C70_spin_couplings_partial",
    "C70_coupling_list_refuted"
   ],
   "note": "The list of nsites couplings always raises; the other forms are proved."
  },
  {
   "property": "C71",
   "status": "proved",
   "theorems": [
    "C71_excitation_pairs"
   ],
   "note": ""
  },
  {
   "property": "C72",
   "status": "proved",
   "theorems": [
    "C72_single_excitation_rows",
    "C72_ferromagnetic_states"
   ],
   "note": ""
  },
  {
   "property": "C31",
   "status": "proved",
   "theorems": [
    "C31_reduction",
    "C31_canonical",
    "C31_idempotent"
   ],
   "note": "Exact rational coordinates; the code's rounding to 14 decimals is modelled, so the half-open cell is exact for coordinates with at most 14 decimals and within half a unit of the 14th decimal otherwise."
  },
  {
   "property": "C32",
   "status": "proved",
   "theorems": [
    "C32_unique_sites"
   ],
   "note": "For lattice and basis vectors with at most 14 decimals (the code rounds sites to 14 decimals)."
  },
  {
   "property": "C33",
   "status": "partial",
   "theorems": [
    "C33_incommensurate_accepted_refuted",
    "C33_rejection_partial",
    "C33_commensurate_accepted"
   ],
   "note": "False: the test is written 'not A and B', so only a remainder along x alone is rejected."
  },
  {
   "property": "C34",
   "status": "partial",
   "theorems": [
    "C34_second_count_refuted",
    "C34_distances_partial",
    "C34_counts_partial"
   ],
   "note": "False for the matrix counting the second lattice vector ('- -' makes it symmetric); the other three are proved."
  },
  {
   "property": "C35",
   "status": "proved",
   "theorems": [
    "C35_square_neighbours",
    "C35_square_accepted"
   ],
   "note": "Up to 5*10^13 sites per axis, beyond which rounding to 14 decimals merges sites."
  },
  {
   "property": "C36",
   "status": "partial",
   "theorems": [
    "C36_phase_matrix",
    "C36_loops",
    "C36_ring_partial",
    "C36_two_site_ring_refuted"
   ],
   "note": "False for rings of two sites, where both bonds get opposite phases. Proved for all larger rings, and for every closed loop of every lattice geometry with its winding numbers."
  },
  {
   "property": "C37",
   "status": "proved",
   "theorems": [
    "C37_relabelling",
    "C37_not_a_permutation",
    "C37_composition",
    "C37_inverse"
   ],
   "note": ""
  },
  {
   "property": "C38",
   "status": "partial",
   "theorems": [
    "C38_adjacency_mode_refuted",
    "C38_sorted_partial",
    "C38_order_and_translation_partial",
    "C38_sorted_geometry_partial"
   ],
   "note": "False for mode 'adjacency' (ties keep the input order). Proved for the three geometric modes; top_alternating needs rows at integer distances."
  },
  {
   "property": "C39",
   "status": "partial",
   "theorems": [
    "C39_near_sites_refuted",
    "C39_integer_sites_partial",
    "C39_integer_geometry_partial"
   ],
   "note": "False for non-integer distances, which are rounded to integers; proved for integer coordinates."
  },
  {
   "property": "C40",
   "status": "partial",
   "theorems": [
    "C40_comparison_raises_refuted",
    "C40_phases_ignored_refuted",
    "C40_reflexive",
    "C40_symmetric",
    "C40_answer_partial",
    "C40_unequal_partial",
    "C40_lattice_unequal"
   ],
   "note": "False: comparing with a geometry without lattice raises, and phase matrices are ignored. The rest is proved."
  },
  {
   "property": "C41",
   "status": "proved",
   "theorems": [
    "C41_dual_vectors",
    "C41_degenerate"
   ],
   "note": ""
  },
  {
   "property": "C42",
   "status": "proved",
   "theorems": [
    "C42_rotation",
    "C42_reflection",
    "C42_inversion",
    "C42_half_turn",
    "C42_translation",
    "C42_degenerate"
   ],
   "note": "Over the real numbers, without floating point rounding."
  },
  {
   "property": "C43",
   "status": "proved",
   "theorems": [
    "C43_cycles",
    "C43_not_a_symmetry"
   ],
   "note": "For at least two sites; one site is C44."
  },
  {
   "property": "C44",
   "status": "partial",
   "theorems": [
    "C44_order_above_number_of_sites_refuted",
    "C44_longest_cycle_refuted",
    "C44_single_site_refuted",
    "C44_accepted_partial"
   ],
   "note": "False: symmetries of order above the number of sites are refused, the number returned is the order of the permutation instead of the longest cycle, and 0 for one site."
  },
  {
   "property": "C45",
   "status": "proved",
   "theorems": [
    "C45_cyclic_sectors"
   ],
   "note": ""
  },
  {
   "property": "C46",
   "status": "partial",
   "theorems": [
    "C46_D2_partial",
    "C46_D3_partial",
    "C46_D4_partial",
    "C46_D5_partial",
    "C46_D6_partial",
    "C46_D7_refuted",
    "C46_torus_clockwise_partial",
    "C46_torus_counterclockwise_partial",
    "C46_torus_sectors_refuted"
   ],
   "note": "D7 is refuted on the ring of seven sites (columns of the table swapped). The 3x3 table is right for a clockwise quarter turn and wrong for the counterclockwise one the library builds. The others are proved for every representation by signed permutations, given a correct singular value decomposition."
  },
  {
   "property": "C47",
   "status": "partial",
   "theorems": [
    "C47_rounding_refuted",
    "C47_accepts_partial",
    "C47_integer_tables_partial",
    "C47_within_half_partial",
    "C47_shape_partial",
    "C47_shape_refuted"
   ],
   "note": "False because sums are rounded to integers: wrong tables are accepted; a single row of several columns is accepted as well. Exact for tables of integers."
  },
  {
   "property": "C48",
   "status": "proved",
   "theorems": [
    "C48_sector_basis"
   ],
   "note": ""
  },
  {
   "property": "C73",
   "status": "proved",
   "theorems": [
    "C73_translation_sectors"
   ],
   "note": ""
  },
  {
   "property": "C49",
   "status": "proved",
   "theorems": [
    "C49_clusters"
   ],
   "note": "Integer lattice vectors; with point symmetry for the default square lattice vectors, without it for any. The rotations are taken to be exact on integer coordinates."
  },
  {
   "property": "C50",
   "status": "proved",
   "theorems": [
    "C50_subclusters"
   ],
   "note": ""
  },
  {
   "property": "C51",
   "status": "proved",
   "theorems": [
    "C51_weights",
    "C51_orders",
    "C51_parent",
    "C51_clusters"
   ],
   "note": "Over the real numbers, one position of the trailing axes at a time; the axes themselves are C77."
  },
  {
   "property": "C52",
   "status": "proved",
   "theorems": [
    "C52_limit",
    "C52_weights"
   ],
   "note": ""
  },
  {
   "property": "C53",
   "status": "partial",
   "theorems": [
    "C53_refuted"
   ],
   "note": "False: get_reduced_subclusters always reduces by symmetry, so an L-tromino is said to contain two vertical dominoes and no horizontal one. With use_symmetry=True the table is right (C75)."
  },
  {
   "property": "C74",
   "status": "proved",
   "theorems": [
    "C74_reduced"
   ],
   "note": ""
  },
  {
   "property": "C75",
   "status": "proved",
   "theorems": [
    "C75_table"
   ],
   "note": ""
  },
  {
   "property": "C76",
   "status": "proved",
   "theorems": [
    "C76_reduction"
   ],
   "note": ""
  },
  {
   "property": "C77",
   "status": "partial",
   "theorems": [
    "C77_refuted",
    "C77_shapes_partial"
   ],
   "note": "False: np.squeeze also drops later axes of length one, e.g. trailing shape (2, 1) raises. Exactly the shapes whose axes of length one come first are accepted."
  },
  {
   "property": "C54",
   "status": "proved",
   "theorems": [
    "C54_boltzmann",
    "C54_zero_temperature",
    "C54_offset",
    "C54_bounds",
    "C54_continuous_at_zero"
   ],
   "note": "Energies equal or further apart than 0.5e-13 at zero temperature, where the code rounds to 13 decimals."
  },
  {
   "property": "C55",
   "status": "proved",
   "theorems": [
    "C55_finite_temperature",
    "C55_zero_temperature"
   ],
   "note": "One temperature and one number per sector; the other axes are treated alike by numpy. C89 derives the condition on the levels from the symmetry."
  },
  {
   "property": "C56",
   "status": "proved",
   "theorems": [
    "C56_evolution"
   ],
   "note": "Also the Schroedinger equation and conservation of energy; eigenvectors are a complete basis, the dropping of axes of length one is C86."
  },
  {
   "property": "C57",
   "status": "proved",
   "theorems": [
    "C57_dense"
   ],
   "note": ""
  },
  {
   "property": "C78",
   "status": "proved",
   "theorems": [
    "C78_basis_independence"
   ],
   "note": ""
  },
  {
   "property": "C79",
   "status": "partial",
   "theorems": [
    "C79_sparse_refuted",
    "C79_sparse_partial"
   ],
   "note": "False: 'LM' of H + 100 selects the highest levels of H. What is returned are sorted orthonormal eigenpairs of H."
  },
  {
   "property": "C80",
   "status": "partial",
   "theorems": [
    "C80_norms_refuted",
    "C80_one_vector_refuted",
    "C80_squares_partial"
   ],
   "note": "False: squares of the norms are returned, and np.expand_dim does not exist."
  },
  {
   "property": "C81",
   "status": "proved",
   "theorems": [
    "C81_subspace_weights"
   ],
   "note": ""
  },
  {
   "property": "C82",
   "status": "partial",
   "theorems": [
    "C82_finite_temperature_refuted",
    "C82_zero_temperature_partial"
   ],
   "note": "False at finite temperature: exp(-beta E_m) is attached to the wrong index relative to the factor 1 - exp(beta(E_n - E_m)). The zero temperature branch is the limit of the Lehmann sum."
  },
  {
   "property": "C83",
   "status": "partial",
   "theorems": [
    "C83_negative_frequency_refuted",
    "C83_finite_temperature_partial",
    "C83_limit_partial"
   ],
   "note": "False at negative frequencies, where the zero-temperature branch takes the absolute value of the frequency only."
  },
  {
   "property": "C84",
   "status": "partial",
   "theorems": [
    "C84_degenerate_refuted",
    "C84_finite_temperature_partial",
    "C84_not_negative_partial",
    "C84_limit_partial"
   ],
   "note": "The limit is false for a degenerate ground state, where the zero-temperature branch uses one ground state only."
  },
  {
   "property": "C85",
   "status": "proved",
   "theorems": [
    "C85_even",
    "C85_not_negative"
   ],
   "note": ""
  },
  {
   "property": "C86",
   "status": "partial",
   "theorems": [
    "C86_dimension_one_refuted",
    "C86_shape_partial"
   ],
   "note": "False for a space of dimension one, where the transposed shape is returned."
  },
  {
   "property": "C87",
   "status": "proved",
   "theorems": [
    "C87_sites",
    "C87_pairs",
    "C87_given_pairs"
   ],
   "note": ""
  },
  {
   "property": "C88",
   "status": "partial",
   "theorems": [
    "C88_no_offset_refuted",
    "C88_no_state_refuted",
    "C88_offset_partial",
    "C88_no_offset_partial"
   ],
   "note": "False at zero temperature without the offset: levels at energy zero are counted instead of ground states."
  },
  {
   "property": "C89",
   "status": "proved",
   "theorems": [
    "C89_sectors"
   ],
   "note": "Sectors without states are refused by numpy (minimum of an empty array) and excluded."
  },
  {
   "property": "C58",
   "status": "proved",
   "theorems": [
    "C58_fermi_function",
    "C58_derivatives"
   ],
   "note": ""
  },
  {
   "property": "C59",
   "status": "partial",
   "theorems": [
    "C59_half_filling_refuted",
    "C59_half_filling_partial"
   ],
   "note": "False for odd numbers of sites: the spectrum is not symmetric, yet fg_mu returns 0 for density 1/2. Proved for even sizes."
  },
  {
   "property": "C60",
   "status": "proved",
   "theorems": [
    "C60_balanced_grid",
    "C60_positive_grid"
   ],
   "note": ""
  },
  {
   "property": "C61",
   "status": "partial",
   "theorems": [
    "C61_chain_refuted",
    "C61_square_partial",
    "C61_chain_partial"
   ],
   "note": "False: the dispersion ignores its argument in one dimension. At zero wave vector and on the square lattice the Lindhard sum is right."
  },
  {
   "property": "C90",
   "status": "partial",
   "theorems": [
    "C90_level_refuted",
    "C90_derivative_refuted",
    "C90_limit_partial"
   ],
   "note": "False for a level at the chemical potential (1 instead of 1/2), and the broadened derivative with respect to energy is positive."
  },
  {
   "property": "C91",
   "status": "proved",
   "theorems": [
    "C91_density"
   ],
   "note": "Up to 10^12 modes, where the level spacings are above the rounding to 12 decimals."
  },
  {
   "property": "C92",
   "status": "partial",
   "theorems": [
    "C92_single_site_refuted"
   ],
   "note": "False: one site has no level spacing, and np.min of an empty array raises."
  },
  {
   "property": "C93",
   "status": "proved",
   "theorems": [
    "C93_chemical_potential"
   ],
   "note": "Half filling on odd lattices is C59."
  },
  {
   "property": "C94",
   "status": "partial",
   "theorems": [
    "C94_coinciding_times_refuted",
    "C94_relations_partial"
   ],
   "note": "False at time zero, where both step functions are one: retarded minus advanced is twice the anticommutator and the time-ordered function is neither limit. Proved at all other times."
  },
  {
   "property": "C95",
   "status": "proved",
   "theorems": [
    "C95_motion",
    "C95_detailed_balance"
   ],
   "note": ""
  },
  {
   "property": "C96",
   "status": "partial",
   "theorems": [
    "C96_time_ordered_refuted",
    "C96_derivative_partial"
   ],
   "note": "False for the time-ordered function, whose derivative is returned as 0."
  },
  {
   "property": "C97",
   "status": "proved",
   "theorems": [
    "C97_fluctuations"
   ],
   "note": ""
  },
  {
   "property": "C98",
   "status": "partial",
   "theorems": [
    "C98_chain_index_refuted",
    "C98_winding_refuted",
    "C98_displacements_partial"
   ],
   "note": "False for fg_corr: the on-site term is only added at corr_index (0, 0), not at (0, 1) in one dimension (the second component is otherwise ignored) or after a winding."
  },
  {
   "property": "C99",
   "status": "proved",
   "theorems": [
    "C99_static_response",
    "C99_compressibility"
   ],
   "note": ""
  },
  {
   "property": "C100",
   "status": "proved",
   "theorems": [
    "C100_two_species",
    "C100_isotropy"
   ],
   "note": ""
  },
  {
   "property": "C101",
   "status": "proved",
   "theorems": [
    "C101_weight",
    "C101_normalised"
   ],
   "note": ""
  },
  {
   "property": "C102",
   "status": "partial",
   "theorems": [
    "C102_refuted"
   ],
   "note": "False: the number of bins is a float, which np.linspace refuses, so every call raises."
  },
  {
   "property": "C103",
   "status": "proved",
   "theorems": [
    "C103_overlaps"
   ],
   "note": "Before np.squeeze drops axes of length one."
  },
  {
   "property": "C62",
   "status": "proved",
   "theorems": [
    "C62_frequency_kernel",
    "C62_time_kernel",
    "C62_frequency_integral",
    "C62_time_integral"
   ],
   "note": "The imaginary-frequency kernel does not look at its format argument."
  },
  {
   "property": "C63",
   "status": "partial",
   "theorems": [
    "C63_fermion_frequencies",
    "C63_boson_frequencies",
    "C63_end_refuted",
    "C63_antiperiodic_partial"
   ],
   "note": "The frequencies are proved. Antiperiodicity holds for 0 < tau < beta and fails at tau = beta for every level, because the step function is 0 at 0."
  },
  {
   "property": "C104",
   "status": "proved",
   "theorems": [
    "C104_ends"
   ],
   "note": ""
  },
  {
   "property": "C105",
   "status": "proved",
   "theorems": [
    "C105_spectral",
    "C105_level"
   ],
   "note": ""
  },
  {
   "property": "C106",
   "status": "partial",
   "theorems": [
    "C106_round_trip_refuted",
    "C106_round_trip_partial"
   ],
   "note": "False when beta rounded to 14 digits exceeds beta, e.g. 2/3: the time tau = beta is dropped. Proved otherwise. Exact arithmetic."
  },
  {
   "property": "C107",
   "status": "proved",
   "theorems": [
    "C107_periodic",
    "C107_real",
    "C107_mirror"
   ],
   "note": ""
  },
  {
   "property": "C108",
   "status": "proved",
   "theorems": [
    "C108_spectral_weight"
   ],
   "note": ""
  },
  {
   "property": "C109",
   "status": "proved",
   "theorems": [
    "C109_hydrodynamics"
   ],
   "note": ""
  },
  {
   "property": "C110",
   "status": "proved",
   "theorems": [
    "C110_response",
    "C110_real",
    "C110_field"
   ],
   "note": ""
  },
  {
   "property": "C64",
   "status": "proved",
   "theorems": [
    "C64_round_trip",
    "C64_default_name",
    "C64_rejected"
   ],
   "note": "pickle is a function argument telling which values can be written; loading gives back equal values."
  },
  {
   "property": "C65",
   "status": "partial",
   "theorems": [
    "C65_rerun_refuted",
    "C65_no_subs_partial"
   ],
   "note": "False for generate_clusters: a second run reads key 0 of a dictionary with named keys and raises KeyError. True for generate_clusters_no_subs."
  },
  {
   "property": "C111",
   "status": "proved",
   "theorems": [
    "C111_pipeline"
   ],
   "note": ""
  },
  {
   "property": "C112",
   "status": "partial",
   "theorems": [
    "C112_single_refuted",
    "C112_several_refuted"
   ],
   "note": "False for both kinds of files: keys and indices do not fit."
  },
  {
   "property": "C113",
   "status": "partial",
   "theorems": [
    "C113_hidden_refuted",
    "C113_names_partial"
   ],
   "note": "False for names like .pkl which consist of the extension. The accepted names are characterised."
  },
  {
   "property": "C114",
   "status": "partial",
   "theorems": [
    "C114_shared_refuted",
    "C114_independent_partial"
   ],
   "note": "False for the object load returns, which shares its attributes with the model. Proved for all models the caller made."
  },
  {
   "property": "C115",
   "status": "partial",
   "theorems": [
    "C115_destroyed_refuted",
    "C115_load_partial"
   ],
   "note": "False for save: the file is opened for writing before pickling can fail. Proved for load and (C64) for rejected names."
  },
  {
   "property": "C116",
   "status": "proved",
   "theorems": [
    "C116_mat_files"
   ],
   "note": ""
  },
  {
   "property": "C117",
   "status": "proved",
   "theorems": [
    "C117_density",
    "C117_bond",
    "C117_density_pair",
    "C117_two_species"
   ],
   "note": "The library returns the real part of averages."
  },
  {
   "property": "C118",
   "status": "proved",
   "theorems": [
    "C118_energy",
    "C118_partition",
    "C118_spectrum"
   ],
   "note": ""
  },
  {
   "property": "C119",
   "status": "partial",
   "theorems": [
    "C119_two_sites_refuted",
    "C119_density_partial",
    "C119_correlation_partial",
    "C119_green_partial",
    "C119_doubles_partial"
   ],
   "note": "False for two sites along a side: the Hamiltonian has one bond between them, the formulas two. Proved from three sites on."
  },
  {
   "property": "C120",
   "status": "proved",
   "theorems": [
    "C120_eigenbasis",
    "C120_hubbard"
   ],
   "note": "Couplings given as one number, chemical potentials one per species; no twist."
  },
  {
   "property": "C121",
   "status": "proved",
   "theorems": [
    "C121_sites",
    "C121_pairs",
    "C121_given_pairs"
   ],
   "note": "At temperature zero for sorted energies whose distinct values are more than 1e-13 apart."
  },
  {
   "property": "C122",
   "status": "partial",
   "theorems": [
    "C122_dense_refuted",
    "C122_sparse_partial",
    "C122_weights_partial"
   ],
   "note": "False for dense arrays: the exponential of an array has no toarray and every call with beta other than 0 raises. Proved for sparse matrices given that scipy's expm sums the exponential series."
  },
  {
   "property": "C123",
   "status": "proved",
   "theorems": [
    "C123_entries",
    "C123_zero",
    "C123_period",
    "C123_adjoint",
    "C123_inverse",
    "C123_fermions",
    "C123_modes"
   ],
   "note": ""
  },
  {
   "property": "C124",
   "status": "proved",
   "theorems": [
    "C124_polygon",
    "C124_small"
   ],
   "note": ""
  },
  {
   "property": "C125",
   "status": "partial",
   "theorems": [
    "C125_refuted",
    "C125_cutoff_refuted",
    "C125_formula_partial"
   ],
   "note": "False: the method reads attributes that no geometry has, so every call raises AttributeError; it does not use the cutoff. The decay law holds for an object that has the attributes."
  },
  {
   "property": "C126",
   "status": "proved",
   "theorems": [
    "C126_cycles",
    "C126_maps"
   ],
   "note": "Sides up to 5e13 sites. The maps of the library are stated over the reals, the search over rational coordinates; the link is that the map used is within 5e-15 of the motion on the sites."
  },
  {
   "property": "C127",
   "status": "proved",
   "theorems": [
    "C127_sectors"
   ],
   "note": "No twist; couplings one number per species; the motion must move at least one site."
  },
  {
   "property": "C128",
   "status": "proved",
   "theorems": [
    "C128_averages"
   ],
   "note": "At temperature zero for sorted energies whose distinct values are more than 1e-13 apart."
  },
  {
   "property": "C129",
   "status": "proved",
   "theorems": [
    "C129_rectangle",
    "C129_square",
    "C129_torus"
   ],
   "note": "For the counterclockwise turn of the torus the sectors split the states and make the Hamiltonian block diagonal, but are not sectors of the whole group (see C46)."
  },
  {
   "property": "C130",
   "status": "proved",
   "theorems": [
    "C130_density",
    "C130_bond",
    "C130_lattice_density",
    "C130_lattice_bond"
   ],
   "note": "Also for interactions within a species and different couplings per site in the general form. At temperature zero for sorted energies whose distinct values are more than 1e-13 apart."
  },
  {
   "property": "C131",
   "status": "proved",
   "theorems": [
    "C131_density",
    "C131_pair",
    "C131_uniform"
   ],
   "note": "No twist; couplings one number per species. At temperature zero as in C130."
  },
  {
   "property": "C132",
   "status": "proved",
   "theorems": [
    "C132_commutes",
    "C132_density",
    "C132_bond",
    "C132_isotropic",
    "C132_lattice"
   ],
   "note": "At temperature zero as in C130."
  },
  {
   "property": "C133",
   "status": "proved",
   "theorems": [
    "C133_hamiltonian",
    "C133_energies",
    "C133_averages",
    "C133_moment",
    "C133_open"
   ],
   "note": "The square root that the spin operators use is an oracle with value 1 at 1. At temperature zero for sorted energies whose distinct values are more than 1e-13 apart."
  },
  {
   "property": "C134",
   "status": "proved",
   "theorems": [
    "C134_particle",
    "C134_spectrum",
    "C134_density",
    "C134_bond",
    "C134_pair"
   ],
   "note": "No twist; averages at temperatures other than zero."
  },
  {
   "property": "C135",
   "status": "proved",
   "theorems": [
    "C135_spectrum",
    "C135_moment",
    "C135_correlation"
   ],
   "note": "Averages at temperatures other than zero; the square root is an oracle with value 1 at 1."
  },
  {
   "property": "C136",
   "status": "proved",
   "theorems": [
    "C136_density",
    "C136_bond",
    "C136_pair",
    "C136_species",
    "C136_ground",
    "C136_degeneracy",
    "C136_energy"
   ],
   "note": "Averages for sorted energies whose distinct values are more than 1e-13 apart."
  },
  {
   "property": "C137",
   "status": "partial",
   "theorems": [
    "C137_level_refuted",
    "C137_density_partial",
    "C137_correlation_partial",
    "C137_green_partial",
    "C137_doubles_partial"
   ],
   "note": "False when a level lies at the chemical potential (fermi_gas.py:9-41 counts it as full); proved when no level does, for sizes as in C08 and distinct energies more than 1e-13 apart."
  },
  {
   "property": "C138",
   "status": "proved",
   "theorems": [
    "C138_density",
    "C138_double",
    "C138_uncorrelated"
   ],
   "note": "Temperatures other than zero; the species that interact are the first two, as in the code."
  },
  {
   "property": "C139",
   "status": "proved",
   "theorems": [
    "C139_states",
    "C139_rule",
    "C139_isotropic",
    "C139_lattice"
   ],
   "note": "The pair rule is for temperatures other than zero; the isotropy also at zero temperature for sorted energies whose distinct values are more than 1e-13 apart."
  },
  {
   "property": "C140",
   "status": "proved",
   "theorems": [
    "C140_temperature",
    "C140_energy",
    "C140_hot",
    "C140_potential",
    "C140_number"
   ],
   "note": "Temperatures other than zero; the chemical potential is changed in the record of the system, all else equal."
  },
  {
   "property": "C141",
   "status": "proved",
   "theorems": [
    "C141_count",
    "C141_triangle",
    "C141_hexagon",
    "C141_tilted",
    "C141_triangle_accepted",
    "C141_hexagon_accepted",
    "C141_tilted_accepted"
   ],
   "note": "Sites that differ by more than 1e-14 in a coordinate and a basis without repetitions; sizes up to 1e14; sqrt(3)/2 is any number with square within 1e-15 of 3/4."
  },
  {
   "property": "C142",
   "status": "partial",
   "theorems": [
    "C142_tilted",
    "C142_rows_lost_refuted",
    "C142_hexagon_rows_lost_refuted",
    "C142_triangle_row_lost",
    "C142_hexagon_row_lost",
    "C142_torus_refuted",
    "C142_triangle_partial",
    "C142_triangle_four_rows",
    "C142_hexagon_partial",
    "C142_hexagon_four_rows"
   ],
   "note": "True for tilted squares. False for triangular lattices of five rows or more, hexagonal lattices with n2 >= 3 (rounding to 14 decimals) and the 2 x 2 triangular torus (centered reduction does not give the shortest vector); proved for up to four rows and closed axes of three sites or more (triangle), n2 <= 2 (hexagonal)."
  },
  {
   "property": "C143",
   "status": "partial",
   "theorems": [
    "C143_quantities",
    "C143_laws",
    "C143_hot",
    "C143_cold",
    "C143_basis",
    "C143_shift",
    "C143_sums",
    "C143_model",
    "C143_temperatures",
    "C143_single_partial",
    "C143_script_refuted"
   ],
   "note": "The quantities are right for every cluster; the script itself finishes only for one site and raises AttributeError for all larger ones (missing method getTwoSiteOp). Reading and writing of its files is left out."
  },
  {
   "property": "C144",
   "status": "proved",
   "theorems": [
    "C144_linked",
    "C144_sites_and_bonds"
   ],
   "note": "Real numbers; square lattice; all clusters from get_all_clusters_with_subclusters."
  },
  {
   "property": "C145",
   "status": "proved",
   "theorems": [
    "C145_states",
    "C145_free_energy",
    "C145_lowest",
    "C145_averages",
    "C145_concave",
    "C145_lowest_concave",
    "C145_doubles",
    "C145_interactions",
    "C145_repulsion",
    "C145_densities",
    "C145_potentials",
    "C145_moments",
    "C145_fields"
   ],
   "note": "Real numbers; at zero temperature energies are sorted and equal or further apart than the tolerance; moments for spins 1/2; interactions need two species."
  },
  {
   "property": "C146",
   "status": "proved",
   "theorems": [
    "C146_nodeless",
    "C146_unique",
    "C146_phase",
    "C146_positive",
    "C146_averages",
    "C146_moments",
    "C146_correlations",
    "C146_spin_unique",
    "C146_spin_state",
    "C146_cold_moments"
   ],
   "note": "Real numbers; spins 1/2; at zero temperature energies are sorted and equal or further apart than the tolerance; rt 1 = 1 is the square root of one used in the ladder operators."
  },
  {
   "property": "C147",
   "status": "proved",
   "theorems": [
    "C147_projectors",
    "C147_moments",
    "C147_unique",
    "C147_state",
    "C147_overlap",
    "C147_right_signs",
    "C147_aligned",
    "C147_aligned_state"
   ],
   "note": "Real numbers; spins 1/2; fields along z are allowed except for the ferromagnet."
  },
  {
   "property": "C148",
   "status": "proved",
   "theorems": [
    "C148_projectors",
    "C148_unique",
    "C148_state",
    "C148_overlap",
    "C148_hops",
    "C148_open_shell"
   ],
   "note": "Real numbers. The last theorem shows that the condition on rings cannot be dropped."
  },
  {
   "property": "C149",
   "status": "proved",
   "theorems": [
    "C149_rotations",
    "C149_order",
    "C149_mirror",
    "C149_strict",
    "C149_sector_spin",
    "C149_level",
    "C149_level_spin",
    "C149_ground_spin",
    "C149_degeneracy",
    "C149_same_moment",
    "C149_singlet"
   ],
   "note": "Real numbers."
  },
  {
   "property": "C150",
   "status": "proved",
   "theorems": [
    "C150_unique",
    "C150_state",
    "C150_pairs",
    "C150_densities",
    "C150_singlet"
   ],
   "note": "Real numbers."
  },
  {
   "property": "C151",
   "status": "proved",
   "theorems": [
    "C151_lattice",
    "C151_open",
    "C151_accepts",
    "C151_refuses",
    "C151_default"
   ],
   "note": "Exact rational coordinates, real phases."
  },
  {
   "property": "C152",
   "status": "proved",
   "theorems": [
    "C152_cell",
    "C152_again"
   ],
   "note": "Exact rational coordinates."
  },
  {
   "property": "C153",
   "status": "proved",
   "theorems": [
    "C153_magnetic",
    "C153_static"
   ],
   "note": "Real numbers."
  },
  {
   "property": "C154",
   "status": "proved",
   "theorems": [
    "C154_unique",
    "C154_state",
    "C154_spins",
    "C154_density"
   ],
   "note": "Real numbers."
  },
  {
   "property": "C155",
   "status": "proved",
   "theorems": [
    "C155_spin",
    "C155_order"
   ],
   "note": "Real numbers."
  },
  {
   "property": "C156",
   "status": "partial",
   "theorems": [
    "C156_attribute_refuted",
    "C156_current_partial",
    "C156_hermitian_partial"
   ],
   "note": "Refuted: objects lack the attributes tx and ty. Proved with the attributes assigned. Real numbers."
  },
  {
   "property": "C157",
   "status": "proved",
   "theorems": [
    "C157_sum_rule",
    "C157_runs",
    "C157_kinetic"
   ],
   "note": "The attributes tx and ty are assigned by the caller, see C156. Real numbers."
  },
  {
   "property": "C158",
   "status": "proved",
   "theorems": [
    "C158_centre",
    "C158_order"
   ],
   "note": "Exact rationals."
  },
  {
   "property": "C159",
   "status": "proved",
   "theorems": [
    "C159_sectors",
    "C159_labels"
   ],
   "note": "Abstract in the four operators; C161 supplies those of the ring. Numbers are exact, so the rounding of the parities does nothing."
  },
  {
   "property": "C160",
   "status": "proved",
   "theorems": [
    "C160_spectrum"
   ],
   "note": "The eigenvectors are arbitrary orthonormal bases of eigenvectors."
  },
  {
   "property": "C161",
   "status": "proved",
   "theorems": [
    "C161_ring",
    "C161_script"
   ],
   "note": "Exact numbers; the dense eigensolver is assumed to be right about the Hamiltonian and the sector matrices only, ex_ten exhibits such a solver. The bound on n comes from the tolerances of the geometry."
  },
  {
   "property": "C162",
   "status": "proved",
   "theorems": [
    "C162_spectrum",
    "C162_total_spin",
    "C162_count"
   ],
   "note": "Spins are stored doubled in spin_levels. np.sqrt is exact."
  },
  {
   "property": "C163",
   "status": "proved",
   "theorems": [
    "C163_script"
   ],
   "note": "Exact numbers; np.arange of half-integers is a range of doubled ones. The dense eigensolver is assumed to be right about this Hamiltonian, ex_script exhibits one."
  },
  {
   "property": "C164",
   "status": "proved",
   "theorems": [
    "C164_alike"
   ],
   "note": "Set of energies; the multiplicities are those of C162."
  },
  {
   "property": "C165",
   "status": "partial",
   "theorems": [
    "C165_cold_refuted",
    "C165_value_partial",
    "C165_close_partial",
    "C165_exact_partial",
    "C165_cold_partial"
   ],
   "note": "Refuted at temperature zero: that branch divides by the energy of the transition instead of the frequency and has no term at minus this energy, so for two levels one apart, frequency 2 and broadening 1 it gives 1/2 while the limit is 1/5. The value of both branches is proved."
  },
  {
   "property": "C166",
   "status": "proved",
   "theorems": [
    "C166_turning"
   ],
   "note": "The sense of the turn is right-handed about the field, opposite to that of the usual spin algebra, because of the sign of the matrices for S_y (C25). Higher spins are not included: with fields createH raises an exception for them."
  },
  {
   "property": "C167",
   "status": "proved",
   "theorems": [
    "C167_operator",
    "C167_pairs"
   ],
   "note": "The second theorem gives the hypothesis of the first for the pair operator; C139_lattice gives the symmetry for lattices from createSquareGeometry."
  },
  {
   "property": "C168",
   "status": "partial",
   "theorems": [
    "C168_same_frequency_refuted",
    "C168_time_ordered",
    "C168_retarded_cold",
    "C168_retarded_hot",
    "C168_pairs"
   ],
   "note": "Refuted: the retarded function has its line at -c, the time-ordered one at c. Everything else is proved: time-ordered at nonzero temperatures, retarded at temperature zero with weight <AB> -+ <BA> in the ground state; at nonzero temperatures the retarded function has the factor 1 -+ exp(c/T) of C82 in place of 1 -+ exp(-c/T)."
  },
  {
   "property": "C169",
   "status": "proved",
   "theorems": [
    "C169_energies",
    "C169_sites",
    "C169_pairs",
    "C169_mixed"
   ],
   "note": "Axes go to axes, so that couplings stay of the form the class stores. C169_mixed: mirror images on some sites and rotations on others do change the energies (two spins, ferromagnetic against antiferromagnetic). At temperature zero the energies are to be sorted and separated by more than the resolution of the package. Higher spins are not included."
  },
  {
   "property": "C170",
   "status": "proved",
   "theorems": [
    "C170_sites",
    "C170_pairs"
   ],
   "note": "From C169, with the model described by mirrored axes being the model itself. At temperature zero the average over the ground states is meant."
  },
  {
   "property": "C171",
   "status": "proved",
   "theorems": [
    "C171_states"
   ],
   "note": "The evolution is the only solution of its equation, whatever the eigenbasis."
  },
  {
   "property": "C172",
   "status": "proved",
   "theorems": [
    "C172_energies",
    "C172_order",
    "C172_average",
    "C172_cold",
    "C172_motion"
   ],
   "note": "Signs only, not phases: the kinetic operator of the package uses the same amplitude in both directions. Temperature zero is included for r = 1."
  },
  {
   "property": "C173",
   "status": "proved",
   "theorems": [
    "C173_signs",
    "C173_same",
    "C173_lattice",
    "C173_triangle"
   ],
   "note": "C173_lattice is about the constructors on createSquareGeometry, open or with even sides; C173_triangle shows that three sites in a ring are different."
  },
  {
   "property": "C174",
   "status": "proved",
   "theorems": [
    "C174_energies",
    "C174_motion",
    "C174_lattice"
   ],
   "note": "C172 with r = -1, together with the motion at times t and -t from a real state being the same for densities."
  },
  {
   "property": "C175",
   "status": "proved",
   "theorems": [
    "C175_motion",
    "C175_energies",
    "C175_average",
    "C175_sector",
    "C175_constructor"
   ],
   "note": "Temperature zero is included for sorted energies that are equal or far enough apart."
  },
  {
   "property": "C176",
   "status": "proved",
   "theorems": [
    "C176_mean",
    "C176_steps",
    "C176_basis",
    "C176_levels",
    "C176_resonance"
   ],
   "note": "C176_resonance shows that the condition on the step is needed."
  },
  {
   "property": "C177",
   "status": "proved",
   "theorems": [
    "C177_ratios",
    "C177_bounds",
    "C177_mean",
    "C177_mean_bounds",
    "C177_few",
    "C177_units",
    "C177_potential",
    "C177_mirror"
   ],
   "note": "Lines 27-32 of the script only; its call of createSquareGeometry and the plots are not modelled. Zeros have no sign in the model; for sorted energies none is negative."
  },
  {
   "property": "C178",
   "status": "proved",
   "theorems": [
    "C178_motion",
    "C178_energies",
    "C178_average",
    "C178_sector_motion"
   ],
   "note": "The sectors are those given by get_subspace_projs of the total moment (C147_projectors). In a sector the couplings along x and y need not be equal."
  },
  {
   "property": "C179",
   "status": "proved",
   "theorems": [
    "C179_return",
    "C179_bounds",
    "C179_back",
    "C179_mean",
    "C179_floor"
   ],
   "note": "Steps of the mean must not bring different energies back into phase (C176_steps gives a sufficient condition)."
  },
  {
   "property": "C180",
   "status": "proved",
   "theorems": [
    "C180_rates",
    "C180_conserved",
    "C180_stationary"
   ],
   "note": "The derivative is stated for one function of time that agrees with the output at all times asked for."
  },
  {
   "property": "C181",
   "status": "proved",
   "theorems": [
    "C181_uncertainty",
    "C181_variance",
    "C181_speed"
   ],
   "note": ""
  },
  {
   "property": "C182",
   "status": "proved",
   "theorems": [
    "C182_equilibrium",
    "C182_no_current",
    "C182_motion"
   ],
   "note": "As in C156, get_current_op needs the amplitudes tx and ty which the caller must assign."
  },
  {
   "property": "C183",
   "status": "proved",
   "theorems": [
    "C183_continuity",
    "C183_runs"
   ],
   "note": ""
  },
  {
   "property": "C184",
   "status": "proved",
   "theorems": [
    "C184_average",
    "C184_reversal",
    "C184_fermions",
    "C184_flow",
    "C184_spins",
    "C184_moment"
   ],
   "note": "At zero temperature energies that differ must differ by more than 0.5e-13 and be sorted, as in C54."
  },
  {
   "property": "C185",
   "status": "proved",
   "theorems": [
    "C185_motion",
    "C185_runs"
   ],
   "note": "The signs are those of the operators of the package, whose commutators have the opposite sign (C25)."
  },
  {
   "property": "C186",
   "status": "proved",
   "theorems": [
    "C186_hopping",
    "C186_localised",
    "C186_spins",
    "C186_classical"
   ],
   "note": "The free energy is -T times the logarithm of the sum of exp(-E/T) over the energies returned. A complete set of eigenvectors of the full Hamiltonian is assumed."
  },
  {
   "property": "C187",
   "status": "proved",
   "theorems": [
    "C187_shapes",
    "C187_one_result",
    "C187_none",
    "C187_matrices",
    "C187_lattices"
   ],
   "note": "Arrays are a shape and a list of elements in row order. Vectors with more or less than two components are not modelled for lattices."
  },
  {
   "property": "C188",
   "status": "proved",
   "theorems": [
    "C188_independent",
    "C188_operators",
    "C188_terms"
   ],
   "note": "Basis of all spin states. C188_terms is the statement for a Hamiltonian of two commuting terms in general. Eigenvectors and energies are any that satisfy the eigenvalue equation."
  },
  {
   "property": "C189",
   "status": "proved",
   "theorems": [
    "C189_projectors",
    "C189_exchange"
   ],
   "note": "Class attributes of spin systems. The exchange matrix is compared with the spin operators entry by entry."
  },
  {
   "property": "C190",
   "status": "partial",
   "theorems": [
    "C190_halves_refuted",
    "C190_halves_partial",
    "C190_algebra_partial"
   ],
   "note": "False for y: get_sy returns minus half of pauli_y, because get_splus fills the diagonal below the main one. The factor is 2 for x and z and -2 for y on every site; the Pauli matrices have the usual algebra."
  },
  {
   "property": "C191",
   "status": "proved",
   "theorems": [
    "C191_ball",
    "C191_single"
   ],
   "note": "The number called norm in the statement is the sum of squared moduli of the entries of the state. Exact arithmetic; the table of roots gives 1 at 1."
  },
  {
   "property": "C192",
   "status": "proved",
   "theorems": [
    "C192_bounds",
    "C192_values"
   ],
   "note": "The squared norm is the sum of squared moduli of the entries of the state. Exact arithmetic; the table of roots gives 1 at 1."
  },
  {
   "property": "C193",
   "status": "proved",
   "theorems": [
    "C193_energies",
    "C193_parallel",
    "C193_extreme"
   ],
   "note": "The Hamiltonian of createH has twice the coupling per pair of spin operators, so each bond contributes between -3/2 J and 1/2 J. Only the couplings with first site larger than the second are read."
  }
 ]
}