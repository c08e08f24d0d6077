{"id": "C01", "title": "Logical site numbering is a bijection", "statement": "Combining (site, species) into one logical index and splitting it again gives back the same pair, and splitting then combining gives back the same index; every logical index 0..nsites*nspecies-1 is hit exactly once.", "quantifier": "for every number of sites >= 1, every number of species, every site and species", "why_tests_cant": "Tests check a few system sizes; the claim ranges over all system sizes and indices.", "anchors": ["exact_diag/ed_base.py:spinful2spinlessIndex", "exact_diag/ed_base.py:spinless2spinfullIndex"]}
{"id": "C02", "title": "Two-site fermion operators are products of single-site ones", "statement": "The operator returned by get_two_site_op for fermions equals the matrix product get_single_site_op(site1, op1) * get_single_site_op(site2, op2), whatever the two one-site matrices are, in whichever order the two sites lie, and also when they are the same logical site.", "quantifier": "for every number of logical sites, every pair of (site, species), every pair of 2x2 operators", "why_tests_cant": "The sign string depends on which site comes first and on all sites in between; tests only cover a handful of pairs and operators.", "anchors": ["exact_diag/ed_base.py:get_two_site_op", "exact_diag/ed_base.py:get_single_site_op"]}
{"id": "C03", "title": "Canonical anticommutation relations", "statement": "The creation and annihilation operators built for fermions satisfy {c_i, c_j^dag} = delta_ij * identity, {c_i, c_j} = 0 and {c_i^dag, c_j^dag} = 0, for sites of the same species and of different species.", "quantifier": "for every number of sites and species and every pair of logical sites", "why_tests_cant": "There are infinitely many system sizes and the relation has to hold as an operator identity, i.e. on every basis state.", "anchors": ["exact_diag/ed_base.py:get_single_site_op", "exact_diag/ed_fermions.py:fermions.c_op", "exact_diag/ed_fermions.py:fermions.cdag_op"]}
{"id": "C04", "title": "Operators on distinct sites commute in the boson/spin format", "statement": "In the boson format with two basis states per site, placing a one-site operator on a site is linear and multiplicative, sends the identity to the identity and the conjugate transpose to the conjugate transpose, operators on different sites commute, and get_two_site_op equals the product of the two get_single_site_op results (also for equal sites).", "quantifier": "for every number of sites, every pair of sites, every pair of 2x2 operators", "why_tests_cant": "Operator identities for every system size and every operator.", "anchors": ["exact_diag/ed_base.py:get_single_site_op", "exact_diag/ed_base.py:get_two_site_op"]}
{"id": "C05", "title": "Basis state k is the ordered product of creation operators on the vacuum", "statement": "The k-th unit vector is obtained from the 0-th one by applying the creation operators of the sites whose bits are set in k, higher logical site index to the left, with sign +1; so the row k of get_state_vects lists exactly the occupied sites of the k-th basis vector.", "quantifier": "for every number of logical sites and every basis index", "why_tests_cant": "Sign conventions are global: a wrong string in one place shows up only for particular many-particle states.", "anchors": ["exact_diag/ed_base.py:get_single_site_op", "exact_diag/ed_fermions.py:get_state_vects"]}
{"id": "C06", "title": "Action of c and c^dag on occupation states", "statement": "The matrix element of c_i^dag between basis states a and b is (-1)^(number of occupied sites with index above i in b) when site i is empty in b, and a is b with site i filled; it is zero in all other cases. The matrix of c_i is its conjugate transpose, and n_i is diagonal with the occupation of site i.", "quantifier": "for every number of logical sites, every site, every pair of basis states", "why_tests_cant": "Exponentially many pairs of basis states for every size.", "anchors": ["exact_diag/ed_base.py:get_single_site_op", "exact_diag/ed_fermions.py:fermions.cdag_op", "exact_diag/ed_fermions.py:fermions.n_op"]}
{"id": "C07", "title": "Single-site operators have the dimension of the state space", "statement": "get_single_site_op returns a square matrix whose dimension is nbasis**(nsites*nspecies), for any local basis size the class accepts (spin 1, 3/2, ...).", "quantifier": "for every nbasis, every number of sites and every site", "why_tests_cant": "The shape depends on nbasis and on the site; the repository only tests fields on spin-1/2 systems.", "anchors": ["exact_diag/ed_base.py:get_single_site_op", "exact_diag/ed_spins.py:spinSystem.__init__"]}
{"id": "C08", "title": "Total-number operators count particles", "statement": "get_sum_op of the number operator for one species is diagonal in the occupation basis and its k-th diagonal entry is the number of sites of that species that are occupied in basis state k (as listed by get_state_vects).", "quantifier": "for every number of sites and species, every species, every basis state", "why_tests_cant": "Quantifies over all sizes and all basis states.", "anchors": ["exact_diag/ed_base.py:get_sum_op", "exact_diag/ed_fermions.py:get_state_vects"]}
{"id": "C09", "title": "Eigenspace projectors of diagonal operators", "statement": "get_subspace_projs on a diagonal operator returns, for each requested eigenvalue, a matrix P whose rows are distinct unit vectors of exactly the basis states with that eigenvalue, in increasing order; P P^dag is the identity, P^dag P projects onto the eigenspace, P O P^dag = eigenvalue * identity, and with the default arguments the P^dag P of all distinct eigenvalues add up to the identity. An operator that is not stored in csr format is rejected.", "quantifier": "for every diagonal operator and every requested eigenvalue", "why_tests_cant": "All operators and all eigenvalue multiplicity patterns.", "anchors": ["exact_diag/ed_base.py:get_subspace_projs"]}
{"id": "C10", "title": "The fixed-particle-number basis contains exactly the right states", "statement": "With particle numbers given for every species, the projector stored by the fermion class has as rows exactly the unit vectors of the basis states with those particle numbers, each once, in increasing order of the basis index; and its number of rows is the product of the binomials C(nsites, n_s).", "quantifier": "for every number of sites, species and requested particle numbers", "why_tests_cant": "Sector sizes grow combinatorially; the successive projections must compose for every number of species.", "anchors": ["exact_diag/ed_fermions.py:fermions.__init__", "exact_diag/ed_base.py:get_subspace_projs"]}
{"id": "C11", "title": "The fermion Hamiltonian is Hermitian", "statement": "createH returns a Hermitian matrix whenever all couplings are real.", "quantifier": "for every geometry, number of species, real hopping, interaction, chemical potential and potential, and every projector", "why_tests_cant": "All couplings, all geometries, all projectors.", "anchors": ["exact_diag/ed_fermions.py:createH", "exact_diag/ed_fermions.py:get_kinetic_op", "exact_diag/ed_fermions.py:get_u_interspecies_op", "exact_diag/ed_fermions.py:get_u_samespecies_op", "exact_diag/ed_fermions.py:get_potential_op", "exact_diag/ed_fermions.py:get_chemical_pot_op"]}
{"id": "C12", "title": "The fermion Hamiltonian is Hermitian also for complex Hermitian hopping", "statement": "createH returns a Hermitian matrix when the hopping matrix passed in is complex Hermitian (for instance with Peierls phases).", "quantifier": "for every Hermitian hopping matrix", "why_tests_cant": "Tests only use real hopping.", "anchors": ["exact_diag/ed_fermions.py:get_kinetic_op", "exact_diag/ed_fermions.py:get_hopping_mat"]}
{"id": "C13", "title": "The Hamiltonian conserves the particle number of every species", "statement": "The Hamiltonian commutes with the total number operator of each species; equivalently its matrix elements vanish between basis states with different particle numbers.", "quantifier": "for every geometry, all couplings, every species", "why_tests_cant": "All couplings and sizes; block structure must hold for every pair of sectors.", "anchors": ["exact_diag/ed_fermions.py:createH", "exact_diag/ed_base.py:get_sum_op"]}
{"id": "C14", "title": "The Hamiltonian has the matrix elements of the documented lattice model", "statement": "Without a projector the matrix createH returns has, between every two basis states, the matrix element of sum_{i>j,s} -t_ij,s (c^dag_i c_j + h.c.) + sum U n n + sum V n n - sum mu n + sum V_i n, with -t_ij the hopping amplitude the user supplied for the bond.", "quantifier": "for every geometry, all real couplings and every pair of basis states", "why_tests_cant": "Exponentially many matrix elements and all geometries.", "anchors": ["exact_diag/ed_fermions.py:createH", "exact_diag/ed_fermions.py:get_kinetic_op"]}
{"id": "C15", "title": "A twist of the boundary conditions reaches the hopping matrix", "statement": "When the geometry carries boundary phases, the hopping stored for a bond by the fermion class is t times the phase of the bond.", "quantifier": "for every geometry with phases and every scalar or per-species hopping", "why_tests_cant": "Twists enter as a continuous parameter and no test checks the stored complex hopping.", "anchors": ["exact_diag/ed_fermions.py:get_hopping_mat"]}
{"id": "C16", "title": "Per-species potentials", "statement": "Passing one potential value per species gives every site of species s the potential value of species s.", "quantifier": "for every number of sites and species", "why_tests_cant": "The broadcasting pattern depends on the two sizes and is wrong only for some of them.", "anchors": ["exact_diag/ed_fermions.py:fermions.__init__"]}
{"id": "C17", "title": "Constructor shape dispatch", "statement": "The fermion constructor accepts scalars, per-species lists and full arrays for hopping, interactions, chemical potential and potentials, expands them to the documented full array, and raises for every other shape, in particular when an explicitly given hopping matrix has the wrong shape.", "quantifier": "for every shape of every argument", "why_tests_cant": "All shapes.", "anchors": ["exact_diag/ed_fermions.py:fermions.__init__"]}
{"id": "C18", "title": "Fermion swap operators exchange two sites", "statement": "The swap operator S of two sites is Hermitian, squares to the identity, leaves the vacuum alone and satisfies S c_a^dag = c_b^dag S, S c_b^dag = c_a^dag S and S c_k^dag = c_k^dag S for all other sites (same for annihilation operators); swapping a site with itself is the identity.", "quantifier": "for every number of sites and species and every pair of sites", "why_tests_cant": "Operator identity with fermionic signs for all sizes.", "anchors": ["exact_diag/ed_fermions.py:get_swap_op"]}
{"id": "C19", "title": "Site-permutation operators implement the permutation", "statement": "The operator built from a list of disjoint site cycles is unitary, leaves the vacuum alone, and carries the creation operator of site i (for every species) to the creation operator of the site following i in its cycle.", "quantifier": "for every number of sites and species, every list of disjoint cycles of which at least one is non-trivial", "why_tests_cant": "All permutations of all sizes, with fermionic signs.", "anchors": ["exact_diag/ed_base.py:get_xform_op", "exact_diag/ed_fermions.py:get_swap_op"]}
{"id": "C20", "title": "Site-permutation operators form a representation", "statement": "The transformation operators compose like the permutations: applying the operator of a permutation as often as its order gives the identity.", "quantifier": "for every permutation", "why_tests_cant": "All permutations of all sizes.", "anchors": ["exact_diag/ed_base.py:get_xform_op"]}
{"id": "C21", "title": "The identity transformation gives the identity operator", "statement": "get_xform_op on cycles that are all trivial returns the identity matrix of the state space.", "quantifier": "for every number of sites", "why_tests_cant": "Boundary case of an unbounded family.", "anchors": ["exact_diag/ed_base.py:get_xform_op"]}
{"id": "C22", "title": "Lattice symmetries of the couplings are symmetries of the Hamiltonian", "statement": "If a permutation of the sites leaves the hopping, interaction and potential arrays invariant, the transformation operator of that permutation commutes with the Hamiltonian.", "quantifier": "for every permutation and all invariant couplings", "why_tests_cant": "All sizes, couplings and permutations.", "anchors": ["exact_diag/ed_base.py:get_xform_op", "exact_diag/ed_fermions.py:createH"]}
{"id": "C23", "title": "Spin swap operators exchange two sites", "statement": "The swap operator of two different sites of a spin-1/2 system maps every basis state to the one with the two spins exchanged; it is Hermitian and squares to the identity.", "quantifier": "for every number of sites, every pair of different sites, every basis state", "why_tests_cant": "All sizes and basis states.", "anchors": ["exact_diag/ed_spins.py:get_swap_op"]}
{"id": "C24", "title": "Swapping a spin with itself does nothing", "statement": "get_swap_op with equal sites returns the identity.", "quantifier": "for every number of sites and every site", "why_tests_cant": "Boundary case; not tested.", "anchors": ["exact_diag/ed_spins.py:get_swap_op"]}
{"id": "C25", "title": "Spin matrices satisfy the angular momentum algebra", "statement": "For every spin s the matrices S^x, S^y, S^z of the class are Hermitian and satisfy [S^x, S^y] = i S^z and its cyclic permutations, and S^x^2+S^y^2+S^z^2 = s(s+1).", "quantifier": "for every spin s = 0, 1/2, 1, 3/2, ...", "why_tests_cant": "Infinitely many spins.", "anchors": ["exact_diag/ed_spins.py:get_splus", "exact_diag/ed_spins.py:get_sminus", "exact_diag/ed_spins.py:get_sx", "exact_diag/ed_spins.py:get_sy", "exact_diag/ed_spins.py:get_sz"]}
{"id": "C26", "title": "The spin-1/2 Hamiltonian is the documented one", "statement": "createH returns sum_{i>j} J^a_ij (sigma^a_i sigma^a_j)/2 - sum_i h^a_i sigma^a_i/2 summed over a=x,y,z, for every pair of basis states.", "quantifier": "for every geometry and all couplings and fields", "why_tests_cant": "Exponentially many matrix elements, all couplings.", "anchors": ["exact_diag/ed_spins.py:createH", "exact_diag/ed_spins.py:get_sy"]}
{"id": "C27", "title": "The spin Hamiltonian is Hermitian", "statement": "createH of a spin system is Hermitian for every coupling the class accepts, including couplings on a geometry with boundary phases.", "quantifier": "for every geometry, phases, couplings and fields", "why_tests_cant": "All couplings.", "anchors": ["exact_diag/ed_spins.py:createH", "exact_diag/ed_spins.py:get_interaction_mat"]}
{"id": "C28", "title": "XXZ Hamiltonians conserve the magnetisation", "statement": "When J^x = J^y and there are no x and y fields the spin Hamiltonian commutes with the total S^z; when there are no y and z fields it commutes with the global spin flip of get_swap_up_down_op.", "quantifier": "for every geometry and all such couplings", "why_tests_cant": "All sizes and couplings.", "anchors": ["exact_diag/ed_spins.py:createH", "exact_diag/ed_spins.py:get_swap_up_down_op"]}
{"id": "C29", "title": "Global spin flip and basis labels", "statement": "get_swap_up_down_op maps basis state k to basis state 2^n-1-k, is an involution and equals the product of sigma_x over all sites; row k of get_state_vects is the list of inverted bits of k.", "quantifier": "for every number of sites and every basis state", "why_tests_cant": "All sizes.", "anchors": ["exact_diag/ed_spins.py:get_swap_up_down_op", "exact_diag/ed_spins.py:get_state_vects", "exact_diag/ed_spins.py:get_allsite_op"]}
{"id": "C30", "title": "The two antiferromagnetic states are each other's spin flip", "statement": "find_special_states returns two Neel states which are exchanged by flipping all spins.", "quantifier": "for every number of sites", "why_tests_cant": "A closed formula for the index that is only checked by eye.", "anchors": ["exact_diag/ed_spins.py:find_special_states"]}
{"id": "C31", "title": "Reduction to a unit cell is a canonical form", "statement": "reduce_vectors returns a vector which differs from its argument by integer multiples of the two generators (those reported), gives the same result for all vectors that differ by such multiples, is idempotent, and lands in the half-open cell [0,1)^2 (mode positive) or [-1/2,1/2)^2 (mode centered) in units of the generators; with zero generators that direction is left alone.", "quantifier": "for every pair of linearly independent (or zero) generators and every vector", "why_tests_cant": "All vectors including those on cell boundaries.", "anchors": ["exact_diag/ed_geometry.py:reduce_vectors"]}
{"id": "C32", "title": "Lattice construction lists every site of the periodic cluster exactly once", "statement": "get_unique_sites returns one site for every class of lattice sites modulo the periodicity vectors: every lattice site is equivalent to a returned one and no two returned ones are equivalent.", "quantifier": "for every lattice, every commensurate pair of periodicity vectors (any orientation, any sign)", "why_tests_cant": "All tilted cells; the enumeration box must cover a fundamental domain for each.", "anchors": ["exact_diag/ed_geometry.py:Lattice.get_unique_sites"]}
{"id": "C33", "title": "Incommensurate periodicity is rejected", "statement": "Constructing a lattice whose periodicity vectors are not integer combinations of the lattice vectors raises an error.", "quantifier": "for every lattice and every pair of periodicity vectors", "why_tests_cant": "All real vectors.", "anchors": ["exact_diag/ed_geometry.py:Lattice.validate_instance"]}
{"id": "C34", "title": "Reduced distances are antisymmetric and periodic", "statement": "The x and y distance matrices of a periodic geometry are antisymmetric, differ from the plain coordinate differences by lattice periods, and so are the matrices counting lattice vectors.", "quantifier": "for every lattice and every list of site coordinates", "why_tests_cant": "All coordinate lists.", "anchors": ["exact_diag/ed_geometry.py:Lattice.get_reduced_distance"]}
{"id": "C35", "title": "Adjacency of rectangular clusters", "statement": "On an nx-by-ny square cluster two sites are neighbours exactly if they differ by one step along one axis, counted modulo the cluster size along periodic axes; no site neighbours itself; the matrix is symmetric.", "quantifier": "for every nx, ny and every choice of boundary conditions", "why_tests_cant": "All sizes.", "anchors": ["exact_diag/ed_geometry.py:createSquareGeometry", "exact_diag/ed_geometry.py:create_lattice_geom"]}
{"id": "C36", "title": "Boundary phases form a Hermitian unimodular matrix", "statement": "The phase matrix of a lattice geometry is Hermitian with entries of modulus one, equals all ones without phases, and around a ring the phases multiply up to exp(i*phase).", "quantifier": "for every geometry and phase", "why_tests_cant": "Continuous parameters, all sizes.", "anchors": ["exact_diag/ed_geometry.py:Lattice.get_phase_mat"]}
{"id": "C37", "title": "Renumbering sites is consistent", "statement": "permute_sites(p) relabels coordinates, adjacency, phase and distance matrices by the same permutation; doing p and then q equals doing p[q]; doing p and its inverse restores the object; anything that is not a permutation raises and leaves the object unchanged.", "quantifier": "for every geometry and every integer list p", "why_tests_cant": "All permutations, all sizes, and failure atomicity.", "anchors": ["exact_diag/ed_geometry.py:permute_sites"]}
{"id": "C38", "title": "Sorting permutations sort", "statement": "get_sorting_permutation returns a permutation of all sites that orders them as the mode says, so the sorted geometry does not depend on the order in which the sites were given, nor on a translation of the cluster.", "quantifier": "for every list of distinct sites and every mode", "why_tests_cant": "All orderings of all clusters.", "anchors": ["exact_diag/ed_geometry.py:get_sorting_permutation", "exact_diag/ed_geometry.py:permute_sites"]}
{"id": "C39", "title": "Nearest neighbours by distance", "statement": "get_neighbors_by_distance marks two sites as neighbours exactly if they are at distance one along x or along y but not both.", "quantifier": "for every pair of coordinate lists", "why_tests_cant": "All coordinates.", "anchors": ["exact_diag/ed_geometry.py:get_neighbors_by_distance"]}
{"id": "C40", "title": "Equality of geometries", "statement": "Comparing two geometries always gives an answer, is reflexive and symmetric, and geometries that compare equal agree in all their properties.", "quantifier": "for every pair of geometries", "why_tests_cant": "All pairs.", "anchors": ["exact_diag/ed_geometry.py:Geometry.__eq__", "exact_diag/ed_geometry.py:Lattice.__eq__"]}
{"id": "C41", "title": "Reciprocal vectors", "statement": "get_reciprocal_vects returns vectors dual to the given ones (a_i . b_j = delta_ij), with a zero reciprocal vector for a zero vector, and raises for dependent non-zero vectors.", "quantifier": "for every pair of vectors", "why_tests_cant": "All vectors.", "anchors": ["exact_diag/ed_geometry.py:get_reciprocal_vects"]}
{"id": "C42", "title": "Geometric maps", "statement": "n-fold application of the n-fold rotation is the identity, reflections and inversions are involutions, reflections fix the axis, all of them fix the centre and preserve distances, translations add up.", "quantifier": "for every n, centre, axis and point", "why_tests_cant": "Continuous parameters.", "anchors": ["exact_diag/ed_symmetry.py:getRotFn", "exact_diag/ed_symmetry.py:getReflFn", "exact_diag/ed_symmetry.py:getInversionFn", "exact_diag/ed_symmetry.py:getTranslFn"]}
{"id": "C43", "title": "Site cycles are the orbits of the transformation", "statement": "If findSiteCycles returns, the transformation permutes the sites, the cycles returned partition the sites, the successor of a site in its cycle is its image, and the reported number is the number of applications after which every site is back.", "quantifier": "for every geometry and every coordinate map", "why_tests_cant": "All maps.", "anchors": ["exact_diag/ed_symmetry.py:findSiteCycles", "exact_diag/ed_symmetry.py:getTransformedSites"]}
{"id": "C44", "title": "Every finite symmetry is accepted, and the reported number is the longest cycle", "statement": "findSiteCycles succeeds whenever the transformation permutes the sites, and the second return value is the length of the longest cycle, as documented.", "quantifier": "for every geometry and every map that permutes its sites", "why_tests_cant": "All permutations; fails only for particular cycle types.", "anchors": ["exact_diag/ed_symmetry.py:findSiteCycles"]}
{"id": "C45", "title": "Cyclic symmetry sectors block-diagonalise exactly", "statement": "For a transformation T with T^n = 1 the n sector projectors are orthogonal, add up to the identity, and T acts as exp(-2 pi i k/n) in sector k; any H commuting with T has no matrix elements between sectors.", "quantifier": "for every n, dimension, T and H", "why_tests_cant": "All operators.", "anchors": ["exact_diag/ed_symmetry.py:getZnProjectors", "exact_diag/ed_symmetry.py:get_symmetry_projectors"]}
{"id": "C46", "title": "Non-abelian symmetry sectors", "statement": "For D2..D7 and the 72-element group of the 3x3 torus the character tables used are those of the group, so that for every representation of the group the sector operators are orthogonal projectors (up to a factor) which add up to the identity.", "quantifier": "for every pair of operators satisfying the group relations", "why_tests_cant": "All representations.", "anchors": ["exact_diag/ed_symmetry.py:getD2Projectors", "exact_diag/ed_symmetry.py:getD3Projectors", "exact_diag/ed_symmetry.py:getD4Projectors", "exact_diag/ed_symmetry.py:getD5Projectors", "exact_diag/ed_symmetry.py:getD6Projectors", "exact_diag/ed_symmetry.py:getD7Projectors", "exact_diag/ed_symmetry.py:getC4V_and_3byb3"]}
{"id": "C47", "title": "Character table validation", "statement": "validate_char_table accepts exactly the square tables of matching size that satisfy row and column orthogonality and whose squared dimensions add up to the group order.", "quantifier": "for every table", "why_tests_cant": "All tables.", "anchors": ["exact_diag/ed_symmetry.py:validate_char_table"]}
{"id": "C48", "title": "Reduced symmetry projector is an orthonormal basis of the sector", "statement": "For one-dimensional representations of a symmetry acting by signed permutations, the reduced projector has orthonormal rows spanning exactly the sector.", "quantifier": "for every phased permutation T with T^n = 1 and every sector", "why_tests_cant": "All dimensions and orbit structures.", "anchors": ["exact_diag/ed_symmetry.py:reduce_symm_projector", "exact_diag/ed_symmetry.py:getZnProjectors"]}
{"id": "C49", "title": "Cluster enumeration is complete and duplicate-free", "statement": "get_all_clusters lists every connected cluster of the square lattice up to the given order exactly once up to translation and point symmetry, with multiplicity the number of distinct orientations.", "quantifier": "for every maximum order", "why_tests_cant": "The number of clusters grows exponentially; completeness cannot be tested.", "anchors": ["exact_diag/ed_nlce.py:get_all_clusters", "exact_diag/ed_nlce.py:get_clusters_next_order", "exact_diag/ed_nlce.py:get_clusters_rel_by_symmetry"]}
{"id": "C50", "title": "Sub-cluster enumeration is complete and duplicate-free", "statement": "get_all_subclusters lists every connected sub-cluster of the parent exactly once, ordered by size, and the reported indices of each entry are exactly those of its proper connected sub-clusters.", "quantifier": "for every parent geometry whose sites lie at distinct integer positions, with symmetric adjacency", "why_tests_cant": "Exponentially many sub-clusters.", "anchors": ["exact_diag/ed_nlce.py:get_all_subclusters", "exact_diag/ed_nlce.py:get_subclusters_next_order"]}
{"id": "C51", "title": "NLCE weights invert the sub-cluster sums", "statement": "get_nlce_exp_val computes weights satisfying value(c) = weight(c) + sum over proper sub-clusters of multiplicity*weight, the order contributions add up to the total, and for a parent cluster whose multiplicities are its own sub-cluster counts the expansion reproduces the exact value per site.", "quantifier": "for every strictly lower triangular multiplicity table and all values", "why_tests_cant": "All tables and values.", "anchors": ["exact_diag/ed_nlce.py:get_nlce_exp_val"]}
{"id": "C52", "title": "Euler resummation", "statement": "The Euler-resummed partial sums of a terminating series converge to the plain sum, and each term enters with a weight between 0 and 1.", "quantifier": "for every y > 0 and every series", "why_tests_cant": "All series, a limit statement.", "anchors": ["exact_diag/ed_nlce.py:euler_resum"]}
{"id": "C53", "title": "Sub-cluster multiplicities without symmetry", "statement": "With use_symmetry=False, get_all_clusters_with_subclusters reports for every pair of translation-distinct clusters how often the second one is contained in the first.", "quantifier": "for every maximum order", "why_tests_cant": "All clusters.", "anchors": ["exact_diag/ed_nlce.py:get_all_clusters_with_subclusters", "exact_diag/ed_nlce.py:get_reduced_subclusters"]}
{"id": "C54", "title": "Thermal averages do not depend on the energy offset", "statement": "At non-zero temperature thermal expectation values are unchanged when a constant is added to all energies, lie between the smallest and largest value, and equal the Boltzmann average; at zero temperature they are the uniform average over the ground states.", "quantifier": "for every sorted spectrum, values and temperature", "why_tests_cant": "Continuous parameters.", "anchors": ["exact_diag/ed_base.py:get_exp_vals_thermal", "exact_diag/ed_base.py:get_thermal_weights"]}
{"id": "C55", "title": "Combining sectors reproduces the full ensemble", "statement": "Combining per-sector thermal averages with the sector partition functions equals the thermal average over the union of the spectra, at every temperature, however the spectrum is split into sectors.", "quantifier": "for every splitting of the spectrum and all temperatures", "why_tests_cant": "All splittings.", "anchors": ["exact_diag/ed_base.py:get_partition_fn_sectors", "exact_diag/ed_base.py:thermal_avg_combine_sectors"]}
{"id": "C56", "title": "Unitary time evolution", "statement": "quench_time_evolve preserves the norm of the projected initial state, reproduces it at time zero and composes over times.", "quantifier": "for every Hamiltonian spectrum, initial state and times", "why_tests_cant": "Continuous time.", "anchors": ["exact_diag/ed_base.py:quench_time_evolve"]}
{"id": "C57", "title": "Diagonalisation returns sorted eigenpairs", "statement": "diagH returns eigenvalues in increasing order with matching eigenvector columns, given that the library routine returns eigenpairs in any order.", "quantifier": "for every matrix and every order of the library output", "why_tests_cant": "All matrices.", "anchors": ["exact_diag/ed_base.py:diagH"]}
{"id": "C58", "title": "Fermi function", "statement": "fermi lies strictly between 0 and 1, decreases with energy, increases with chemical potential, satisfies f(mu,E)+f(-mu,-E)=1 at finite temperature, and fermi_derivatives returns its true partial derivatives.", "quantifier": "for all finite inverse temperatures, chemical potentials and energies", "why_tests_cant": "Continuous parameters; derivative statement.", "anchors": ["exact_diag/fermi_gas.py:fermi", "exact_diag/fermi_gas.py:fermi_derivatives"]}
{"id": "C59", "title": "Half filling", "statement": "The density of the lattice Fermi gas at mu = 0 is 1/2 for any number of sites, consistently with fg_mu returning 0 for density 1/2.", "quantifier": "for every number of sites, dimension and temperature", "why_tests_cant": "All sizes; false only for odd ones.", "anchors": ["exact_diag/fermi_gas.py:fg_density", "exact_diag/fermi_gas.py:fg_mu"]}
{"id": "C60", "title": "Momentum grids are complete", "statement": "The allowed momenta are distinct modulo 2 pi, in [-pi, pi) in the balanced mode, and the plane waves over them are orthogonal, so sums over the grid invert the Fourier transform.", "quantifier": "for every grid size", "why_tests_cant": "All sizes.", "anchors": ["exact_diag/fermi_gas.py:get_allowed_kvects"]}
{"id": "C61", "title": "One-dimensional density response depends on the wave vector", "statement": "fg_density_response in one dimension uses the energies at k+q.", "quantifier": "for all momenta", "why_tests_cant": "Only visible for non-zero q, untested.", "anchors": ["exact_diag/fermi_gas.py:fg_density_response"]}
{"id": "C62", "title": "Spectral-function kernels equal trapezoidal integration", "statement": "Multiplying the kernels of get_grnfn_imagfrq/imagtime kernels with a spectral function gives the same number as the direct trapezoidal integrals.", "quantifier": "for every frequency grid with at least two points and every spectral function", "why_tests_cant": "All grids.", "anchors": ["exact_diag/greens_fns.py:get_grnfn_imagfrq_spectralfn", "exact_diag/greens_fns.py:get_grnfn_imagtime_spectralfn"]}
{"id": "C63", "title": "Matsubara frequencies and (anti)periodicity", "statement": "get_matsubara_frqs returns exactly the allowed frequencies below the cutoff, and the non-interacting imaginary-time Green function is antiperiodic for fermions.", "quantifier": "for every temperature and cutoff", "why_tests_cant": "Continuous parameters.", "anchors": ["exact_diag/greens_fns.py:get_matsubara_frqs", "exact_diag/greens_fns.py:get_noninteracting_gfn_tau"]}
{"id": "C64", "title": "Saved models load back", "statement": "Loading a file written by save restores every stored attribute for the pickle format; unknown extensions are rejected by save and load without touching the file system.", "quantifier": "for every file name and object state", "why_tests_cant": "All file names.", "anchors": ["exact_diag/ed_base.py:save", "exact_diag/ed_base.py:load"]}
{"id": "C65", "title": "Generating clusters twice gives the same answer", "statement": "Running the cluster generation script a second time on an existing result file returns the same number of clusters as the first run.", "quantifier": "for every history of runs", "why_tests_cant": "Depends on the file left by an earlier run.", "anchors": ["cluster/generate_clusters.py:generate_clusters"]}
{"id": "C66", "title": "Hamiltonians of higher spins", "statement": "For every spin s, createH returns sum_{i>j} 2 J^a_ij S^a_i S^a_j - sum_i h^a_i S^a_i on the (2s+1)^n dimensional space.", "quantifier": "for every spin, geometry, couplings and fields", "why_tests_cant": "Only spin 1/2 is tested.", "anchors": ["exact_diag/ed_spins.py:createH", "exact_diag/ed_base.py:get_single_site_op"]}
{"id": "C67", "title": "Rydberg detunings turn the Ising term into an excitation interaction", "statement": "With use_ryd_detunes the z coupling of a spin-1/2 system contributes sum_{i>j} J^z_ij (2 n_i n_j - 1/2), where n_i says that spin i is up, and nothing linear in n_i.", "quantifier": "for every geometry, all real symmetric couplings without diagonal, all other couplings and fields", "why_tests_cant": "All couplings and basis states.", "anchors": ["exact_diag/ed_spins.py:get_rydberg_detunes", "exact_diag/ed_spins.py:__init__"]}
{"id": "C68", "title": "Spin site permutations", "statement": "get_xform_op of a spin-1/2 system maps every basis state to the one with the spins carried along the permutation of the cycles; the operator is unitary and products of operators belong to products of permutations.", "quantifier": "for every number of sites and every list of disjoint cycles", "why_tests_cant": "All permutations.", "anchors": ["exact_diag/ed_base.py:get_xform_op", "exact_diag/ed_spins.py:get_swap_op"]}
{"id": "C69", "title": "Symmetric spin Hamiltonians commute with site permutations", "statement": "If couplings and fields are invariant under a permutation of the sites, createH commutes with the operator of the permutation.", "quantifier": "for every such permutation, couplings and fields", "why_tests_cant": "All permutations and couplings.", "anchors": ["exact_diag/ed_base.py:get_xform_op", "exact_diag/ed_spins.py:createH"]}
{"id": "C70", "title": "Coupling arguments of the spin constructor", "statement": "A number means a uniform coupling on the bonds of the geometry (times the boundary phase), an nsites x nsites array is used as it is, a list of nsites numbers is accepted as well; fields are numbers or lists of nsites numbers; anything else is rejected.", "quantifier": "for every geometry and every argument", "why_tests_cant": "All shapes.", "anchors": ["exact_diag/ed_spins.py:get_interaction_mat", "exact_diag/ed_spins.py:get_field_mat"]}
{"id": "C71", "title": "Counting pairs of excitations", "statement": "get_npairs_op is diagonal and counts, for every basis state, the selected pairs of sites with both spins up.", "quantifier": "for every number of sites, every selection of pairs, every basis state", "why_tests_cant": "All sizes and selections.", "anchors": ["exact_diag/ed_spins.py:get_npairs_op"]}
{"id": "C72", "title": "Ferromagnetic and single-excitation states", "statement": "The all-up and all-down states and the rows of the symmetric single-excitation state of find_special_states have the spins their names say.", "quantifier": "for every number of sites", "why_tests_cant": "All sizes.", "anchors": ["exact_diag/ed_spins.py:find_special_states"]}
{"id": "C73", "title": "Two-dimensional momentum sectors", "statement": "For two commuting transformations with T1^n1 = T2^n2 = 1 the list of projectors returned for two-dimensional translations has orthonormal rows which together are a basis of the space; every entry carries its two momenta, both transformations act by the corresponding phases, no pair of momenta is listed twice, no entry is empty, and any H commuting with both is block diagonal.", "quantifier": "for every n1, n2, dimension and pair of commuting phased permutations", "why_tests_cant": "All operators and sizes.", "anchors": ["exact_diag/ed_symmetry.py:get2DTranslationProjectors"]}
{"id": "C74", "title": "Reduced sub-cluster table of a cluster", "statement": "get_reduced_subclusters lists the connected sub-clusters of the parent once up to translation and point symmetry, ordered by size, and its table says how many connected proper sub-clusters of the first one are congruent to the second one.", "quantifier": "for every open geometry on distinct integer positions", "why_tests_cant": "Exponentially many sub-clusters; the averaging over orientations is exact only because congruent clusters contain the same numbers.", "anchors": ["exact_diag/ed_nlce.py:get_reduced_subclusters"]}
{"id": "C75", "title": "Sub-cluster table of all clusters", "statement": "With use_symmetry=True, get_all_clusters_with_subclusters returns the clusters of get_all_clusters and a strictly lower triangular table whose entries say how many connected proper parts of the first cluster are congruent to the second.", "quantifier": "for every maximum order on the square lattice", "why_tests_cant": "The table is filled from the largest clusters only; that every smaller cluster gets its row is a statement about all orders.", "anchors": ["exact_diag/ed_nlce.py:get_all_clusters_with_subclusters", "exact_diag/ed_nlce.py:map_between_cluster_bases"]}
{"id": "C76", "title": "Reduction by symmetry", "statement": "reduce_clusters_by_geometry keeps exactly one cluster of every class, assigns every cluster to the kept one congruent to it, and counts the members of each class.", "quantifier": "for the connected parts of every parent geometry on distinct integer positions, with and without point symmetry", "why_tests_cant": "All parents.", "anchors": ["exact_diag/ed_nlce.py:reduce_clusters_by_geometry"]}
{"id": "C77", "title": "Expectation values of any shape", "statement": "get_nlce_exp_val accepts arrays of expectation values of any shape whose first axis runs over the clusters.", "quantifier": "for every shape of the remaining axes", "why_tests_cant": "All shapes; the comment in the code promises it.", "anchors": ["exact_diag/ed_nlce.py:get_nlce_exp_val"]}
{"id": "C78", "title": "Thermal averages do not depend on the eigenbasis", "statement": "Two orthonormal eigenbases of the same Hermitian Hamiltonian (different order, different vectors within degenerate levels, different phases) give the same thermal expectation value of any operator.", "quantifier": "for every Hamiltonian, pair of eigenbases, operator and temperature", "why_tests_cant": "Library versions return different vectors for degenerate levels; a test sees one of them.", "anchors": ["exact_diag/ed_base.py:get_exp_vals_thermal"]}
{"id": "C79", "title": "Sparse diagonalisation finds the lowest levels", "statement": "diagH with use_sparse=True returns the neigs eigenpairs nearest the ground state, sorted.", "quantifier": "for every Hamiltonian and every iterative solver meeting its specification", "why_tests_cant": "All Hamiltonians.", "anchors": ["exact_diag/ed_base.py:diagH"]}
{"id": "C80", "title": "Norms of states", "statement": "get_norms returns the norm of every column of a matrix of states, or of a single vector.", "quantifier": "for every array of states", "why_tests_cant": "All states.", "anchors": ["exact_diag/ed_base.py:get_norms"]}
{"id": "C81", "title": "Weights of subspaces follow the Born rule", "statement": "get_subspace_overlaps with the projectors of get_subspace_projs of a diagonal operator gives, for every state, the probabilities of the values of the operator: each is the weight of the components with this value, they add up to the squared norm, and the average of the values is the expectation value of the operator.", "quantifier": "for every diagonal operator, every number of states", "why_tests_cant": "All operators and states.", "anchors": ["exact_diag/ed_base.py:get_subspace_overlaps", "exact_diag/ed_base.py:get_subspace_projs"]}
{"id": "C82", "title": "Retarded response", "statement": "get_response_fn_retarded evaluates the Lehmann representation of the imaginary part of the retarded (anti)commutator response, with delta functions broadened to Lorentzians, at every temperature.", "quantifier": "for all operators, non-degenerate ground state, temperatures, frequencies and broadenings", "why_tests_cant": "Continuous parameters; the zero-temperature branch is a separate formula.", "anchors": ["exact_diag/ed_base.py:get_response_fn_retarded"]}
{"id": "C83", "title": "Time-ordered response is continuous at zero temperature", "statement": "The zero-temperature value of get_response_fn_time_ordered is the limit of its values at low temperature.", "quantifier": "for all operators with non-degenerate ground state and all frequencies", "why_tests_cant": "A limit.", "anchors": ["exact_diag/ed_base.py:get_response_fn_time_ordered"]}
{"id": "C84", "title": "Weight of the optical conductivity", "statement": "integrate_conductivity is the Kubo sum over pairs of levels of different energy, is never negative, and its zero-temperature value is the limit of its values at low temperature.", "quantifier": "for every current operator, spectrum and temperature", "why_tests_cant": "A limit and all spectra.", "anchors": ["exact_diag/ed_fermions.py:integrate_conductivity"]}
{"id": "C85", "title": "Optical conductivity is even and not negative", "statement": "The function returned by get_optical_cond_fn takes the same value at w and -w and is not negative.", "quantifier": "for every current operator, spectrum, temperature, broadening and non-zero frequency", "why_tests_cant": "Continuous parameters.", "anchors": ["exact_diag/ed_fermions.py:get_optical_cond_fn"]}
{"id": "C86", "title": "Shape of evolved states", "statement": "For one initial state quench_time_evolve returns an array of shape (dimension, number of times).", "quantifier": "for every dimension and number of times", "why_tests_cant": "All shapes.", "anchors": ["exact_diag/ed_base.py:quench_time_evolve"]}
{"id": "C87", "title": "Site expectation values and correlators with projectors", "statement": "get_exp_vals_sites and get_corr_sites give the expectation values of the site operators in the state of the whole space which the projected state represents; by default all sites, and every unordered pair of sites (with itself) once.", "quantifier": "for every number of sites, operators, states and projector", "why_tests_cant": "All sizes and projectors.", "anchors": ["exact_diag/ed_base.py:get_exp_vals_sites", "exact_diag/ed_base.py:get_corr_sites"]}
{"id": "C88", "title": "Thermal weights", "statement": "get_thermal_weights divided by the partition function returned with them are the occupation probabilities of the levels: Boltzmann at finite temperature, uniform on the ground states at zero temperature, with and without the offset argument.", "quantifier": "for every sorted spectrum and temperature", "why_tests_cant": "All spectra.", "anchors": ["exact_diag/ed_base.py:get_thermal_weights"]}
{"id": "C89", "title": "Diagonalising sector by sector", "statement": "If the sectors of a symmetry split the space, the Hamiltonian is block diagonal in them, and it is diagonalised in each sector, then combining the thermal averages of the sectors gives the thermal average obtained by diagonalising the whole Hamiltonian, for any eigenbasis and any operator.", "quantifier": "for every dimension, Hamiltonian, splitting into non-empty sectors, operator (also one mixing sectors) and temperature", "why_tests_cant": "All splittings and operators.", "anchors": ["exact_diag/ed_base.py:get_exp_vals_thermal", "exact_diag/ed_base.py:thermal_avg_combine_sectors"]}
{"id": "C90", "title": "Zero-temperature Fermi function", "statement": "fermi at infinite inverse temperature is the limit of its values at low temperature, and the broadened derivatives of fermi_derivatives have the signs of a decreasing function of energy.", "quantifier": "for every chemical potential and energy", "why_tests_cant": "A limit; the derivative is only used with one sign.", "anchors": ["exact_diag/fermi_gas.py:fermi", "exact_diag/fermi_gas.py:fermi_derivatives"]}
{"id": "C91", "title": "Density and compressibility of the lattice gas", "statement": "fg_density is the mean thermal occupation of the modes of the periodic chain or square lattice, lies strictly between 0 and 1 and increases with the chemical potential; fg_compressibility is its derivative with respect to the chemical potential.", "quantifier": "for every number of sites from two up to 10^12 modes, both dimensions, every temperature and chemical potential", "why_tests_cant": "Continuous parameters, all sizes; derivative statement.", "anchors": ["exact_diag/fermi_gas.py:fg_density", "exact_diag/fermi_gas.py:fg_compressibility"]}
{"id": "C92", "title": "Lattices of a single site", "statement": "fg_density and the other lattice sums work for every positive number of sites.", "quantifier": "for every number of sites", "why_tests_cant": "All sizes.", "anchors": ["exact_diag/fermi_gas.py:fg_realspace_gfn", "exact_diag/fermi_gas.py:get_energy_spacing"]}
{"id": "C93", "title": "Chemical potential from the density", "statement": "The chemical potential returned by fg_mu has the requested density and is the only one which has it, for lattices of even size or densities other than one half.", "quantifier": "for every root finder that returns roots, number of sites, temperature and density", "why_tests_cant": "The solver is a black box; all temperatures.", "anchors": ["exact_diag/fermi_gas.py:fg_mu"]}
{"id": "C94", "title": "Relations between the Green's functions", "statement": "The greater and lesser functions of fg_realspace_gfn are the sums over modes of -i(1-f) and i f times the plane wave of the mode; their difference at equal times is the canonical anticommutator; retarded and advanced functions are step functions times their difference, and the time-ordered function is the greater one at later and the lesser one at earlier times.", "quantifier": "for every displacement, time, temperature, chemical potential and size", "why_tests_cant": "Continuous parameters.", "anchors": ["exact_diag/fermi_gas.py:fg_realspace_gfn", "exact_diag/fermi_gas.py:fg_kspace_gfns"]}
{"id": "C95", "title": "Equation of motion of the Green's functions", "statement": "The greater and lesser functions satisfy the equation of motion of a particle hopping with amplitude one between nearest neighbours, are anti-Hermitian under reversal of displacement and time, and each mode satisfies the detailed balance relation G< = -exp(-beta(E-mu)) G>.", "quantifier": "for every displacement, time, temperature, chemical potential and size", "why_tests_cant": "Derivative statement, continuous parameters.", "anchors": ["exact_diag/fermi_gas.py:fg_realspace_gfn", "exact_diag/fermi_gas.py:fg_kspace_gfns"]}
{"id": "C96", "title": "Derivative of the Green's functions by the chemical potential", "statement": "The second result of fg_realspace_gfn is the derivative of the first with respect to the chemical potential.", "quantifier": "for every type of Green's function, displacement, time and finite temperature", "why_tests_cant": "Derivative statement.", "anchors": ["exact_diag/fermi_gas.py:fg_realspace_gfn", "exact_diag/fermi_gas.py:fg_kspace_gfns"]}
{"id": "C97", "title": "Number fluctuations", "statement": "The correlations fg_corr summed over all displacements of the lattice give the number fluctuations per site, the mean of f(1-f), and beta times this sum is fg_compressibility.", "quantifier": "for every size, dimension, temperature and chemical potential", "why_tests_cant": "All sizes.", "anchors": ["exact_diag/fermi_gas.py:fg_corr", "exact_diag/fermi_gas.py:fg_compressibility"]}
{"id": "C98", "title": "Equivalent displacements", "statement": "Green's functions and fg_corr take the same value at displacements which lead to the same site of the periodic lattice; in one dimension only the first component of corr_index matters.", "quantifier": "for every size and pair of displacements", "why_tests_cant": "All displacements.", "anchors": ["exact_diag/fermi_gas.py:fg_corr", "exact_diag/fermi_gas.py:fg_realspace_gfn"]}
{"id": "C99", "title": "Static density response", "statement": "On the square lattice fg_density_response at zero frequency is real and negative at every wave vector, and at zero wave vector it is minus the compressibility, in both dimensions.", "quantifier": "for every size, temperature, chemical potential and wave vector", "why_tests_cant": "The limit replaces terms 0/0, which occur for some wave vectors only.", "anchors": ["exact_diag/fermi_gas.py:fg_density_response", "exact_diag/fermi_gas.py:fg_compressibility"]}
{"id": "C100", "title": "Two-species correlations", "statement": "fg_singles, fg_doubles, fg_singles_corr, fg_doubles_corr and fg_sz_corr are the averages and connected correlations of n_up + n_dn - 2 n_up n_dn, n_up n_dn and n_up - n_dn for two independent species with the densities fg_density and correlations fg_corr; for equal chemical potentials fg_sx_corr equals fg_sz_corr.", "quantifier": "for every size, temperature, displacement and pair of chemical potentials", "why_tests_cant": "Polynomial identities over all parameters.", "anchors": ["exact_diag/fermi_gas.py:fg_singles_corr", "exact_diag/fermi_gas.py:fg_doubles_corr", "exact_diag/fermi_gas.py:fg_sz_corr", "exact_diag/fermi_gas.py:fg_sx_corr"]}
{"id": "C101", "title": "Density of states", "statement": "get_dos returns non-negative numbers whose integral over the bins is the fraction of the energies within the range of the bins, hence one if all are.", "quantifier": "for every list of energies and strictly increasing bin edges", "why_tests_cant": "All lists.", "anchors": ["exact_diag/fermi_gas.py:get_dos"]}
{"id": "C102", "title": "Density of states of the lattice", "statement": "get_dos2 returns a density of states.", "quantifier": "for every number of sites", "why_tests_cant": "No test calls it.", "anchors": ["exact_diag/fermi_gas.py:get_dos2"]}
{"id": "C103", "title": "Overlaps of states", "statement": "get_overlaps returns the inner products of the first states with the second, the first one conjugated; if the first states are a complete basis, the squares of the moduli add up to the squared norms of the second.", "quantifier": "for all matrices of states of equal length", "why_tests_cant": "All states.", "anchors": ["exact_diag/ed_base.py:get_overlaps"]}
{"id": "C104", "title": "Ends and sign of the imaginary-time function", "statement": "get_grnfn_imagtime_spectralfn at tau = 0 plus (fermions) or minus (bosons) its value at tau = beta is minus the integral of the spectral function over 2 pi, and for fermions a non-negative spectral function gives a function that is nowhere positive.", "quantifier": "for every temperature, frequency grid and spectral function (for bosons grids avoiding zero)", "why_tests_cant": "Continuous parameters.", "anchors": ["exact_diag/greens_fns.py:get_grnfn_imagtime_spectralfn"]}
{"id": "C105", "title": "Imaginary time and frequency belong together", "statement": "get_grnfn_imagfrq_spectralfn at an allowed Matsubara frequency is the integral over 0..beta of exp(i w tau) times get_grnfn_imagtime_spectralfn, and get_noninteracting_gfn_imagfrq is the same transform of get_noninteracting_gfn_tau and equals 1/(i w - eps).", "quantifier": "for every temperature, Matsubara frequency, statistics, grid, spectral function and level", "why_tests_cant": "Integral over continuous time.", "anchors": ["exact_diag/greens_fns.py:get_grnfn_imagfrq_spectralfn", "exact_diag/greens_fns.py:get_grnfn_imagtime_spectralfn", "exact_diag/greens_fns.py:get_noninteracting_gfn_tau", "exact_diag/greens_fns.py:get_noninteracting_gfn_imagfrq"]}
{"id": "C106", "title": "Discrete transforms invert each other", "statement": "grnfn_imagtime_ft of grnfn_imagfrq_ft on equally spaced times from 0 to beta returns the data at the Matsubara frequencies, if there are no more frequencies than intervals.", "quantifier": "for every temperature, cutoff, data and number of times", "why_tests_cant": "Depends on the last digit of beta.", "anchors": ["exact_diag/greens_fns.py:grnfn_imagtime_ft", "exact_diag/greens_fns.py:grnfn_imagfrq_ft"]}
{"id": "C107", "title": "Periodicity and reality in imaginary time", "statement": "grnfn_imagfrq_ft is antiperiodic with period beta on fermion frequencies and periodic on boson frequencies; get_matsubara_frqs is symmetric about zero, and on symmetric frequencies data with G(-w) = conj G(w) give a real function.", "quantifier": "for every temperature, list of frequencies, data and time", "why_tests_cant": "Continuous parameters.", "anchors": ["exact_diag/greens_fns.py:grnfn_imagfrq_ft", "exact_diag/greens_fns.py:get_matsubara_frqs"]}
{"id": "C108", "title": "Spectral function of one level", "statement": "get_noninteracting_spectral_fn is positive, symmetric about the level with its maximum there and half of it at distance eta; its integral over any interval is below 2 pi and tends to 2 pi.", "quantifier": "for every level and positive eta", "why_tests_cant": "Limit of integrals.", "anchors": ["exact_diag/greens_fns.py:get_noninteracting_spectral_fn"]}
{"id": "C109", "title": "Hydrodynamic susceptibility", "statement": "chi_hydro is chi0 at zero frequency, chi(-w) is the conjugate of chi(w), it obeys (Gamma D - w^2 - i Gamma w) chi = Gamma D chi0 with D = d0 k^2 + d2 k^4, for infinite Gamma (D - i w) chi = D chi0, and it tends to the latter as Gamma grows.", "quantifier": "for every frequency, wave vector, chi0, d0, d2 with D not zero and Gamma not zero", "why_tests_cant": "Limit in a continuous parameter.", "anchors": ["exact_diag/greens_fns.py:chi_hydro"]}
{"id": "C110", "title": "Response in time", "statement": "phi_t and obs_kt are the trapezoidal inverse Fourier transforms of chi and of chi times the field; phi_t is real for chi(-w) = conj chi(w) on a symmetric grid; field_snap_off_w is the transform of a field h0 exp(eta t) that is switched off at time zero.", "quantifier": "for every grid, susceptibility, field and time", "why_tests_cant": "Improper integral.", "anchors": ["exact_diag/greens_fns.py:phi_t", "exact_diag/greens_fns.py:obs_kt", "exact_diag/greens_fns.py:field_snap_off_w"]}
{"id": "C111", "title": "Several processes give the same table", "statement": "Generating the clusters without subclusters, finding the subclusters of each cluster by one process per cluster and aggregating the files gives the counts get_all_clusters_with_subclusters gives, in whatever order the processes run and the files are found.", "quantifier": "for every order of the expansion, order of processes, order of files and distinct file names containing a number", "why_tests_cant": "All schedules.", "anchors": ["cluster/generate_clusters.py:generate_clusters_no_subs", "cluster/find_subclusters.py", "cluster/aggregate_subclusters.py"]}
{"id": "C112", "title": "Cluster files can be read by the last script", "statement": "The script aggregating the results of the expansion can read the cluster data written by the generating scripts.", "quantifier": "for every order of the expansion", "why_tests_cant": "Needs a whole run of the expansion.", "anchors": ["cluster/aggregate_results.py", "cluster/generate_clusters.py:generate_clusters", "cluster/aggregate_subclusters.py"]}
{"id": "C113", "title": "Accepted file names", "statement": "save accepts every file name ending in .pkl or .mat and no other.", "quantifier": "for every file name", "why_tests_cant": "All file names.", "anchors": ["exact_diag/ed_base.py:save"]}
{"id": "C114", "title": "Loaded models are independent", "statement": "Changing an attribute of one model never changes another, also after loading.", "quantifier": "for every sequence of attribute changes, saves and loads", "why_tests_cant": "Aliasing between objects over arbitrary histories.", "anchors": ["exact_diag/ed_base.py:save", "exact_diag/ed_base.py:load"]}
{"id": "C115", "title": "Failing operations do no harm", "statement": "A save or load that raises leaves the model and the files as they were.", "quantifier": "for every model, file system and file name", "why_tests_cant": "All failures.", "anchors": ["exact_diag/ed_base.py:save", "exact_diag/ed_base.py:load"]}
{"id": "C116", "title": "Matlab files", "statement": "A model saved to a .mat file and loaded has for every attribute whose name does not begin with an underscore the array savemat makes of it, and no attribute beginning with an underscore.", "quantifier": "for every model that savemat accepts and every file name", "why_tests_cant": "All models.", "anchors": ["exact_diag/ed_base.py:save", "exact_diag/ed_base.py:load"]}
{"id": "C117", "title": "Averages of free fermions", "statement": "Without interactions the thermal average of a density the library computes by exact diagonalization is the sum of Fermi functions weighted with the squared wave functions of one particle, of a bond operator c+ c the corresponding product, of two densities of one species it obeys Wick's theorem, and of densities of two species it is the product.", "quantifier": "for every non-interacting fermion system, number of sites and species, hopping, potential, pair of sites and temperature not zero, and any orthonormal eigenbasis of the many-particle and the one-particle Hamiltonian", "why_tests_cant": "All systems and eigenbases; the size of the matrices grows exponentially with the number of sites.", "anchors": ["exact_diag/ed_fermions.py:createH", "exact_diag/ed_base.py:get_exp_vals_thermal", "exact_diag/ed_base.py:get_two_site_op"]}
{"id": "C118", "title": "Energies of free fermions", "statement": "Without interactions the energies of the many-particle states are the sums of sets of one-particle levels, each exactly once; the partition function is the product of 1 + exp(-e/T) and the mean energy the sum of e times the Fermi function.", "quantifier": "for every non-interacting fermion system and temperature not zero", "why_tests_cant": "All systems and eigenbases.", "anchors": ["exact_diag/ed_fermions.py:createH", "exact_diag/ed_base.py:get_exp_vals_thermal", "exact_diag/ed_base.py:diagH"]}
{"id": "C119", "title": "Exact diagonalization and the Fermi gas agree", "statement": "For a periodic chain or square lattice without interactions the thermal density, density correlation, bond average and double occupancy computed by exact diagonalization are those of fg_density, fg_corr, the lesser Green's function at time zero and fg_doubles.", "quantifier": "for every chain or square lattice with at least two sites along each side, hopping, chemical potentials, number of species, sites and temperature not zero", "why_tests_cant": "Agreement of two independent computations for all sizes.", "anchors": ["exact_diag/ed_fermions.py:createH", "exact_diag/fermi_gas.py:fg_density", "exact_diag/fermi_gas.py:fg_corr", "exact_diag/fermi_gas.py:fg_realspace_gfn", "exact_diag/fermi_gas.py:fg_doubles"]}
{"id": "C120", "title": "Hubbard models have eigenbases", "statement": "Every Hubbard model with real parameters on a rectangular lattice can be constructed, its Hamiltonian is returned, and it has an orthonormal basis of eigenvectors with real energies; the same holds for every Hermitian matrix.", "quantifier": "for every lattice size, boundary condition, interaction, hopping, number of species (two or more if interacting) and chemical potentials", "why_tests_cant": "All sizes and real parameters.", "anchors": ["exact_diag/ed_fermions.py:__init__", "exact_diag/ed_fermions.py:createH", "exact_diag/ed_base.py:diagH"]}
{"id": "C121", "title": "Averages of many sites", "statement": "get_thermal_exp_sites and get_thermal_corr_sites return one row per site (pair) and one column per temperature, in the order of the sites and temperatures, each entry the thermal average of the operator of that site (pair), at temperature zero over the ground states; without given sites they cover every site (every pair once); a shorter second list of sites raises IndexError.", "quantifier": "for every eigenbasis, projector, list of temperatures and list of sites", "why_tests_cant": "All systems, lists and temperatures.", "anchors": ["exact_diag/ed_base.py:get_thermal_exp_sites", "exact_diag/ed_base.py:get_thermal_corr_sites"]}
{"id": "C122", "title": "Partition function of a Hamiltonian", "statement": "get_partition_fn_hamiltonian returns the sum of exp(-beta E) over the energies, the same number get_partition_fn has for the energies.", "quantifier": "for every Hermitian matrix, sparse or dense, and every beta", "why_tests_cant": "All matrices; the answer depends on the kind of matrix given.", "anchors": ["exact_diag/ed_base.py:get_partition_fn_hamiltonian"]}
{"id": "C123", "title": "Operators with a wave vector", "statement": "get_sum_op_q returns the sum over the sites of exp(i q r) times the operator of the site; at q = 0 it is get_sum_op, for -q and the adjoint operator the adjoint, on integer locations it does not change when q changes by multiples of 2 pi; on a periodic lattice the inverse Fourier sum over its momenta returns the operator of each site, and for fermions operators of different momenta anticommute like independent modes.", "quantifier": "for every two-state system, operator, species, format, locations and wave vectors; every ring and periodic square", "why_tests_cant": "All sizes, locations and real wave vectors.", "anchors": ["exact_diag/ed_base.py:get_sum_op_q", "exact_diag/ed_base.py:get_sum_op"]}
{"id": "C124", "title": "Regular polygons", "statement": "createRegularPolygonGeometry places the sites with neighbouring corners at distance one and all others farther, and the adjacency matrix is one exactly for pairs at distance one; fewer than two sides raise IndexError.", "quantifier": "for every number of sides", "why_tests_cant": "All numbers of sides and real trigonometry.", "anchors": ["exact_diag/ed_geometry.py:createRegularPolygonGeometry"]}
{"id": "C125", "title": "Interactions that decay with distance", "statement": "get_interaction_mat_c6 returns C6 / d^6 for sites at distance d up to the cutoff and zero beyond it and on the diagonal.", "quantifier": "for every geometry, C6 and cutoff", "why_tests_cant": "All geometries; every call raises.", "anchors": ["exact_diag/ed_spins.py:get_interaction_mat_c6"]}
{"id": "C126", "title": "Sites moved by symmetries of rectangular lattices", "statement": "getRotFn, getReflFn, getInversionFn and getTranslFn about the centre of a rectangular lattice are its turns by a quarter, mirror images, half turn and shifts; findSiteCycles accepts every motion that takes the lattice to itself, with open or periodic sides and any phases, even if the map is off by rounding errors below 5e-15, and returns the cycles of sites and the order of the motion, which is at most the number of sites; neighbouring sites go to neighbouring sites.", "quantifier": "for every size, boundary, motion and map", "why_tests_cant": "All sizes and motions; an exception is raised if the order exceeds the number of sites.", "anchors": ["exact_diag/ed_symmetry.py:findSiteCycles", "exact_diag/ed_symmetry.py:getTransformedSites", "exact_diag/ed_symmetry.py:getRotFn", "exact_diag/ed_symmetry.py:getReflFn", "exact_diag/ed_symmetry.py:getInversionFn", "exact_diag/ed_symmetry.py:getTranslFn", "exact_diag/ed_geometry.py:Geometry.createSquareGeometry"]}
{"id": "C127", "title": "Symmetry sectors of the Hubbard model on a lattice", "statement": "For a motion of a rectangular lattice the operator of get_xform_op on fermions is a signed permutation that commutes with the Hubbard Hamiltonian; getZnProjectors splits the states into as many sectors as the order of the motion, none of them empty, one for each power of the root of unity, the Hamiltonian is block diagonal, and createH with a sector's projector is the Hermitian block of that sector.", "quantifier": "for every lattice, boundary, motion, number of species and couplings", "why_tests_cant": "All sizes; a missing fermion sign shows only for particular fillings.", "anchors": ["exact_diag/ed_base.py:get_xform_op", "exact_diag/ed_symmetry.py:getZnProjectors", "exact_diag/ed_fermions.py:fermions.createH", "exact_diag/ed_fermions.py:fermions.get_swap_op"]}
{"id": "C128", "title": "Thermal averages from symmetry sectors", "statement": "Diagonalizing a Hubbard lattice sector by sector of a lattice symmetry and combining the thermal averages of an operator with thermal_avg_combine_sectors gives the average from diagonalizing the whole Hamiltonian.", "quantifier": "for every lattice, motion, couplings, operator and temperature", "why_tests_cant": "All lattices and real temperatures.", "anchors": ["exact_diag/ed_base.py:thermal_avg_combine_sectors", "exact_diag/ed_base.py:get_exp_vals_thermal", "exact_diag/ed_fermions.py:fermions.createH"]}
{"id": "C129", "title": "Point groups of lattices", "statement": "The operators of the half turn and of the mirror image of a rectangular lattice, of the quarter turn and the mirror image of a square lattice, and of the turn, mirror image and shifts of the three by three torus, satisfy the relations of their groups on the fermion states with all signs, and getD2Projectors, getD4Projectors and getC4V_and_3byb3 called with them split the states into sectors in which the Hubbard Hamiltonian is block diagonal.", "quantifier": "for every size, number of species and couplings", "why_tests_cant": "All sizes; fermion signs could turn the relations into projective ones.", "anchors": ["exact_diag/ed_symmetry.py:getD2Projectors", "exact_diag/ed_symmetry.py:getD4Projectors", "exact_diag/ed_symmetry.py:getC4V_and_3byb3", "exact_diag/ed_base.py:get_xform_op"]}
{"id": "C130", "title": "Half filling of bipartite lattices", "statement": "If the sites fall in two classes with hopping only between them and the chemical potential of every species balances the mean interaction (on a rectangular lattice mu = potential + U/2), the thermal average of every density is exactly 1/2 and of every hop c+ c between different sites of one class exactly 0.", "quantifier": "for every such system, lattice with open or even periodic sides, hopping, interaction, number of species, site and temperature, and any orthonormal eigenbasis", "why_tests_cant": "All systems and temperatures; an exact value that no reference computation shares.", "anchors": ["exact_diag/ed_fermions.py:createH", "exact_diag/ed_base.py:get_exp_vals_thermal", "exact_diag/ed_base.py:get_single_site_op", "exact_diag/ed_base.py:get_two_site_op"]}
{"id": "C131", "title": "Sites related by a symmetry have equal averages", "statement": "On a rectangular lattice the thermal average of a density, of a density correlation or of a hop is unchanged when all sites are moved by a motion that takes the lattice to itself; with periodic sides every site has the same density.", "quantifier": "for every Hubbard model on a lattice, motion, site, pair of sites and temperature, and any orthonormal eigenbasis", "why_tests_cant": "All lattices, motions and eigenbases; within degenerate levels the eigenvectors a solver returns are not symmetric.", "anchors": ["exact_diag/ed_fermions.py:createH", "exact_diag/ed_base.py:get_exp_vals_thermal", "exact_diag/ed_base.py:get_single_site_op", "exact_diag/ed_base.py:get_two_site_op"]}
{"id": "C132", "title": "Rotations of the spin", "statement": "If the first two species have the same hopping, potential and chemical potential and no interactions within a species, the sum over the sites of c+_0 c_1 commutes with the Hamiltonian, the two species have equal densities and hop averages, and the correlation of spins of two sites is the same along all axes: <(n_i0 - n_i1)(n_j0 - n_j1)> = 2 <c+_i0 c_i1 c+_j1 c_j0>.", "quantifier": "for every such system, any number of further species, pair of sites and temperature, and any orthonormal eigenbasis", "why_tests_cant": "All systems and temperatures; wrong relative signs of the species break it.", "anchors": ["exact_diag/ed_fermions.py:createH", "exact_diag/ed_base.py:get_exp_vals_thermal", "exact_diag/ed_base.py:get_two_site_op"]}
{"id": "C133", "title": "Chains of spins 1/2 are chains of fermions", "statement": "createH of a chain of spins 1/2 with couplings Jx = Jy = -t and Jz = V/2 between sites that follow each other and a field along z that balances potential, chemical potential and neighbours equals createH of spinless fermions with hopping t and interaction V on the same chain up to a constant, entry by entry in the same order of states; energies differ by that constant, thermal averages of every operator agree, and <Sz> = 1/2 - <n>. For every open chain of createSquareGeometry the two constructors give such a pair.", "quantifier": "for every chain length, couplings (also different on every bond and site), operator and temperature, and any orthonormal eigenbases", "why_tests_cant": "All lengths and couplings; the two Hamiltonians are built by different code with different sign conventions.", "anchors": ["exact_diag/ed_spins.py:spinSystem.createH", "exact_diag/ed_fermions.py:fermions.createH", "exact_diag/ed_base.py:get_exp_vals_thermal", "exact_diag/ed_base.py:get_single_site_op"]}
{"id": "C134", "title": "Free particles on rectangles with open or closed sides", "statement": "Without interactions the energies of a rectangular lattice, with each side open or closed, are all sums of the levels v - mu - t (l_a + m_b), where l and m are 2 cos(pi (a+1)/(n+1)) for an open side or a side of two sites and 2 cos(2 pi a/n) for a closed side; densities, hops and density correlations at temperature T are those of standing and running waves filled by the Fermi function.", "quantifier": "for every size, boundary, hopping, chemical potential, potential, number of species, sites and temperature, and any orthonormal eigenbasis", "why_tests_cant": "All sizes and real couplings; boundary bonds and sides of two sites are easy to get wrong.", "anchors": ["exact_diag/ed_fermions.py:fermions.createH", "exact_diag/ed_geometry.py:Geometry.createSquareGeometry", "exact_diag/ed_base.py:get_exp_vals_thermal", "exact_diag/ed_base.py:get_two_site_op"]}
{"id": "C135", "title": "Open chains of spins coupled along x and y", "statement": "The energies of an open chain of n spins 1/2 with Jx = Jy = j, Jz = 0 and a field h along z are the sums of the sub-collections of the n levels h + 2 j cos(pi (a+1)/(n+1)), less n h/2; <Sz_i> and <Sz_i Sz_k> at temperature T are those of standing waves filled by the Fermi function, with <Sz_i Sz_k> - <Sz_i><Sz_k> = -G_ik^2.", "quantifier": "for every chain length, coupling, field, sites and temperature, and any orthonormal eigenbasis", "why_tests_cant": "All lengths and real couplings: an exact solution of an interacting model.", "anchors": ["exact_diag/ed_spins.py:spinSystem.createH", "exact_diag/ed_spins.py:spinSystem.__init__", "exact_diag/ed_base.py:get_exp_vals_thermal", "exact_diag/ed_base.py:get_two_site_op"]}
{"id": "C136", "title": "Particles that do not interact at zero temperature", "statement": "Without interactions the lowest energy is the sum of the negative levels of the one-particle matrices, it occurs 2^z times where z is the number of levels at exactly zero, and get_exp_vals_thermal at temperature zero gives densities, hops and density correlations of levels that are full below zero, empty above and half full at zero.", "quantifier": "for every system without interactions, number of species, sites, and any sorted orthonormal eigenbasis", "why_tests_cant": "All systems; the average over degenerate ground states is a separate branch of the code and no finite set of systems settles it.", "anchors": ["exact_diag/ed_fermions.py:createH", "exact_diag/ed_base.py:get_exp_vals_thermal", "exact_diag/ed_base.py:diagH"]}
{"id": "C137", "title": "Zero temperature agrees with the formulas for the Fermi gas", "statement": "At temperature zero the densities, density correlations, hops and double occupancies of the many-particle Hamiltonian of a closed chain or square lattice without interactions equal fg_density, fg_corr, the equal-time lesser Green's function and fg_doubles at beta = inf.", "quantifier": "for every number of sites, hopping t > 0, chemical potentials and sites", "why_tests_cant": "Two independent parts of the library must agree for all sizes and chemical potentials. False when a level lies exactly at the chemical potential: the formulas count it as full, the average over the ground states as half full.", "anchors": ["exact_diag/ed_base.py:get_exp_vals_thermal", "exact_diag/fermi_gas.py:fermi", "exact_diag/fermi_gas.py:fg_density", "exact_diag/fermi_gas.py:fg_corr", "exact_diag/fermi_gas.py:fg_doubles"]}
{"id": "C138", "title": "A site without bonds", "statement": "A site of a Hubbard model without hopping to other sites and without interaction with them has at every temperature the density and double occupancy of a single site with four states, and its densities are uncorrelated with those of any other site.", "quantifier": "for every system, site without bonds, couplings elsewhere, number of further species and temperature, and any orthonormal eigenbasis", "why_tests_cant": "All couplings of the other sites; the exact atomic limit.", "anchors": ["exact_diag/ed_fermions.py:createH", "exact_diag/ed_base.py:get_exp_vals_thermal", "exact_diag/ed_base.py:get_two_site_op"]}
{"id": "C139", "title": "Pairs of particles on bipartite lattices", "statement": "If two species of a Hubbard model hop with equal amplitudes between two classes of sites only, and a pair on one site costs the same energy e everywhere, then adding the staggered pair to an eigenstate of energy x gives a state of energy x + e or zero; the staggered sum of the pair correlations is fixed by the density, 1 - n_up - n_down = (exp(e/T) - 1) sum of (+-) <pair_i^+ pair_j>; and for e = 0 the correlations of the charges are +-2 times those of the pairs, at zero temperature too. Open rectangular lattices and closed ones with even sides with equal amplitudes are such models.", "quantifier": "for every lattice, coupling, site pair, temperature and orthonormal eigenbasis", "why_tests_cant": "An exact relation between interacting averages on lattices of any size; a sign or an operator order wrong anywhere breaks it.", "anchors": ["exact_diag/ed_fermions.py:createH", "exact_diag/ed_base.py:get_two_site_op", "exact_diag/ed_base.py:get_single_site_op", "exact_diag/ed_base.py:get_exp_vals_thermal"]}
{"id": "C140", "title": "Thermal averages as functions of temperature and chemical potential", "statement": "The thermal average of an operator O is differentiable in the temperature with slope (<H O> - <H><O>)/T^2 and in the chemical potential of a species with slope (<N O> - <N><O>)/T; the energy never falls when the temperature rises and the number of particles of a species never falls when its chemical potential rises; at high temperature the average tends to the trace over the number of states.", "quantifier": "for every Hamiltonian and eigenbasis (temperature), every system of fermions with real couplings (chemical potential), every operator and temperature other than zero", "why_tests_cant": "Derivatives and monotonicity over all real parameters; the eigenbases at different chemical potentials are unrelated.", "anchors": ["exact_diag/ed_base.py:get_exp_vals_thermal", "exact_diag/ed_fermions.py:createH", "exact_diag/ed_base.py:get_sum_op", "exact_diag/ed_base.py:diagH"]}
{"id": "C141", "title": "Number of sites of a lattice cell", "statement": "A cell spanned by n v1 + m v2 and i v1 + j v2 has |n j - m i| sites for each basis vector. createTriangleGeometry(n1, n2) lists the n1 n2 points a v1 + b v2 with 0 <= a < n1, 0 <= b < n2, createHexagonalGeometry(n1, n2) the 4 n1 n2 corners of hexagons in its rectangle and createTiltedSquareGeometry(r, u) the r^2 + u^2 integer points of the tilted square, each exactly once.", "quantifier": "for every lattice, basis, pair of periodicity vectors and size", "why_tests_cant": "All sizes: sites on the border of the cell and rounding decide whether one is missed or listed twice.", "anchors": ["exact_diag/ed_geometry.py:Lattice.get_unique_sites", "exact_diag/ed_geometry.py:Geometry.createTriangleGeometry", "exact_diag/ed_geometry.py:Geometry.createHexagonalGeometry", "exact_diag/ed_geometry.py:Geometry.createTiltedSquareGeometry"]}
{"id": "C142", "title": "Neighbours on triangular, hexagonal and tilted lattices", "statement": "Two sites of a triangular, hexagonal or tilted square lattice are connected exactly when one of the steps of length one of the lattice leads from one to the other, up to the periods of the closed axes.", "quantifier": "for every size, boundary and pair of sites", "why_tests_cant": "All sizes. False for the triangular and hexagonal constructors: with the double-precision sqrt(3)/2, sites of the fourth and fifth rows are not connected because positions are rounded before distances are taken, and on the 2 x 2 triangular torus some neighbours are missed.", "anchors": ["exact_diag/ed_geometry.py:Geometry.createTriangleGeometry", "exact_diag/ed_geometry.py:Geometry.createHexagonalGeometry", "exact_diag/ed_geometry.py:Geometry.createTiltedSquareGeometry", "exact_diag/ed_geometry.py:Geometry.create_lattice_geom", "exact_diag/ed_geometry.py:Lattice.get_reduced_distance"]}
{"id": "C143", "title": "Thermodynamics of one cluster", "statement": "For a cluster of spins the script reports, at each temperature, the mean energy, the entropy -sum p ln p and the variance of the energy over T^2. The energy rises with temperature, the slope of the energy is the specific heat and the slope of the entropy is the specific heat over T; the entropy lies between 0 and the logarithm of the number of states; at high temperature energy and entropy tend to the mean of the levels and to ln of their number, at low temperature to the lowest level and to ln of its degeneracy. None of them depends on the eigenvectors chosen, and independent clusters add.", "quantifier": "for every cluster, temperature and eigendecomposition", "why_tests_cant": "All clusters, real temperatures and limits. False as a script: it raises AttributeError for every cluster of two sites or more, because it calls getTwoSiteOp, which does not exist.", "anchors": ["cluster/diag_cluster.py:diag_cluster", "exact_diag/ed_base.py:get_exp_vals_thermal", "exact_diag/ed_spins.py:createH"]}
{"id": "C144", "title": "Linked cluster sums of sums over parts", "statement": "If the value of every cluster is a sum, over its connected parts, of a quantity that does not change under translations, rotations and reflections, then the weight found for each cluster is that quantity itself, and the sum of each order is the sum over the clusters of that order times the number of their orientations. In particular a value of p per site and q per bond gives p at first order, 2 q at second order and nothing at higher orders: the value per site of the infinite square lattice, p + 2 q.", "quantifier": "for every order, quantity and list of values", "why_tests_cant": "All orders: the numbers of clusters and parts must agree exactly for the higher orders to cancel.", "anchors": ["exact_diag/ed_nlce.py:get_nlce_exp_val", "exact_diag/ed_nlce.py:get_all_clusters_with_subclusters"]}
{"id": "C145", "title": "Responses to changes of couplings", "statement": "The energy of any state is at least the lowest energy. When the Hamiltonian changes from H1 to H2, the free energy changes by at most the thermal average of H2 - H1 before and at least the same average after the change; so does the lowest energy at zero temperature; the average of H2 - H1 never rises; free energy and lowest energy are concave between two Hamiltonians. For the Hubbard model this means that pairs of particles never become more frequent when the interaction rises, that density never rises where the potential rises, and that the free energy changes by the interaction times the number of pairs within these bounds; for spins 1/2 the moments follow the field.", "quantifier": "for every pair of Hamiltonians with eigendecompositions, every lattice, interaction, potential, field and temperature", "why_tests_cant": "Inequalities between eigendecompositions of different matrices, for all couplings at once.", "anchors": ["exact_diag/ed_base.py:get_exp_vals_thermal", "exact_diag/ed_fermions.py:createH", "exact_diag/ed_spins.py:createH", "exact_diag/ed_base.py:get_two_site_op"]}
{"id": "C146", "title": "Ground states without nodes and signs of correlations", "statement": "If the off-diagonal entries of the Hamiltonian all lower the energy for one choice of signs of the basis states, thermal averages of operators with these signs are never negative; if moreover every two basis states are joined, the lowest energy belongs to a single state, which vanishes at no basis state and has the chosen signs up to one phase. For spins 1/2 on two kinds of sites, with antiferromagnetic couplings between the kinds and ferromagnetic ones within, the moment along x never points against the field, the correlation along x has the sign of the two kinds and is at least as large as the correlation along y; with a field along x at every site the ground state is unique and without nodes, and the moments at zero temperature do not vanish.", "quantifier": "for every such Hamiltonian with an eigendecomposition, every lattice, couplings, fields and temperature", "why_tests_cant": "Signs of all components of eigenvectors, for all couplings at once.", "anchors": ["exact_diag/ed_spins.py:createH", "exact_diag/ed_base.py:get_exp_vals_thermal", "exact_diag/ed_base.py:get_two_site_op", "exact_diag/ed_base.py:get_single_site_op"]}
{"id": "C147", "title": "One ground state for every number of flipped spins", "statement": "For spins 1/2 without frustration, with equal couplings along x and y and no transverse fields, on a connected lattice, the Hamiltonian restricted to configurations with a given number of flipped spins has a single lowest state; every configuration appears in it, with the sign given by the sublattices. Ground states of two such systems with the same sublattices are never orthogonal. The restriction is the one made by the projectors onto values of the total moment. If the couplings are ferromagnetic and the same along all axes, the lowest energy is half the sum of the couplings for every number of flipped spins, reached only by the sum of all configurations. A state with the right signs everywhere that has a definite energy is the ground state.", "quantifier": "for every connected lattice, couplings, number of flipped spins and eigendecomposition", "why_tests_cant": "Degeneracies and signs of eigenvectors in every sector, for all lattices and couplings.", "anchors": ["exact_diag/ed_spins.py:createH", "exact_diag/ed_base.py:get_subspace_projs", "exact_diag/ed_base.py:get_sum_op"]}
{"id": "C148", "title": "One ground state for fermions whose hops pass an even number of particles", "statement": "Fermions of any number of species, with any interactions, chemical potentials and site potentials, restricted to a given number of particles of every species. Suppose amplitudes are real, positive within the kinds of sites and negative between them, every hop passes an even number of particles of its species (neighbours along an open chain; the closing bond of a ring when the number of particles is odd; anything for a single particle), and hops connect all sites. Then the Hamiltonian has a single lowest state; every configuration appears in it, with the sign given by the kinds of the occupied sites. Ground states of two such systems are never orthogonal, whatever the interactions. Averages of such hops have the sign given by the kinds at every temperature. The restriction is the one made by the projectors onto particle numbers. The numbers must be odd on rings: two particles on a ring of four sites have more than one ground state.", "quantifier": "for every number of sites, species and particles, amplitudes, interactions, potentials, temperature and eigendecomposition", "why_tests_cant": "Degeneracies and signs of many-body eigenvectors and averages, for all numbers of particles and interactions.", "anchors": ["exact_diag/ed_fermions.py:createH", "exact_diag/ed_fermions.py:get_kinetic_op", "exact_diag/ed_fermions.py:__init__", "exact_diag/ed_base.py:get_two_site_op", "exact_diag/ed_base.py:get_exp_vals_thermal"]}
{"id": "C149", "title": "Total spin and degeneracy of antiferromagnets on two kinds of sites", "statement": "Spins 1/2 with couplings equal along the three axes and no fields. The Hamiltonian commutes with the three components of the total spin; the lowest energy among states with m flipped spins does not rise as m grows to half the number of sites, and is the same for m and n - m. If in addition the sites are of two kinds, A and B in number, with antiferromagnetic couplings between kinds and ferromagnetic ones within, linking all sites, then: up to the smaller of A and B the lowest energy falls strictly with m and its state has total spin n/2 - m; beyond, it is constant; the ground states of the whole system have total spin |A - B| / 2, there are exactly |A - B| + 1 of them in any eigendecomposition, those with the same moment along z agree up to a factor, and for A = B the single ground state is annihilated by all three components of the total spin.", "quantifier": "for every number of sites, couplings, kinds, sector and eigendecomposition", "why_tests_cant": "Degeneracies and quantum numbers of many-body ground states for all clusters and couplings.", "anchors": ["exact_diag/ed_spins.py:createH", "exact_diag/ed_spins.py:__init__", "exact_diag/ed_base.py:get_sum_op", "exact_diag/ed_base.py:get_subspace_projs"]}
{"id": "C150", "title": "Ground states of fermions that attract each other", "statement": "Two species with the same real hopping, energies and interactions within the species, linking all sites, that attract each other on every site, with M particles of each species. There is one ground state, whatever the signs of the hopping and the geometry. Its amplitudes, as a matrix over the configurations of the two species, are symmetric and positive definite up to one factor, and the ground states are the multiples of it. In it pairs hop coherently: the average of moving one particle of each species from site j to site i is not negative. The density correlations between the species form a matrix without negative directions. If there are no interactions within a species, raising and lowering the total spin annihilate it: the total spin is zero.", "quantifier": "for every number of sites, geometry, couplings, number of particles and eigendecomposition", "why_tests_cant": "Uniqueness, total spin and signs of correlations of interacting ground states for all lattices and couplings; tests can diagonalise a few small clusters.", "anchors": ["exact_diag/ed_fermions.py:createH", "exact_diag/ed_fermions.py:__init__", "exact_diag/ed_fermions.py:get_u_interspecies_op", "exact_diag/ed_base.py:get_two_site_op"]}
{"id": "C151", "title": "Geometries are built from sensible matrices only", "statement": "Every geometry that the constructors return, with a lattice or without, has as many rows and columns of the adjacency and phase matrices as sites, an adjacency matrix that is symmetric and consists of zeros and ones, and a phase matrix of numbers of modulus one that are complex conjugate for the two directions of a bond, up to half a unit of the fourteenth decimal. Matrices given for an open geometry are accepted and stored unchanged exactly if they have these properties; otherwise ValueError is raised. Without matrices every list of coordinates is accepted.", "quantifier": "for every list of sites, lattice, adjacency matrix and phase matrix", "why_tests_cant": "Acceptance exactly of the valid inputs among all matrices of all sizes.", "anchors": ["exact_diag/ed_geometry.py:__init__", "exact_diag/ed_geometry.py:validate_instance", "exact_diag/ed_geometry.py:validate_adjacency_mat", "exact_diag/ed_geometry.py:validate_phase_mat"]}
{"id": "C152", "title": "Sites reduced to the cell of a lattice", "statement": "reduce_to_unit_cell of a lattice moves every site by the reported integer multiples of the two periodicity vectors, maps sites that differ by such multiples to the same point, and leaves its own results where they are, reporting zero multiples.", "quantifier": "for every lattice with independent (or zero) periodicity vectors, mode and list of sites", "why_tests_cant": "Canonical forms for all sites and lattices.", "anchors": ["exact_diag/ed_geometry.py:reduce_to_unit_cell", "exact_diag/ed_geometry.py:reduce_vectors"]}
{"id": "C153", "title": "Magnetic response of a Fermi gas on the square lattice", "statement": "fg_magnetic_response in two dimensions is the Lindhard sum over the square lattice, with the limit where energies coincide; at zero frequency without broadening it is real and negative at every temperature, chemical potential and wave vector.", "quantifier": "for every size, temperature, chemical potential, wave vector, frequency and broadening", "why_tests_cant": "An identity and a sign for all arguments.", "anchors": ["exact_diag/fermi_gas.py:fg_magnetic_response", "exact_diag/fermi_gas.py:fg_density_response"]}
{"id": "C154", "title": "Ground states of fermions that repel each other, as many particles as sites", "statement": "Two species with the same real hopping, which links all sites and joins sites of two different kinds only, no interaction within a species, and repulsion between the species on every site; the potential makes up for differences of the repulsion from site to site. There are M particles of the first species and as many of the second as there are other sites. There is one ground state. Its amplitudes, as a matrix over the particles of the first species and the holes of the second, are a fixed sign times a symmetric positive definite matrix, and the ground states are the multiples of it. In it spins of sites of one kind point in the same direction and spins of sites of different kinds in opposite ones: the average of raising the spin of one site and lowering that of another has that sign. Every site carries one particle on average.", "quantifier": "for every number of sites, geometry, division into two kinds, couplings, number of particles of the first species and eigendecomposition", "why_tests_cant": "Uniqueness, magnetic order and density of interacting ground states for all lattices and couplings; tests can diagonalise a few small clusters.", "anchors": ["exact_diag/ed_fermions.py:createH", "exact_diag/ed_fermions.py:__init__", "exact_diag/ed_fermions.py:get_n_projector", "exact_diag/ed_base.py:get_two_site_op", "exact_diag/ed_base.py:get_single_site_op"]}
{"id": "C155", "title": "Total spin of fermions that repel each other, as many particles as sites", "statement": "The systems of C154, with two species of equal parameters; A and B are the numbers of sites of the two kinds, n their sum. With M particles of the first species and n - M of the second, the ground state has total spin S(M), the larger of |M - n/2| and |A - B| / 2: no smaller spin is possible with these numbers of particles, or the kinds of sites are out of balance. The lowest energy depends on M through S(M) only and rises strictly with it. So the lowest states with n particles altogether have total spin |A - B| / 2, and there is one for each of the |A - B| + 1 values of M that permit this spin. The total spin is formed from the operators that turn a particle of one species into one of the other on every site and from the numbers of particles.", "quantifier": "for every number of sites, geometry, division into two kinds, couplings, pair of sectors and eigendecomposition", "why_tests_cant": "Quantum numbers and degeneracies of interacting ground states for all lattices and couplings; tests can diagonalise a few small clusters.", "anchors": ["exact_diag/ed_fermions.py:createH", "exact_diag/ed_fermions.py:__init__", "exact_diag/ed_fermions.py:get_n_projector", "exact_diag/ed_base.py:get_two_site_op", "exact_diag/ed_base.py:get_sum_op"]}
{"id": "C156", "title": "The current operator is the rate of change of the position", "statement": "get_current_op along a direction is i times the commutator of the Hamiltonian with the position, the sum over the particles of their coordinate along this direction, and it is Hermitian. This holds on clusters with open boundaries whose neighbours are one apart along one axis. It is false as the code stands, because the method reads the attributes tx and ty, which no constructor sets, so it raises AttributeError; it is true after a caller has assigned the amplitudes of the two axes to them.", "quantifier": "for every open cluster, number of species, amplitudes along the axes, interactions, potentials and direction", "why_tests_cant": "An operator identity on clusters of any size; tests can only compare matrices of small clusters, and none exists.", "anchors": ["exact_diag/ed_fermions.py:get_current_op", "exact_diag/ed_fermions.py:createH", "exact_diag/ed_base.py:get_two_site_op"]}
{"id": "C157", "title": "Sum rule of the optical conductivity", "statement": "On open clusters the weight of the optical conductivity along an axis, integrate_conductivity of the matrix elements of the current, equals -pi times the thermal average of get_kinetic_op along this axis divided by the number of sites, in every sector of configurations, at every temperature other than zero and, if the ground state is unique, at zero temperature. So the Drude weight formed in examples/measure_current_hubbard.py, the difference of the two, vanishes on open clusters. The kinetic energy along each axis is never positive on average at temperatures above zero, and none of these functions raises an exception.", "quantifier": "for every open cluster, amplitudes, interactions, sector, eigendecomposition, axis and temperature", "why_tests_cant": "Relates two thermal averages through the completeness of the spectrum; tests see single numbers.", "anchors": ["exact_diag/ed_fermions.py:get_current_op", "exact_diag/ed_fermions.py:get_kinetic_op", "exact_diag/ed_fermions.py:integrate_conductivity", "exact_diag/ed_base.py:get_exp_vals_thermal", "exact_diag/ed_base.py:get_matrix_elems"]}
{"id": "C158", "title": "Centre of mass of a geometry", "statement": "get_center_of_mass returns the one point from which the displacements of the sites add up to zero, which is also the point with the smallest sum of squared distances from the sites. It does not depend on the order of the sites: after permute_sites it is the same point.", "quantifier": "for every geometry with at least one site and every permutation", "why_tests_cant": "Optimality among all points and independence of the numbering for all geometries; there is no test of this method.", "anchors": ["exact_diag/ed_geometry.py:get_center_of_mass", "exact_diag/ed_geometry.py:permute_sites"]}
{"id": "C159", "title": "Sectors inside sectors of a ring of spins", "statement": "Projecting one after another on total magnetisation, momentum, parity under reversal of all spins (magnetisation zero only) and parity under inversion (momentum 0 and pi only), as the chain example does, gives non-empty sectors whose states are orthonormal and together a basis of the whole space. The numbers kept with a sector are right for its states: the magnetisation, the momentum 2 pi l / n with translation acting as exp(-ik), and parities +-1 or the placeholder 0 where the operator is not used; no two sectors carry the same four numbers. Every Hamiltonian that commutes with the four operators has no matrix elements between different sectors.", "quantifier": "for every ring length n >= 1 and all matrices that are a diagonal magnetisation and permutations of basis states with the relations of a ring", "why_tests_cant": "Momentum and inversion do not commute, and the reversal of all spins changes the magnetisation, so the order of projections and the restrictions matter; an example run checks one length.", "anchors": ["examples/heisenberg_chain.py", "exact_diag/ed_symmetry.py:getZnProjectors", "exact_diag/ed_base.py:get_subspace_projs"]}
{"id": "C160", "title": "Energies of the sectors are the energies of the whole", "statement": "If projectors split the space and the Hamiltonian has no matrix elements between different sectors, then the energies of all sectors put in one list and sorted are exactly the sorted energies of the whole Hamiltonian, each as often as it occurs.", "quantifier": "for every dimension, every hermitian Hamiltonian, every list of sectors and whatever eigenvectors the solver picks", "why_tests_cant": "Equality of whole spectra with multiplicities for all matrices; degenerate levels let every solver choose other vectors.", "anchors": ["exact_diag/ed_base.py:diagH", "examples/heisenberg_chain.py"]}
{"id": "C161", "title": "Ring of spins 1/2: the example compares equal spectra", "statement": "For a ring of n spins with the same real coupling J along the three axes, built by createSquareGeometry(n, 1, 0, 0, bc1_open=False, bc2_open=True), the script examples/heisenberg_chain.py raises nothing: the translation by one site and the inversion about the centre of mass move every spin to its image, the four operators have the relations of a ring and commute with the Hamiltonian, and with a correct dense eigensolver the greatest difference between the sorted energies of the sectors and the energies of the whole is exactly 0.", "quantifier": "for every 2 <= n <= 5*10^13, every real J and every correct dense eigensolver", "why_tests_cant": "The script checks n = 10 and J = 1 and prints a difference that has to be judged by eye.", "anchors": ["examples/heisenberg_chain.py", "exact_diag/ed_geometry.py:get_center_of_mass", "exact_diag/ed_symmetry.py:findSiteCycles", "exact_diag/ed_symmetry.py:getInversionFn", "exact_diag/ed_symmetry.py:getTranslFn", "exact_diag/ed_spins.py:get_swap_up_down_op"]}
{"id": "C162", "title": "Energies of spins coupled alike to all earlier ones", "statement": "If every site is coupled to all the sites before it with one strength c_i, the same for the three spin components, and there is no field, then the energies of the Hamiltonian built for spin s are, each as often as it occurs, those of adding the spins one at a time: whenever a total spin S' and the next spin s add up to S (S from |S'-s| to S'+s in steps of one) the energy changes by c_i (S(S+1) - S'(S'+1) - s(s+1)), and the last total spin S stands for 2S+1 states. The last S really is the total spin: one basis diagonalises both this Hamiltonian and the sum of all 2 S_i.S_j, which has the value S(S+1) - n s(s+1) on it. The numbers of states add up to (2s+1)^n.", "quantifier": "for every spin s = 0, 1/2, 1, ..., every number of sites and all real strengths c_i", "why_tests_cant": "A closed formula for the whole spectrum, with multiplicities, of matrices of every size and spin.", "anchors": ["exact_diag/ed_spins.py:createH", "exact_diag/ed_spins.py:get_splus", "exact_diag/ed_spins.py:get_interaction_mat", "examples/4spins_test.py"]}
{"id": "C163", "title": "Four spins: the example's formula is the spectrum", "statement": "The script examples/4spins_test.py raises nothing and its assertion holds for every spin and all couplings j1, j2, j3, not only those written in it: the sorted list of energies that it computes by hand, with the multiplicities 2S+1, is exactly the list that diagH returns, so that the greatest difference is 0.", "quantifier": "for every spin s = 0, 1/2, 1, ..., all real j1, j2, j3 and every correct dense eigensolver", "why_tests_cant": "The script compares one choice of couplings and spin 5/2, up to rounding, and only the sign of the difference that it looks at.", "anchors": ["examples/4spins_test.py", "exact_diag/ed_base.py:diagH", "exact_diag/ed_spins.py:createH"]}
{"id": "C164", "title": "Spins that are all coupled alike", "statement": "If all pairs of n >= 2 spins s are coupled with one strength c along the three axes and there is no field, the set of energies is exactly c (S(S+1) - n s(s+1)) for S = n s, n s - 1, ..., down to 0 or 1/2. So with c > 0 the ground state has the least possible total spin and with c < 0 the greatest.", "quantifier": "for every n >= 2, every spin s and every real c", "why_tests_cant": "A closed formula for matrices of every size; it covers pairs, triangles and tetrahedra of any spin.", "anchors": ["exact_diag/ed_spins.py:createH", "exact_diag/ed_spins.py:get_interaction_mat"]}
{"id": "C165", "title": "Optical conductivity at one frequency", "statement": "The function returned by get_optical_cond_fn has, at every temperature, the value of Kubo's formula: the sum over pairs of levels of |J_nm|^2 (p_m - p_n) times a Lorentzian at E_n - E_m, divided by the frequency. The pairs whose matrix element is at most 1e-16 are left out, which changes the value by at most N^2 / (nsites eta |w| 1e32). The value at temperature zero is the limit of the values at low temperature.", "quantifier": "for every number of levels, all matrix elements, energies, temperatures, frequencies other than zero and broadenings", "why_tests_cant": "The value is a sum over all pairs of levels; a test compares a few numbers and cannot see which terms are missing.", "anchors": ["exact_diag/ed_fermions.py:get_optical_cond_fn"]}
{"id": "C166", "title": "Turning of the total spin in a field", "statement": "Spins 1/2 with equal couplings along the three axes in a uniform field of strength w along the unit vector u: whatever the couplings and the initial state, the expectation values of the total spin obtained from quench_time_evolve and get_exp_vals at the time t are those of the initial state, turned about u by the angle w t. In particular they return after the Larmor time 2 pi / w which the example script eta_mode.py prints.", "quantifier": "for every number of sites, all couplings, all directions and strengths of the field, all initial states and lists of times", "why_tests_cant": "A test evolves some state on a small lattice for some times; that the couplings never matter needs the algebra of the Hamiltonian.", "anchors": ["exact_diag/ed_spins.py:createH", "exact_diag/ed_base.py:quench_time_evolve", "exact_diag/ed_base.py:get_exp_vals", "examples/eta_mode.py"]}
{"id": "C167", "title": "Motion of operators that raise the energy by a fixed amount", "statement": "If an operator takes states of every energy to states with the energy larger by c, then its expectation value in any evolved state is the initial one times exp(i c t): the real and imaginary parts that get_exp_vals returns turn with the frequency c. The sum over sites of the operators that add a pair, with opposite signs on the two classes of sites of a lattice, is such an operator for the Hubbard model, with c the energy of a pair.", "quantifier": "for every Hamiltonian, operator and state; for the pairs, for every number of sites and species and all couplings that meet the stated symmetry", "why_tests_cant": "Every pair of levels contributes to the motion; a test can follow one state for some times only.", "anchors": ["exact_diag/ed_base.py:quench_time_evolve", "exact_diag/ed_base.py:get_exp_vals", "exact_diag/ed_fermions.py:createH", "examples/eta_mode.py"]}
{"id": "C168", "title": "Responses with a single line", "statement": "The response functions of an operator A that raises energies by c and of any operator B have a single line: get_response_fn_time_ordered is pi times a Lorentzian at frequency c times the thermal average of BA - AB, and get_response_fn_retarded has its line at the same frequency. For the pair operator of the Hubbard model and its adjoint the weight of the line is the number of sites less the number of particles.", "quantifier": "for every number of levels, all operators, temperatures, frequencies and broadenings", "why_tests_cant": "The functions sum over all pairs of levels; a few numbers cannot show that only one frequency contributes, nor with which weight.", "anchors": ["exact_diag/ed_base.py:get_response_fn_retarded", "exact_diag/ed_base.py:get_response_fn_time_ordered", "exact_diag/ed_base.py:get_matrix_elems"]}
{"id": "C169", "title": "Choice of the axes of spins", "statement": "Describing spins 1/2 along other axes changes nothing that can be measured: if the axes are permuted, with signs that may differ from site to site, and the couplings and fields follow, then the energies are the same and the thermal averages of the spin of a site and of products of the spins of two sites are those along the old axes, times the signs. This holds if on every site the new axes are a rotation of the old ones, and for real couplings also if on every site they are a mirror image. So exchanging jx, jy and jz, reversing all fields, or reversing jx and jy between two classes of sites leaves the energies as they are.", "quantifier": "for every number of sites, all couplings and fields, all temperatures, all 24 rotations and 24 mirror images with signs for every site", "why_tests_cant": "The author of eta_mode.py notes having been confused by different results for couplings along different axes; a test can compare a few lattices only, the claim is about all couplings and sign patterns.", "anchors": ["exact_diag/ed_spins.py:createH", "exact_diag/ed_spins.py:__init__", "exact_diag/ed_base.py:get_exp_vals_thermal", "exact_diag/ed_base.py:get_single_site_op", "exact_diag/ed_base.py:get_two_site_op", "examples/eta_mode.py"]}
{"id": "C170", "title": "Averages of spins that vanish", "statement": "Spins 1/2 with real couplings, different along the three axes if wanted, and fields along one axis only: at every temperature the thermal average of the spin of any site along the other two axes is zero, and so is that of the product of the spins of two sites along different axes. Without fields all averages of single spins are zero.", "quantifier": "for every number of sites, all couplings, fields along one axis that may differ from site to site, all temperatures", "why_tests_cant": "Numbers from a diagonalisation are zero up to rounding at best, and eigenvectors of degenerate levels can be chosen with nonzero averages; that the sum vanishes for all couplings is a symmetry argument.", "anchors": ["exact_diag/ed_spins.py:createH", "exact_diag/ed_base.py:get_exp_vals_thermal", "exact_diag/ed_base.py:get_single_site_op", "exact_diag/ed_base.py:get_two_site_op"]}
{"id": "C171", "title": "States of a quench do not depend on the eigenvectors used", "statement": "The states returned by the time evolution after a quench depend on the Hamiltonian, the initial state and the times only: any two complete orthonormal sets of eigenvectors with their energies, in any order, with any phases and any choice among degenerate levels, give the same states.", "quantifier": "for every Hamiltonian, every two eigenbases of it, every initial state and every list of times", "why_tests_cant": "A diagonalisation returns one choice of eigenvectors; which one depends on the library and the machine, so no test sees the others.", "anchors": ["exact_diag/ed_base.py:quench_time_evolve", "exact_diag/ed_base.py:diagH"]}
{"id": "C172", "title": "Units and signs of the couplings of fermions", "statement": "Two models of fermions whose couplings differ by a common real factor r, and whose hoppings between two sites differ also by the product of signs given to the two sites, possibly different for different species, are one model in other units: the energies are multiplied by r, the averages of numbers and of products of numbers at temperature r T are those at T, averages of hops get the signs of their two sites, and densities after a quench from a configuration at time t are those of the other model at r t. It holds in the whole space and in every sector of configurations.", "quantifier": "for every number of sites and species, all couplings, all signs, all r (not zero for averages), all sectors spanned by configurations, all temperatures and times", "why_tests_cant": "A test compares two sets of numbers; the claim is about all couplings, signs and sectors.", "anchors": ["exact_diag/ed_fermions.py:createH", "exact_diag/ed_fermions.py:get_kinetic_op", "exact_diag/ed_base.py:get_exp_vals_thermal", "exact_diag/ed_base.py:quench_time_evolve", "exact_diag/ed_base.py:diagH"]}
{"id": "C173", "title": "Sign of the hopping on lattices with two kinds of sites", "statement": "On a lattice whose sites are of two kinds, with hopping between different kinds only, as for nearest neighbours on the square lattice with open or even sides, reversing the sign of the hopping changes no energy, density or density correlation, at any temperature and during the motion from a configuration; hops between neighbours change sign. On a triangle the sign does matter.", "quantifier": "for every such lattice, all interactions and potentials, all temperatures and times, all sectors spanned by configurations", "why_tests_cant": "Examples and scripts of the package use both signs of the hopping; that the choice is harmless on these lattices, and only on these, is a statement about all sizes.", "anchors": ["exact_diag/ed_fermions.py:createH", "exact_diag/ed_fermions.py:get_kinetic_op", "exact_diag/ed_geometry.py:createSquareGeometry", "exact_diag/ed_base.py:get_exp_vals_thermal", "exact_diag/ed_base.py:quench_time_evolve"]}
{"id": "C174", "title": "Repulsion and attraction give the same motion", "statement": "On a lattice with two kinds of sites and hopping between different kinds only, changing the sign of all energies other than the hopping (interactions, potentials, chemical potentials) turns the spectrum upside down, and yet the densities and density correlations after a quench from any configuration of particles are the same at all times.", "quantifier": "for every such lattice, all couplings, all configurations and times, all sectors spanned by configurations", "why_tests_cant": "The two spectra have nothing in common to compare; that the motion agrees for all times is a symmetry of the evolution, not of the numbers a test sees.", "anchors": ["exact_diag/ed_fermions.py:createH", "exact_diag/ed_fermions.py:get_kinetic_op", "exact_diag/ed_geometry.py:createSquareGeometry", "exact_diag/ed_base.py:quench_time_evolve"]}
{"id": "C175", "title": "Chemical potentials do not affect the motion", "statement": "Changing the chemical potentials of the species of fermions changes no density, density correlation or hop after a quench, from any initial state, even one without a definite number of particles. In a sector with given numbers of particles it shifts all energies by minus the sum of number times change, and changes no thermal average of any operator.", "quantifier": "for every lattice, all couplings, all changes of the chemical potentials, all initial states and times, the whole space and every sector of distinct configurations; all operators and temperatures in sectors of given numbers", "why_tests_cant": "Users set the chemical potential to get a filling and then compare with runs at fixed number; a test sees a few values of the potential.", "anchors": ["exact_diag/ed_fermions.py:createH", "exact_diag/ed_fermions.py:get_chemical_pot_op", "exact_diag/ed_fermions.py:fermions.__init__", "exact_diag/ed_base.py:quench_time_evolve", "exact_diag/ed_base.py:get_exp_vals_thermal"]}
{"id": "C176", "title": "Averages over long times tend to the value without interference", "statement": "The mean of an expectation value at N equally spaced times after a quench differs from the value in which different energies do not interfere by at most a constant over N, provided no two different energies come back into phase after one step; steps shorter than 2 pi over the largest difference of energies are always fine. The limit does not depend on the eigenvectors; without degeneracies it is the sum over levels of their weight times their expectation value. With an unlucky step the mean tends to something else.", "quantifier": "for every Hamiltonian, operator, initial state and step, all N", "why_tests_cant": "Statements about N to infinity; a test sees a finite run.", "anchors": ["exact_diag/ed_base.py:quench_time_evolve", "exact_diag/ed_base.py:get_exp_vals"]}
{"id": "C177", "title": "Level statistics of the tilted lattice example", "statement": "For sorted energies the list of ratios computed by the example script holds, for every two neighbouring spacings, the smaller divided by the larger, and zero where one of them is zero, so no infinity or nan is left; every ratio and the mean lie between zero and one, but with fewer than three levels the mean is nan. The ratios do not depend on the unit of energy, on signs of the hopping that can be removed site by site, or on the chemical potentials at fixed numbers of particles; on a lattice with two kinds of sites the model with all other energies reversed has the same ratios in reverse order and the same mean.", "quantifier": "for every sorted list of energies; for all models of fermions related as in C172, C174 and C175, in all sectors spanned by configurations", "why_tests_cant": "Degenerate levels make the script divide by zero; whether they leave infinities behind depends on the spectrum a test happens to use.", "anchors": ["examples/wannier_stark_ladder.py:rn", "exact_diag/ed_fermions.py:createH", "exact_diag/ed_base.py:diagH"]}
{"id": "C178", "title": "A uniform field along the axis of symmetry does not affect the motion", "statement": "For spins 1/2 with equal couplings along x and y and fields along z only, an additional uniform field along z changes no expectation value of spins along z, of their products, or of the sum of the products along x and along y of two spins, after a quench from any initial state. With a given number of flipped spins every energy is lowered by the field times the total moment, and neither thermal averages nor the motion of any operator change.", "quantifier": "for every number of spins, all such couplings, all fields, all initial states, times, operators and temperatures", "why_tests_cant": "The two Hamiltonians have different spectra; that all these results agree at all times is a symmetry, which a test can only sample.", "anchors": ["exact_diag/ed_spins.py:createH", "exact_diag/ed_base.py:quench_time_evolve", "exact_diag/ed_base.py:get_exp_vals_thermal", "exact_diag/ed_base.py:diagH"]}
{"id": "C179", "title": "Return to the initial state after a quench", "statement": "The probability to find the initial state again, the squared size of its overlap with an evolved state, is the sum over pairs of levels of the product of their probabilities times the cosine of time times difference of energies. For a normalised state it is at most one, at least one minus the square of time times the variance of the energy, and the same for opposite times. Its mean over N equally spaced times tends to the sum over energies of their squared probabilities with an error of at most a constant over N, which is at least one over the number of different energies.", "quantifier": "for every Hamiltonian with a complete set of eigenvectors, all initial states and all times", "why_tests_cant": "The bounds hold at all real times for all states; a test can only sample states and times.", "anchors": ["exact_diag/ed_base.py:quench_time_evolve", "exact_diag/ed_base.py:get_overlaps", "exact_diag/ed_base.py:get_exp_vals"]}
{"id": "C180", "title": "Rates of change and conserved quantities after a quench", "statement": "The expectation value of an operator O after a quench is a differentiable function of time whose derivative is the expectation value of i(HO - OH). Operators that commute with the Hamiltonian, in particular the energy, keep their initial expectation value, and a state of definite energy only acquires a phase.", "quantifier": "for every Hamiltonian with a complete set of eigenvectors, all operators, initial states and times", "why_tests_cant": "Derivatives and conservation concern all times at once; a test can compare a few differences.", "anchors": ["exact_diag/ed_base.py:quench_time_evolve", "exact_diag/ed_base.py:get_exp_vals"]}
{"id": "C181", "title": "Uncertainty relation and bound on the rate of change", "statement": "For Hermitian A and B and a normalised state the square of the expectation value of i(AB - BA) is at most four times the product of the variances obtained from get_exp_vals. A variance is never negative and vanishes only in eigenstates. After a quench no expectation value changes faster than twice the product of its standard deviation and that of the initial energy.", "quantifier": "for all Hermitian operators, all normalised states and all times", "why_tests_cant": "An inequality for all states and operators; a test can only sample.", "anchors": ["exact_diag/ed_base.py:get_exp_vals", "exact_diag/ed_base.py:quench_time_evolve"]}
{"id": "C182", "title": "Nothing changes in equilibrium, and currents move particles", "statement": "The thermal average of the rate of change i(HO - OH) of any operator vanishes at every temperature, zero included. In particular, with open boundaries, no sector carries a current along x or y in equilibrium. After a quench the expectation value of the current along an axis is the derivative of the expectation value of the sum of the coordinates of all particles.", "quantifier": "for every Hamiltonian with a complete set of eigenvectors, all operators, temperatures, initial states and times; for fermions with any interactions, potentials and numbers of particles on clusters with open boundaries", "why_tests_cant": "That averages vanish exactly, and derivatives at all times, cannot be settled by sampling.", "anchors": ["exact_diag/ed_base.py:get_exp_vals_thermal", "exact_diag/ed_fermions.py:get_current_op", "exact_diag/ed_base.py:quench_time_evolve", "exact_diag/ed_base.py:get_exp_vals"]}
{"id": "C183", "title": "Particles arrive on a site only by hopping from other sites", "statement": "After a quench in any sector, the derivative of the expected number of particles of one species on one site is the sum, over all other sites, of the real hopping amplitude times the expectation value of the flow i(c_i^dagger c_j - c_j^dagger c_i), built with get_two_site_op and projected to the sector. Interactions, potentials and chemical potentials do not contribute, and neither do other species. The operators can be built for all pairs of sites.", "quantifier": "for fermions on any geometry with real amplitudes, any interactions and potentials, every sector of basis states, every site and species, all initial states and all times", "why_tests_cant": "A derivative at all times for all Hamiltonians; a test can only compare a few differences.", "anchors": ["exact_diag/ed_fermions.py:createH", "exact_diag/ed_base.py:get_single_site_op", "exact_diag/ed_base.py:get_two_site_op", "exact_diag/ed_base.py:quench_time_evolve", "exact_diag/ed_base.py:get_exp_vals"]}
{"id": "C184", "title": "Real Hamiltonians do not distinguish the two directions of time", "statement": "If the Hamiltonian is real, the thermal average of every operator with purely imaginary matrix elements vanishes. After a quench from a real state, expectation values of real operators at times t and -t agree and those of imaginary operators are opposite. Every sector Hamiltonian of fermions with a complete set of eigenvectors is real, so in equilibrium no particles flow between any two sites. Spins 1/2 with real couplings and no field along y have a real Hamiltonian, so no spin has a moment along y in equilibrium.", "quantifier": "for every real Hamiltonian with a complete set of eigenvectors, all temperatures, states and times; for fermions in all sectors, all pairs of sites and species; for spins 1/2 on all sites", "why_tests_cant": "Averages that vanish exactly for all Hamiltonians; a test sees rounding noise for a few of them.", "anchors": ["exact_diag/ed_base.py:get_exp_vals_thermal", "exact_diag/ed_base.py:quench_time_evolve", "exact_diag/ed_fermions.py:createH", "exact_diag/ed_spins.py:createH", "exact_diag/ed_base.py:get_two_site_op"]}
{"id": "C185", "title": "A spin turns in its own field and next to its partners", "statement": "For spins 1/2 with real couplings and fields, the z component of one spin after a quench has a derivative at every time. The derivative is the field along x times the y component of the spin, minus the field along y times its x component, plus twice the sum over the other sites of the coupling along y times the correlation of x here with y there, minus the coupling along x times the correlation of y here with x there. The z couplings and z fields do not enter. All quantities are those the package returns.", "quantifier": "for all geometries, real couplings and fields, projections on sets of basis states, initial states, times and sites", "why_tests_cant": "An equation between a derivative and measured values, for all Hamiltonians; a test compares finite differences with a tolerance for a few of them.", "anchors": ["exact_diag/ed_base.py:quench_time_evolve", "exact_diag/ed_base.py:get_exp_vals", "exact_diag/ed_spins.py:createH", "exact_diag/ed_base.py:get_single_site_op", "exact_diag/ed_base.py:get_two_site_op"]}
{"id": "C186", "title": "Hopping and transverse couplings lower the free energy", "statement": "In every sector the free energy and the lowest energy of fermions are not higher than those of the same fermions without hopping. The energies without hopping are the diagonal elements of the Hamiltonian, with the basis states as eigenvectors. For spins 1/2 the same holds with the couplings and fields along x and y in place of the hopping.", "quantifier": "for all fermions and all spins 1/2 on all geometries, all sets of basis states, all positive temperatures", "why_tests_cant": "An inequality between two spectra for all couplings; a test computes a few of them.", "anchors": ["exact_diag/ed_fermions.py:createH", "exact_diag/ed_spins.py:createH", "exact_diag/ed_base.py:diagH"]}
{"id": "C187", "title": "Vectors of any shape", "statement": "The functions that bring a vector into one shape return the same array whether the vector is given as a list, as a row or as a column, and keep the order of its elements. A matrix is read row by row. A lattice does not depend on the shapes in which its lattice vectors, basis vectors and periodicity vectors are given.", "quantifier": "for vectors of all lengths with elements of any type, all matrices, and all lattice, basis and periodicity vectors with two components", "why_tests_cant": "All lengths and all combinations of shapes of the five kinds of arguments.", "anchors": ["exact_diag/ed_geometry.py:ensure_column_vect", "exact_diag/ed_geometry.py:ensure_row_vect", "exact_diag/ed_geometry.py:ensure_1d_vect", "exact_diag/ed_geometry.py:Lattice"]}
{"id": "C188", "title": "Parts without couplings between them move independently", "statement": "If no coupling joins a group of spins and the other spins, the expectation values of all observables of the group after a quench do not depend on the couplings and fields of the other spins, whatever the initial state is. In particular this holds for single- and two-site operators of sites of the group.", "quantifier": "for spins 1/2 on any number of sites, all groups of sites, all real couplings and fields, all initial states, all times and all observables that act on the group only", "why_tests_cant": "Whole families of Hamiltonians, initial states and observables; the initial state may be entangled between the group and the rest.", "anchors": ["exact_diag/ed_spins.py:createH", "exact_diag/ed_base.py:quench_time_evolve", "exact_diag/ed_base.py:get_exp_vals", "exact_diag/ed_base.py:get_single_site_op", "exact_diag/ed_base.py:get_two_site_op"]}
{"id": "C189", "title": "Projectors on the states of one spin", "statement": "The matrices for the two states of one spin along z (nr, ng) and along x (nplus, nminus) measure, on any site, half of the norm plus or minus the spin component, so each pair adds up to the norm of the state. The matrix of the exchange of two spins exchanges their states and equals 1/2 plus twice the scalar product of the two spins.", "quantifier": "for spins 1/2 on any number of sites, all sites and all states, normalised or not", "why_tests_cant": "All sites and all states; the relation between the attributes and the spin operators is an identity of matrices of any size.", "anchors": ["exact_diag/ed_spins.py:ng", "exact_diag/ed_spins.py:nr", "exact_diag/ed_spins.py:nplus", "exact_diag/ed_spins.py:nminus", "exact_diag/ed_spins.py:swap_op", "exact_diag/ed_base.py:get_single_site_op", "exact_diag/ed_base.py:get_exp_vals"]}
{"id": "C190", "title": "Spin operators and Pauli matrices", "statement": "The Pauli matrices of the package have the usual algebra, and the operators of a spin 1/2 on any site are half of the Pauli matrices on that site.", "quantifier": "for spins 1/2 on any number of sites and all sites", "why_tests_cant": "All sites of systems of any size; a sign of the y component is invisible in the energies and in all real states.", "anchors": ["exact_diag/ed_base.py:pauli_x", "exact_diag/ed_base.py:pauli_y", "exact_diag/ed_base.py:pauli_z", "exact_diag/ed_base.py:pauli_plus", "exact_diag/ed_base.py:pauli_minus", "exact_diag/ed_spins.py:get_sy", "exact_diag/ed_base.py:get_single_site_op"]}
{"id": "C191", "title": "The components of one spin lie in a ball", "statement": "In every state the squares of the expectation values of the three components of a spin 1/2 on any site add up to at most the square of half the squared norm of the state: at most 1/4 for a normalised state.", "quantifier": "for spins 1/2 on any number of sites, all sites and all states", "why_tests_cant": "An inequality over all states; tests look at a few eigenstates.", "anchors": ["exact_diag/ed_spins.py:get_sx", "exact_diag/ed_spins.py:get_sy", "exact_diag/ed_spins.py:get_sz", "exact_diag/ed_base.py:get_single_site_op", "exact_diag/ed_base.py:get_exp_vals"]}
{"id": "C192", "title": "The scalar product of two spins lies between -3/4 and 1/4", "statement": "In every state the sum of the correlations of the x, y and z components of two different spins 1/2 lies between -3/4 and 1/4 of the squared norm of the state; states that change or keep their sign when the two spins are exchanged reach the two bounds.", "quantifier": "for spins 1/2 on any number of sites, all pairs of sites and all states", "why_tests_cant": "An inequality over all states; tests look at a few eigenstates.", "anchors": ["exact_diag/ed_spins.py:get_sx", "exact_diag/ed_spins.py:get_sy", "exact_diag/ed_spins.py:get_sz", "exact_diag/ed_base.py:get_two_site_op", "exact_diag/ed_base.py:get_exp_vals"]}
{"id": "C193", "title": "Bounds on the energies of Heisenberg models", "statement": "The energies of spins 1/2 with equal couplings J_ij along the three axes and without fields lie between the sum over the pairs of sites of the smaller of -3/2 J_ij and 1/2 J_ij and the sum of the larger. Half of the sum of the couplings is one of the energies: the lowest one of a ferromagnet and the highest one of an antiferromagnet.", "quantifier": "for any number of sites, all real couplings and every energy", "why_tests_cant": "A bound for systems of any size; tests diagonalise small ones.", "anchors": ["exact_diag/ed_spins.py:createH", "exact_diag/ed_spins.py:get_sx", "exact_diag/ed_spins.py:get_sy", "exact_diag/ed_spins.py:get_sz"]}
