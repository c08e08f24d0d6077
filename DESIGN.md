# Design of the model and the proofs

Subject: ptbrown1729/exact_diag at the pinned commit in /repo (python).  All
line numbers in the Coq files refer to that tree.  The python code was read,
never run.

## Scalars, matrices, exceptions

* **Scalars of operators.** Operator code (`ed_base`, `ed_fermions`,
  `ed_spins`) is modelled over an arbitrary commutative ring with an involution
  and an embedding of the rationals (`StarRing`).  The theorems quantify over
  all such rings; instances are given for the Gaussian rationals (executable,
  used by `vm_compute` examples) and for the complex numbers built from the
  standard library reals.
* **Matrices** are a shape plus an entry function; equality `meq` is equality
  of shapes and of all entries inside the shape.  scipy storage formats
  (csr/csc/coo/dia) are not modelled, the shape errors of `+` and `*` are.
* **Geometry** is over exact rationals `Q` (every float is a rational); the
  roundings the code performs explicitly (`np.round(.., 14)`) are modelled as
  round-half-even on rationals, the roundings of floating point arithmetic are
  not.
* **Thermodynamics, Fermi gas, Green functions, rotations** are over the
  standard library reals `R` (and pairs of reals for complex numbers).
* **Exceptions** are values of `res A := Ok a | Raise e`.

## Trusted base

* Coq 8.16.1's kernel (with `vm_compute`).
* What `Print Assumptions` lists under every theorem: nothing for the operator,
  exact geometry, symmetry-cycle and cluster enumeration theorems; the axioms of the standard
  library's real numbers (`ClassicalDedekindReals.sig_forall_dec`,
  `ClassicalDedekindReals.sig_not_dec`,
  `FunctionalExtensionality.functional_extensionality_dep`, and `Classical_Prop.classic` where
  the library's analysis lemmas use it) for the theorems over `R`.
* That the Gallina functions in `Model*.v` say what the python functions say.
  Each definition cites the file and the lines it mirrors, and says what was
  simplified.

## What is not modelled

Floating point rounding; scipy sparse storage; the numerical content of
`numpy.linalg.eigh`, `scipy.sparse.linalg.eigsh`, `numpy.linalg.svd` (the
`dim > 1` branch of `reduce_symm_projector`), root finding in `fg_mu`, plotting
(`disp*`, `draw*`), timing prints, docs, the examples other than
`heisenberg_chain.py` and `4spins_test.py`; pickle/mat file encodings
(a stored object is read back as itself).

## Plan per property

| id | model | proof |
|----|-------|-------|
| C01 | index arithmetic on `nat` | div/mod |
| C02 | `single_site_op`, `two_site_op` as Kronecker products | both sides are chains of 2x2 factors; mixed product rule; compare factor by factor |
| C03 | same | from C02 and 2x2 identities |
| C04 | same | chains |
| C05 | creation operators applied to unit vectors | induction over sites using C06 |
| C06 | entries of the chains | bits of indices |
| C07 | shape of `single_site_op` | refuted for local dimension 3; proved for 2 |
| C08 | `sum_op` | entries |
| C09 | `get_subspace_projs` | row selection matrices |
| C10 | constructor loop over species | invariant: running projector = selection of the filtered index list |
| C11, C12 | `createH` in the exception monad | adjoint of sums; refuted by a 2-site complex hopping |
| C13 | same | every term commutes with N |
| C14 | same | equality with an independently written Hamiltonian; refuted for bonds that are not axis aligned, proved for axis aligned ones |
| C15 | `get_hopping_mat` (assignment to a real array) | refuted; proved for real phases |
| C16, C17 | constructor dispatch over shapes | case analysis; refuted |
| C18 | `get_swap_op` | algebra from C03 |
| C19, C20, C21 | `get_xform_op` | induction over the cycle; C21 refuted |
| C22 | | conjugation of every term |
| C23, C24 | spin swap | entries; C24 refuted |
| C25 | spin matrices over `R` | the commutator has the opposite sign: refuted, and the algebra that does hold proved |
| C26, C27, C28 | spin `createH` | C26 refuted for y-fields, C27 refuted for complex couplings |
| C29, C30 | spin flip, special states | bits; C30 refuted |
| C31..C35 | `Q` geometry | floor arithmetic |
| C36 | complex exponentials | reals |
| C37, C38 | record of lists, stable sort | permutations |
| C39, C40 | | refuted in general; proved for integer coordinates |
| C41 | | field arithmetic |
| C42 | rotations over `R` | trigonometry |
| C43, C44 | iteration of the site map | orbit argument; C44 refuted (cycle type 2+3: order six on five sites) |
| C45, C46 | sums over a group | finite Fourier orthogonality; group algebra by computation, lifted to all representations; D7 refuted |
| C47 | boolean validation | reflection |
| C48 | row reduction | orbits of phased permutations |
| C49, C50 | clusters as lists of integer points | every connected set has a removable site; invariant of the order-by-order generation |
| C51, C52 | weights, Euler coefficients over `R` | triangular induction; recurrence of the Euler weights, monotone limits |
| C53 | | refuted on the L-tromino |
| C54, C55 | weights over `R` | sums |
| C56 | evolution in the eigenbasis | sums |
| C57 | argsort of an oracle's output | permutation |
| C58..C61 | Fermi gas | analysis; C59 refuted for odd sizes; C61 refuted |
| C62, C63 | kernels, frequencies | summation by parts; C63 refuted at tau = beta |
| C64, C65, C111..C116 | files as a map, objects as references to attribute dictionaries | invariants over sessions and schedules; C65, C112..C115 refuted, what holds is proved |
| C66..C72 | higher spins, detunings, spin permutations, constructor arguments, pair counts, special states | entries and the algebra of C25..C30; C66 and C70 partly refuted |
| C73 | two-dimensional translations | C45 twice, simultaneous sectors |
| C74..C76 | reduced tables and the reduction by symmetry | counting argument: congruent clusters contain equally many parts of each class |
| C77 | broadcasting of shapes | refuted; accepted shapes characterised |
| C78, C89 | eigenbases, blocks | two eigenbases overlap only within a level; stacked blocks are an eigenbasis |
| C79, C80, C86, C88 | diagH, get_norms, shapes, weights | refuted; what holds is proved |
| C81, C87 | projectors | entries of the projectors of C09; lifting through the adjoint |
| C90..C102 | `fermi_gas.py` over `R` | Fourier orthogonality of the grid (roots of unity), derivatives of sums; C90, C92, C94, C96, C98, C102 partly or wholly refuted |
| C103 | `get_overlaps` | completeness |
| C104..C110 | `greens_fns.py` over `R` | antiderivatives, orthogonality of Matsubara frequencies on equally spaced times, limits; C106 partly refuted |
| C117, C118 | `createH` without interactions, thermal averages | exchange rule of mode operators under the thermal average, induction over modes for the partition function |
| C119 | periodic lattice, `createH` and `fermi_gas.py` together (`ModelFreeLattice`: what a fermion system reads from a geometry) | plane waves are an eigenbasis of the adjacency matrix; refuted for two sites |
| C120 | `createH` of Hubbard lattices | spectral theorem: maximize the quadratic form on unit vectors orthogonal to the eigenvectors found so far (cluster points without choice) |
| C121 | `get_thermal_exp_sites`, `get_thermal_corr_sites` | row by row from C54, C55 |
| C122 | `get_partition_fn_hamiltonian` | power series in the eigenbasis, trace; refuted for arrays |
| C123 | `get_sum_op_q` | entries as sums over sites; orthogonality of plane waves (C91); anticommutators from C03 |
| C124 | `createRegularPolygonGeometry` | invariant of the loop; cosines decrease on [0, pi] |
| C125 | `get_interaction_mat_c6` | refuted: attributes missing; cutoff not used |
| C126 | coordinate maps, `findSiteCycles` on `createSquareGeometry` | motions of the integer lattice; order at most the number of sites; the reduction to the cell is steady under errors below 5e-15 |
| C127, C128 | `get_xform_op`, `getZnProjectors`, `createH`, `thermal_avg_combine_sectors` together | C44, C45, C89 with their hypotheses proved for every lattice and motion; a state with a regular orbit fills every sector |
| C129 | `getD2Projectors`, `getD4Projectors`, `getC4V_and_3byb3` with the operators of the lattice | group relations from permutations of sites (C42, C43), then C46 |
| C130 | averages of C54 on the Hamiltonian of `createH` | a unitary exchanging creation and annihilation of every mode, built mode by mode; C130's balance makes it commute with the Hamiltonian |
| C131 | the same, with the operators of C127 | averages are unchanged by a commuting unitary |
| C132 | the same | commutator of the Hamiltonian with the raising operator, term by term; exchange under the trace; limit to temperature zero |
| C133 | `createH` of spins and of fermions on the same chain (ModelSpins, ModelFermions) | strings of signs cancel between sites that follow each other; diagonal terms compared by occupation; averages by C54 (shift) and C78 (any basis) |
| C134 | C117/C118 on the lattices of `createSquareGeometry` | one-particle eigenbasis: products of standing and running waves; sums of cosines by telescoping |
| C135 | C133 with V = 0 and C134 on an open chain | composition; diagonal two-site operators |
| C136 | the averages at temperature zero of systems without interactions | limit T -> 0 of the solved averages (C99 ff.) and the continuity of the thermal average at 0; counting sub-collections |
| C137 | the same and the formulas for the Fermi gas at beta = inf | C136 and the limit of the formulas; refuted when a level lies at the chemical potential |
| C138 | Hubbard model with a site without bonds | the exchange relation of the thermal average for the operators of that site, which gives linear equations for its four probabilities |
| C139 | pairs of the first two species on lattices with two classes of sites | the commutator of the Hamiltonian with the staggered pair operator, then the exchange relation of the thermal average |
| C140 | thermal averages as functions of temperature and chemical potential | sums of exponentials over one eigenbasis; for the chemical potential an eigenbasis with definite particle numbers, built by diagonalising H + c N with c large |
| C141 | number of sites of a lattice cell | representatives of the quotient of the lattice by the periods are counted and shown to be told apart by rounding; positions of the sites of each constructor from integer coordinates |
| C142 | neighbours on triangular, hexagonal and tilted lattices | centered reduction keeps short vectors; the only vectors of length one are the steps of the lattice; refuted by the rounded positions of rows three and four and by the 2 x 2 torus |
| C143 | thermodynamics of one cluster | thermal averages in an eigenbasis rewritten as sums over levels; derivatives of finite sums of exponentials; Gibbs inequality for the bounds of the entropy; refuted for the script by its call of a missing method |
| C144 | linked cluster sums of sums over parts | connected parts of a cluster are sorted by the cluster they are congruent to; induction over the size of clusters inverts the recursion of the weights; orientations of one and two sites are counted |
| C145 | responses to changes of couplings | tangents of the exponential and doubly stochastic overlaps of two eigenbases give the Peierls and Bogoliubov inequalities; their two directions bound the change of the free energy; the change of the Hamiltonian is written with the operators of the code |
| C146 | ground states without nodes | taking absolute values never raises the energy and a state of lowest energy that vanishes somewhere vanishes everywhere; thermal averages by the polynomials of the exponential, whose terms have the signs; the entries of the spin Hamiltonian are computed from the bits that change |
| C147 | one ground state for every number of flipped spins | an exchange of two linked sites is a product of exchanges over bonds, and exchanges reach every configuration with the same number of flipped spins; then C146; the ferromagnetic coupling is an exchange less one half |
| C148 | one ground state for fermions whose hops pass an even number of particles | entries of a hop operator between configurations carry a sign for every particle passed; these cancel, so the Hamiltonian has the signs of C146 in the configurations; exchanges along linked sites reach every configuration with the same numbers; two particles on a ring of four sites: two independent lowest states are exhibited |
| C149 | total spin and degeneracy of antiferromagnets on two kinds of sites (Marshall, Lieb, Mattis) | exact exchange form of the Hamiltonian; raising and lowering all spins commutes with it; states of singlet pairs have the signs of C146 and so overlap ground states; uniqueness in every sector (C147) fixes the total spin; counting by overlaps gives the degeneracy |
| C150 | ground states of fermions that attract each other (Lieb) | states of two species as matrices; the Hamiltonian acts as K W + W K + sum of U n W n; the absolute value of a Hermitian ground state has no larger energy; kernels are invariant under hops and so empty; spin and correlations from positivity |
| C151 | geometries are built from sensible matrices only | the validation of the model decides an independent description of valid matrices |
| C152 | sites reduced to the cell of a lattice | lists of sites, by the theorems on single vectors (C31) |
| C153 | magnetic response on the square lattice | the wrapper, by the theorems on the density response (C61, C99) |
| C154 | ground states of fermions that repel each other, as many particles as sites (Lieb) | exchange of particles and holes of one species, with a sign on sites of the second kind, turns the Hamiltonian into an attracting one plus a constant; C150 for that one |
| C155 | total spin and order of the lowest states of repelling fermions at half filling (Lieb) | moves between the sectors form a spin algebra that keeps energies; the ground state of each sector (C154) is not orthogonal to products of singlets with one particle on every site, which fixes where moves stop; the chain of sectors is treated once for both directions |
| C156 | `get_current_op` | a hop changes the sum of the coordinates by the distance it covers, so the loop over links gives the commutator of the Hamiltonian with the position entry by entry |
| C157 | weight of the conductivity | matrix elements of a commutator are energy differences times those of the position; completeness turns the sum over pairs of levels into the double commutator, which is the kinetic energy because hops cover one unit of length |
| C158 | `get_center_of_mass` | induction over the coordinates; sums are invariant under permutations |
| C159 | the loop of `examples/heisenberg_chain.py` over subspaces and projectors | a symmetry that maps the states of a sector to states of that sector is again such a symmetry on it, so C09 and the cyclic-group projectors apply again; sectors of sectors refine the splitting; T I T = I makes inversion keep momenta 0 and pi |
| C160 | `diagH` on sectors | the eigenvectors of all sectors form a basis of eigenvectors; two bases give the same sums of exp(-b E) for all b, hence the same lists of energies |
| C161 | the whole of `examples/heisenberg_chain.py` | the centre of mass is computed, the motions are those of C126, the operators move basis states, relations are identities between permutations of sites; C27, C28, C69 for the Hamiltonian |
| C162 | `createH`, `get_splus`, `get_sminus`, `get_sz` for any spin | the states of total spin t and one more spin s split into multiplets: highest states by a two-term recursion, lowered with the ladder operators; orthogonal by weight and adjointness, complete by counting; induction on the number of sites, the last site being the last digit of a state |
| C163 | the whole of `examples/4spins_test.py` | C162 for four sites; the nested ranges of the script are the total spins that occur |
| C164 | as C162 | the energy telescopes to a function of the total spin; every total spin of the right parity is reached |
| C165 | `get_optical_cond_fn`, both branches | the shifted Boltzmann weights are the probabilities; bound every omitted term; explicit two-level counterexample for temperature zero |
| C166 | `createH` of spins, `quench_time_evolve`, `get_exp_vals` | H = H0 - w u.S with H0 commuting with the total spin S; the combinations of the components along and across u shift energies by 0 and w |
| C167 | `quench_time_evolve`, `get_exp_vals`, fermion `createH` | matrix elements between levels vanish unless the energies differ by c; for pairs the commutator of C139 |
| C168 | both response functions, `get_matrix_elems` | only one frequency survives in the double sum; completeness of the eigenstates gives the averages of the products; two levels for the refutation |
| C169 | `createH` of spins, `get_exp_vals_thermal`, `get_single_site_op`, `get_two_site_op` | a 2x2 unitary for each of the 24 rotations, their product over the sites carries one Hamiltonian into the other; complex conjugation for mirror images; two spins for the counterexample |
| C170 | same | C169 with one axis reversed everywhere: the average equals its negative |
| C171 | `quench_time_evolve` | uniqueness of the evolution for a Hamiltonian |
| C172 | `createH` of fermions, `diagH`, `get_exp_vals_thermal`, `quench_time_evolve` | a diagonal matrix of signs carries one Hamiltonian into r times the other, in the whole space and in sectors |
| C173 | same and `createSquareGeometry` | C172 with r = 1 and the two kinds as signs; the triangle solved by hand |
| C174 | same | C172 with r = -1; real Hamiltonians move densities alike forwards and backwards |
| C175 | `createH` of fermions, `quench_time_evolve`, `get_exp_vals_thermal`, `n_projector` | the added term is a function of the numbers; the Hamiltonian and the measured operators keep the numbers, so its phases drop out |
| C176 | `quench_time_evolve`, `get_exp_vals` | the mean of the phases of a pair of levels is a geometric sum, bounded if the ratio is not one |
| C177 | lines 27-32 of examples/wannier_stark_ladder.py | arithmetic with infinities and nan; C172, C174 and C175 for the models |
| C178 | `createH` of spins, `quench_time_evolve`, `get_exp_vals_thermal` | the added term is a function of the number of flipped spins, as in C175 |
| C179 | `quench_time_evolve`, `get_overlaps`, `get_exp_vals` | expansion of the overlap in eigenvectors; inequality for the cosine; C176 for the projector on the initial state |
| C180 | `quench_time_evolve`, `get_exp_vals` | differentiate the double sum over levels of C176 |
| C181 | `get_exp_vals`, `quench_time_evolve` | Schwarz inequality for deviations from the mean; conservation of energy from C180 |
| C182 | `get_exp_vals_thermal`, `get_current_op`, `quench_time_evolve` | diagonal elements of commutators with H vanish; in a sector the current is such a commutator (C157), then C180 |
| C183 | `createH`, `get_single_site_op`, `get_two_site_op`, `quench_time_evolve` | elements of H between basis states are hops (C14), a hop changes two occupations; then C180 |
| C184 | `get_exp_vals_thermal`, `quench_time_evolve`, `createH` | conjugate eigenvectors are eigenvectors; averages do not depend on the choice (C78, C171) |
| C185 | `quench_time_evolve`, `createH`, `get_two_site_op` | rate of change of a diagonal operator (C183); matrix elements of the Hamiltonian between states that differ on the site |
| C186 | `createH` of fermions and spins | hopping has no diagonal elements; inequality of Bogoliubov (C145) with the basis states |
| C187 | `ensure_column_vect`, `ensure_row_vect`, `ensure_1d_vect`, `Lattice` | an array is determined by its shape and its elements in row order |
| C188 | `createH`, `quench_time_evolve`, `get_exp_vals`, `get_single_site_op`, `get_two_site_op` | the terms of the group and of the rest commute; evolution is the product of both; the second factor conserves the observable |
| C189 | `ng`, `nr`, `nplus`, `nminus`, `swap_op`, `get_single_site_op`, `get_exp_vals` | the matrices are 1/2 plus or minus a spin operator; a single-site operator of the unit matrix is the unit matrix |
| C190 | `pauli_x`, `pauli_y`, `pauli_z`, `pauli_plus`, `pauli_minus`, `get_sy`, `get_single_site_op` | entries of the matrices of one site; lifted to all sites by C03; refuted for y |
| C191 | `get_sx`, `get_sy`, `get_sz`, `get_single_site_op`, `get_exp_vals` | every real combination of the three matrices squares to a multiple of one; Cauchy-Schwarz for the combination along the expectation values |
| C192 | `get_sx`, `get_sy`, `get_sz`, `get_two_site_op`, `get_exp_vals` | 1/2 plus twice the sum of the products is the exchange of the two spins, which is self-adjoint and squares to one |
| C193 | `createH` of the spin systems | energy as a sum over pairs of sites, each bounded by C192 |
| C82..C85 | response functions over `R` | Lehmann sums; limits of probabilities; C82, C83, C84 partly refuted |

## Notes on thermal averages and response

* `numpy.linalg.eigh` and scipy's `eigsh` are function arguments; the theorems
  ask that they return orthonormal eigenpairs.  For `eigsh(which='LM')` the
  refutation C79 also asks that they are the ones of largest magnitude, and shows
  a result meeting the specification.
* `np.round(x, 13) == 0` is modelled as |x| <= 0.5e-13.  At zero temperature the
  theorems assume that energies are equal or further apart.
* Lists of temperatures are loops over one temperature in the code and are not
  modelled.  Printing is left out.
* `numpy` broadcasting of arrays whose sizes differ is reported as ValueError also
  where numpy would stretch an axis of length one.
* All theorems of this group use the standard library's reals; those with limits
  or derivatives also `Classical_Prop.classic`.

## Notes on the Fermi gas

* `beta` and `mu` are single numbers; the functions loop over arrays of them.
  `beta = inf` is a constructor of its own.
* The energy spacing (`get_energy_spacing`) is only used for a warning, but is
  computed before it and raises where no two energies differ after rounding to
  12 decimals.  `good_size` asks for at least two sites and at most 10^12 modes;
  the theorem that then two levels are further apart is part of C91.
* `root_scalar` and `minimize` of scipy are arguments; C93 asks that a returned
  root is a root.  Whether the solver finds one is not claimed.
* `fg_magnetic_response` (an alias of `fg_density_response`) and the plotting code of `get_dos2` (unreachable) are not
  modelled.
* C100 speaks about probabilities on pairs of numbers; that `fg_density` and
  `fg_corr` are those of free fermions (Wick's theorem) is C119.
* All theorems of this group use the standard library's reals.

## Notes on free fermions

* `filled T U e i j` is the sum over one-particle levels of the Fermi function
  times conj(U i) U j; `particle_matrix` is the one-particle Hamiltonian the code
  diagonalizes implicitly, with the factor |dx| + |dy| of `createH` (C14).
* The averages are those of any orthonormal eigenbasis of the matrix `createH`
  returns; C120 shows that there is one.
* At zero temperature the averages are not covered by C117..C119.
* C119 needs the geometry (C35), the Hamiltonian (C12..C14) and the Fermi gas
  (C90..C100) at once, and therefore their bounds on sizes (10^12 modes).
* The theorems use the standard library's reals; C120, and C119's refutation also
  `Classical_Prop.classic`.

## Notes on symmetries of lattices

* A `motion` exchanges the axes or not, changes signs or not, and shifts by
  integers.  `keeps` says that it takes the lattice to itself.
* `gives` asks that the map handed to `findSiteCycles` is within 5e-15 of the
  motion on the sites.  The library's maps are modelled over the reals (C126_maps)
  and the search over rationals, so the rounding of sin and cos is covered by this
  margin and not computed.  An example shows that an error of 1e-13 is refused on a
  ring with an even number of sites, although the tolerance is 1e-10.
* `SpecHalf.v` states the hypotheses of C130 and C132 on the couplings alone:
  `two_coloured`, `balanced` (the field every particle sees vanishes when half of
  its partners are there) and `spin_symmetric`.
* `SpecEta.v` states the symmetry of the couplings behind C139; `SpecThermo.v` the system with another
  chemical potential of C140.
* `HeisE.v` bounds the energies of Heisenberg models, for C193; `HeisTop.v` treats the state of parallel spins.
* `Scalar.v` treats the scalar product of two spins, for C192.
* `Ball.v` bounds the three components of one spin together, for C191; `BallOne.v` shows that a single spin reaches the bound.
* `PropertiesGivenPairs.v` adds correlations of given pairs of sites to C87.
* `Pauli.v` compares the Pauli matrices with the spin operators, for C190.
* `ModelProjectors.v` models the remaining class attributes of the spin systems, for C189.
* `Split.v` shows that evolution under two commuting terms is the product of the evolutions, `Parts.v` that matrices on complementary groups of spins commute, for C188.
* `ModelShape.v` models arrays with any number of indices as a shape and a list of elements, for C187.
* `SpecPinned.v` defines fermions without hopping and spins with couplings along z only, for C186.
* `SpecBloch.v` defines real couplings and fields and the coupling of two spins along an axis, for C185.
* `SpecReversal.v` defines real and imaginary operators and spins without a field along y, for C184.
* `SpecFlow.v` defines the flow of particles between two sites and the amplitude in either order, for C183.
* `SpecUncertain.v` defines variances and Hermitian operators of a given size, for C181.
* `SpecEcho.v` defines the probabilities of levels and energies in a state, for C179.
* `SpecRates.v` defines the operator of the rate of change and states of definite energy, for C180.
* `SpecMagnet.v` says when two spin models differ by a uniform field along z and which operators keep the moment along z, for C178.
* `SpecRatios.v` defines the ratio of neighbouring spacings, for C177.
* `SpecMus.v` says when two fermion models differ in chemical potentials only and when a sector has given numbers, for C175.
* `SpecLongtime.v` defines equally spaced times, the mean, the part of a state at one energy and the value without interference, for C176.
* `SpecGauge.v` says when two fermion models differ by units and signs, what a configuration is and which operators are measured, for C171 to C174.
* `SpecAxes.v` says when a spin model is another one described along other axes, for C169 and C170.
* `SpecPrecess.v` says when an operator shifts energies and how vectors turn about an axis, for C166 to C168.
* `SpecOptical.v` states Kubo's formula at one frequency, for C165.
* `SpecAddition.v` states which total spins two spins can have and the energies of spins added one at a time, for C162-C164.
* `SpecChain.v` states the relations between the symmetries of a ring and what the numbers of a sector mean, for C159-C161.
* `SpecCentre.v` states sums of displacements and of squared distances, for C158.
* `SpecCurrent.v` states open clusters, amplitudes per axis and the position operator, for C156 and C157.
* `SpecRepelSpin.v` states the components of the total spin of two species and the spin expected of a sector, for C155.
* `SpecRepel.v` states repulsion between two species on two kinds of sites, the exchange of particles and holes and its sign, for C154.
* `SpecValid.v` states which adjacency and phase matrices are sensible, for C151.
* `SpecLieb.v` states attraction between two species, configurations of one species and the system with one of them, for C150.
* `SpecSinglet.v` states isotropic couplings, two kinds of sites and the total spin, for C149.
* `SpecShells.v` states fixed numbers of particles, amplitudes, hops that pass an even number of particles and sites linked by hops, for C148.
* `SpecSectors.v` states sectors of flipped spins, exchanging and linked sites and the energy of aligned spins, for C147.
* `SpecSigns.v` states signs of basis states, matrices that lower or raise them, joined basis states and unfrustrated spins, for C146.
* `SpecConvex.v` states the free energy and systems that differ in interactions, potentials or fields, for C145.
* `SpecHeat.v` states probabilities of levels, mean energy, entropy and specific heat, for C143.
* `SpecLinked.v` states sums over connected parts and the number of bonds of a set of sites, for C144.
* `SpecCells.v` states steps, corners and heights of triangular lattices and when sites can be told apart, for C141 and C142.
* `SpecZero.v` states the filling at temperature zero of C136 and C137; `SpecAtomic.v` the site
  without bonds of C138.
* `SpecJordan.v` states the relation of the couplings of C133; `SpecRect.v` the waves and
  levels of C134 and C135.  `ModelSpinLattice.v` is the lattice as the spin systems read it.
* The lattices of C127..C129 and C131 have no twist, and couplings are numbers or one
  number per species; C126 holds with twists too.
* The theorems use the standard library's reals.

## Notes on the remaining methods

* `ModelRest.v`: scipy's `expm` is a function argument; the theorem asks that it
  sums the exponential series, and `exponential_exists` shows that such a matrix
  exists for every matrix with an eigenbasis.  That scipy accepts sparse matrices
  there depends on its version.
* `ModelSmall.v`: functions that only call another one (`__ne__`,
  `reduce_to_unit_cell`, `fg_magnetic_response`).
* `ModelCurrent.v` is `get_current_op`; `ModelChain.v` is the script
  `examples/heisenberg_chain.py`, whose loops append to five lists that are here
  one list of records, and whose operator 1 for a motion without cycles is the
  unit matrix.
* `ModelFourSpins.v` is the script `examples/4spins_test.py` without its call of
  `dispGeometry`, which only draws.
* Polygons are over the reals, without the rounding of the constructor; only the
  adjacency matrix and the locations are modelled.
* Attributes of a geometry are a list of names; those of other kinds than arrays
  indexed by two sites are left out.
* Not modelled, because empty or only a thin wrapper or for display: `wynn_resum`,
  `get_interaction_op`, `get_field_op`, `check_version`, `dispGeometry`,
  `plot_results.py`.

## Notes on Green's functions

* `greens_fns.py` is modelled completely except its warnings; arrays are lists,
  spectral functions are real, times are given as an array.
* An integral is stated through an antiderivative, not through a construction
  of the integral.
* `np.trapz` is modelled by its formula; C62 states it through `trapezoid`.
* Broadcasting an array of length one is reported as ValueError.

## Notes on files

* `ModelStore.v`: the heap is a list of attribute dictionaries, an object is a
  reference to one, so that `self.__dict__ = loaded.__dict__` shares.  `pickle`
  and `savemat` are function arguments that say which values they accept; a
  failing dump leaves a broken file.  `os.path.splitext` is modelled on
  characters.  Directories, permissions and the disk being full are not modelled.
* `ModelPipeline.v`: the scripts in `cluster/` that enumerate clusters.
  `diag_cluster.py` is modelled in `ModelRun.v`, without its files and times: for
  clusters of two sites it calls `getTwoSiteOp`, which does not exist.  Pairs whose
  correlation it would sum are therefore not modelled.  `aggregate_results.py` is modelled up to
  the reading of the cluster data, where it already fails.
* Values of dictionaries are compared by equality, file names as strings.

## Notes on the cluster expansion

* Clusters are geometries of the model of `ed_geometry.py`; the theorems speak
  about the integer points at which their sites lie (`at_sites`).
* The quarter turns and reflections of `get_clusters_rel_by_symmetry` are taken
  exact on the rational coordinates and then rounded to 14 decimals as in the
  code; on integer points the rounding does nothing.
* `get_reduced_subclusters` divides by the number of members of a class with a
  sparse matrix product; the model uses exact rationals.
* The enumeration theorems (C49, C50, C53, C74..C77) are closed; C51 and C52 use
  the standard library's reals.

## Notes on the symmetry model

* `numpy.linalg.svd` in the multi-dimensional branch of `reduce_symm_projector`
  is a function argument; the theorems ask of it only that its output is an
  orthonormal basis of the row space (`row_basis`).  `SymGram.v` constructs one
  (Gram-Schmidt), so the hypothesis can be met.
* The roundings to 10 or 14 decimals in the sector code are left out, entries
  being exact; comparisons with a tolerance then compare with zero.
* Rows of sparse matrices are taken in order of the index; scipy may list the
  non-zero entries of a row in another order, which the code does not use.
* Real-number axioms: C25..C27, C35, C36, C38..C40, C42, C45..C48, C73 (phases,
  square roots, rotations) use the standard library's reals and list its axioms
  under `Print Assumptions`.  C43 and C44 are closed.
