{"id": "C01", "title": "Counting particles in a basis state", "statement": "The particle number that the general bases read off an integer basis state (the number of set bits among the first l bits) is exactly the number of occupied sites, for every state and every prefix length the basis code uses, on each of the integer widths used for states.", "quantifier": "every state value of every supported integer width and every prefix length smaller than the width", "why_tests_cant": "There are 2^32 to 2^16384 states per width; tests only see small chains, and the counting trick uses word-parallel arithmetic whose carries depend on the whole word.", "anchors": ["quspin/basis/basis_general/_basis_general_core/source/bits_info.h: bit_count", "quspin/basis/basis_general/_basis_general_core/source/spinless_fermion_basis_core.h: op", "quspin/basis/basis_general/_basis_general_core/source/hcb_basis_core.h: count_particles"]}
{"id": "C02", "title": "Particle-number sector enumeration (spin-1/2, hard-core bosons, spinless fermions)", "statement": "Starting from the lowest state with Np particles, repeatedly asking for the next state visits every N-site state with Np particles exactly once, in increasing order, and the number of visited states is the binomial coefficient N choose Np that the basis allocates for.", "quantifier": "every number of sites and every particle number, every position of the enumeration", "why_tests_cant": "The enumeration uses a carry/divide bit trick; a test can only compare small N, while one skipped state silently removes a row of every Hamiltonian.", "anchors": ["quspin/basis/basis_general/_basis_general_core/source/hcb_basis_core.h: next_state_pcon", "quspin/basis/basis_general/_basis_general_core/source/spinless_fermion_basis_core.h: next_state_pcon", "quspin/basis/basis_general/base_hcb.py: hcb_basis_general.__init__", "quspin/basis/basis_general/_basis_general_core/hcb_core.pyx: get_Ns_pcon, get_s0_pcon"]}
{"id": "C03", "title": "Particle-number sector enumeration (bosons and higher spins)", "statement": "For every local dimension sps, every number of sites and every total particle number, the successor step maps a state to the next larger integer having the same digit sum, so that the enumeration from the lowest state is complete, duplicate free and sorted.", "quantifier": "every sps, N, particle number and every state", "why_tests_cant": "Digit carries of arbitrary length; tests enumerate only tiny systems.", "anchors": ["quspin/basis/basis_general/_basis_general_core/source/boson_basis_core.h: next_state_pcon", "quspin/basis/basis_general/_basis_general_core/source/higher_spin_basis_core.h: next_state_pcon"]}
{"id": "C04", "title": "Particle-number sector enumeration (spinful fermions)", "statement": "For every number of sites and every pair of particle numbers (Nup, Ndown) the spinful successor step enumerates exactly the pairs of up/down configurations with those particle numbers in increasing order.", "quantifier": "every N, Nup, Ndown and every state", "why_tests_cant": "The step combines two half-word enumerations with a carry between them; small tests never meet all carry positions.", "anchors": ["quspin/basis/basis_general/_basis_general_core/source/spinful_fermion_basis_core.h: next_state_pcon"]}
{"id": "C05", "title": "Dimension formulas of particle sectors", "statement": "The dimension that the boson/higher-spin bases compute with the closed inclusion-exclusion formula equals the true number of occupation lists with the given total and local cutoff.", "quantifier": "every number of particles, number of sites and local cutoff", "why_tests_cant": "An alternating sum of binomials; equality has to hold for every triple of arguments.", "anchors": ["quspin/basis/basis_general/boson.py: H_dim", "quspin/basis/basis_1d/_basis_1d_core/boson_basis.pyx: H_dim, get_Ns", "quspin/basis/basis_general/base_higher_spin.py"]}
{"id": "C06", "title": "Symmetry maps act by moving (and inverting) site occupations", "statement": "Applying a user supplied symmetry map to a basis state moves the occupation of site i to site map[i], inverting it when the map entry is negative, and does nothing else; consequently every valid map acts as a bijection on basis states, keeps the particle number (when it has no inversions), and iterating it period-many times is the identity.", "quantifier": "every valid map (list of non-repeating, possibly sign-flipped site labels) and every state", "why_tests_cant": "N! * 2^N maps exist; tests use translations, parity and spin flip only.", "anchors": ["quspin/basis/basis_general/_basis_general_core/source/hcb_basis_core.h: hcb_map_bits", "quspin/basis/basis_general/_basis_general_core/source/boson_basis_core.h: boson_map_bits", "quspin/basis/basis_general/base_general.py: process_map"]}
{"id": "C07", "title": "Fast bit permutation network agrees with the permutation", "statement": "The precomputed Benes network used to apply a lattice permutation to a state gives the same result as moving the bits one by one, for every permutation and every state.", "quantifier": "every permutation of every supported width and every state", "why_tests_cant": "The routing construction depends on the cycle structure of the permutation; there are 32! .. 16384! permutations.", "anchors": ["quspin/basis/basis_general/_basis_general_core/source/benes_perm.h: gen_benes, bfly, ibfly, benes_bwd", "quspin/basis/basis_general/_basis_general_core/source/hcb_basis_core.h: map_state"]}
{"id": "C08", "title": "Representative of a symmetry orbit", "statement": "The representative returned for a state is the largest state of its orbit under all products of powers of the symmetry maps; all states of one orbit get the same representative, a representative is its own representative, and the returned group element and sign do carry the state to the representative.", "quantifier": "every set of commuting symmetry maps with their periods and every state", "why_tests_cant": "Orbits of arbitrary product groups; a tie broken wrongly only shows for states with non-trivial stabiliser.", "anchors": ["quspin/basis/basis_general/_basis_general_core/source/general_basis_core.h: ref_state_core_unrolled", "quspin/basis/basis_general/_basis_general_core/source/general_basis_core.h: general_basis_core::ref_state"]}
{"id": "C09", "title": "Norm of a symmetry-adapted state", "statement": "A state is kept in a symmetry block exactly when it is the representative of its orbit and the requested quantum numbers are compatible with its stabiliser; in that case the stored norm is the number of group elements fixing the state, and it is zero or the state is rejected otherwise.", "quantifier": "every set of commuting maps, quantum numbers, and states (with and without fermion signs)", "why_tests_cant": "Compatibility is a statement about sums of roots of unity over arbitrary stabilisers.", "anchors": ["quspin/basis/basis_general/_basis_general_core/source/general_basis_core.h: check_state_core_unrolled", "quspin/basis/basis_general/_basis_general_core/source/make_general_basis.h: make_basis_sequential"]}
{"id": "C10", "title": "Basis construction lists exactly the symmetry block", "statement": "The list of states of a constructed general basis is strictly decreasing, contains exactly the representatives with non-zero norm of the chosen particle sector, each with its norm; no state is lost and none is duplicated. When the buffer is too small the construction reports it instead of returning a truncated list.", "quantifier": "every symmetry group, quantum numbers, particle sector, buffer size", "why_tests_cant": "Requires completeness over the exponentially large parent space.", "anchors": ["quspin/basis/basis_general/_basis_general_core/source/make_general_basis.h: make_basis_sequential, make_basis_pcon_sequential, make_basis", "quspin/basis/basis_general/base_general.py: make"]}
{"id": "C11", "title": "Parallel basis construction is schedule independent", "statement": "With any number of threads and any assignment of states to threads the parallel construction yields the same list as the sequential one.", "quantifier": "every thread count, every interleaving / distribution of states over the threads", "why_tests_cant": "Tests run with one or a few threads and see one schedule.", "anchors": ["quspin/basis/basis_general/_basis_general_core/source/make_general_basis.h: make_basis_parallel, make_basis_pcon_parallel"]}
{"id": "C12", "title": "Index lookup", "statement": "Looking up a state in a basis returns its position if the state is in the basis and a 'not found' result otherwise; using the precomputed prefix blocks to narrow the search never changes the answer; for bases without symmetries the closed formula Ns-s-1 is the same position.", "quantifier": "every sorted basis list, every prefix length and every queried state", "why_tests_cant": "Off-by-one at block boundaries depends on the data.", "anchors": ["quspin/basis/basis_general/_basis_general_core/source/misc.h: binary_search, rep_position", "quspin/basis/basis_general/_basis_general_core/source/make_general_basis.h: make_basis_blocks", "quspin/basis/basis_general/_basis_general_core/source/general_basis_op.h", "quspin/basis/basis_general/base_general.py: index"]}
{"id": "C13", "title": "Spin-1/2 operator strings", "statement": "Acting with an operator string on a spin-1/2 basis state gives the matrix element and target state of the product of the local operators (in the written order, the right-most acting first), where local operators are the textbook z, n, x, y, +, -, I matrices.", "quantifier": "every operator string, every list of sites (repeated sites allowed) and every state", "why_tests_cant": "Strings of arbitrary length with repeated sites and zero intermediate results.", "anchors": ["quspin/basis/basis_general/_basis_general_core/source/hcb_basis_core.h: op"]}
{"id": "C14", "title": "Boson and spin-S operator strings", "statement": "Acting with an operator string on a boson or spin-S basis state gives the product of textbook local operators (n, +, -, z and I).", "quantifier": "every string, every site list, every local dimension and every state", "why_tests_cant": "Cut-offs at both ends of the local space combined with strings of arbitrary length.", "anchors": ["quspin/basis/basis_general/_basis_general_core/source/boson_basis_core.h: op", "quspin/basis/basis_general/_basis_general_core/source/higher_spin_basis_core.h: op"]}
{"id": "C15", "title": "Fermion operator strings obey the canonical anticommutation relations", "statement": "The operators '+' and '-' of the spinless and spinful fermion bases satisfy {c_i, c_j^+} = delta_ij and {c_i, c_j} = 0 on every state, and 'n', 'z' are the corresponding number operators; strings are products of them.", "quantifier": "every pair of sites, every state, every string", "why_tests_cant": "Signs depend on the parity of the occupied sites before the site; sampled tests can miss sign errors which cancel in hopping terms.", "anchors": ["quspin/basis/basis_general/_basis_general_core/source/spinless_fermion_basis_core.h: op", "quspin/basis/basis_general/_basis_general_core/source/spinful_fermion_basis_core.h: op"]}
{"id": "C16", "title": "Hermitian conjugate of an operator string", "statement": "The operator string that the bases produce as the Hermitian conjugate of a given string is the adjoint matrix: <r|O|s> equals the complex conjugate of <s|O_hc|r>.", "quantifier": "every string, coupling, site list and pair of states", "why_tests_cant": "Quantified over strings of every length (sign rules for fermions).", "anchors": ["quspin/basis/basis_general/spin.py: _hc_opstr", "quspin/basis/basis_general/fermion.py: _hc_opstr", "quspin/basis/basis_general/boson.py: _hc_opstr"]}
{"id": "C17", "title": "Symmetry-reduced matrix is the restriction of the full operator", "statement": "For an operator commuting with all symmetry maps, the matrix computed in a symmetry block equals P^dagger O P where the columns of P are the normalised symmetry-adapted states built on the full space.", "quantifier": "every group of maps, quantum numbers, symmetric operators", "why_tests_cant": "This is the core claim of exact diagonalisation in symmetry blocks; tests compare spectra of small chains.", "anchors": ["quspin/basis/basis_general/_basis_general_core/source/general_basis_op.h: general_op / general_op_core", "quspin/basis/basis_general/_basis_general_core/source/general_basis_core.h: ref_state"]}
{"id": "C18", "title": "Projector is an isometry", "statement": "The projector from a symmetry block to the full space has orthonormal columns, its range is the joint eigenspace with the given quantum numbers, and different quantum numbers give orthogonal ranges.", "quantifier": "every group of maps and all quantum numbers", "why_tests_cant": "Orthogonality is a statement about all pairs of orbits.", "anchors": ["quspin/basis/basis_general/base_general.py: get_proj, project_from", "quspin/basis/basis_general/_basis_general_core/source/general_basis_get_vec.h: project_from_general_dense"]}
{"id": "C19", "title": "project_to undoes project_from", "statement": "Projecting a block state to the full (or particle-conserving) space and back returns the same state; the dense and the sparse ways of doing it agree.", "quantifier": "every state vector, every symmetry block, sparse or dense argument", "why_tests_cant": "Complex phases have to cancel for every vector and every momentum.", "anchors": ["quspin/basis/basis_general/_basis_general_core/source/general_basis_get_vec.h: project_to_general_dense, project_to_rep_basis", "quspin/basis/basis_general/base_general.py: project_to, project_from"]}
{"id": "C20", "title": "Fermionic sign of lattice maps", "statement": "The sign picked up when a symmetry map is applied to a fermionic state is the sign of the permutation that re-sorts the occupied orbitals, so that maps act as unitary representation: U c_i^+ U^-1 = c_map(i)^+ and signs multiply under composition.", "quantifier": "every permutation, every state", "why_tests_cant": "Inversion parity of an arbitrary subset of an arbitrary permutation.", "anchors": ["quspin/basis/basis_general/_basis_general_core/source/spinless_fermion_basis_core.h: map_state, mergeSort/countInversions"]}
{"id": "C21", "title": "Normal ordering of operator strings keeps the operator", "statement": "Sorting an operator string by site (with the fermion sign) gives a string representing the same operator; the canonical form of two strings which differ only by commuting factors is equal.", "quantifier": "every operator string and site list", "why_tests_cant": "Strings of arbitrary length; the sign depends on the number of fermionic swaps.", "anchors": ["quspin/basis/basis_general/fermion.py: _sort_opstr", "quspin/basis/basis_general/spin.py: _sort_opstr", "quspin/basis/basis_1d/spin.py: _sort_opstr"]}
{"id": "C22", "title": "Hermiticity check is sound", "statement": "When check_hermitian accepts static and dynamic lists, the Hamiltonian built from them is Hermitian; lists of Hermitian Hamiltonians written term by term are accepted.", "quantifier": "every static/dynamic list", "why_tests_cant": "The check is syntactic, the claim is semantic and quantifies over all lists.", "anchors": ["quspin/basis/base.py: _check_hermitian / check_hermitian, _consolidate_local_lists", "quspin/basis/basis_general/spin.py: _non_zero"]}
{"id": "C23", "title": "Particle-conservation and symmetry checks are sound", "statement": "When the particle-number check accepts a list every term maps each particle sector to itself; when the symmetry check accepts a list the operator commutes with every symmetry map.", "quantifier": "every list of operators, every set of maps", "why_tests_cant": "Syntactic checks standing for semantic claims on exponentially large matrices.", "anchors": ["quspin/basis/base.py: check_pcon, check_symm", "quspin/basis/basis_general/base_general.py: _check_symm", "quspin/basis/basis_general/base_general.py: check_symmetry_maps"]}
{"id": "C24", "title": "In-place operator application equals the matrix", "statement": "Acting with an operator string directly on a vector gives the same vector as multiplying with the matrix of the string, its transpose, its conjugate, or its adjoint, as selected by the flags.", "quantifier": "every operator, flag combination, vector and basis", "why_tests_cant": "Flags interact with complex couplings and complex phases.", "anchors": ["quspin/basis/basis_general/_basis_general_core/source/general_basis_op.h: general_inplace_op_core", "quspin/basis/basis_general/_basis_general_core/general_basis_core.pyx: inplace_op", "quspin/basis/basis_general/base_general.py: inplace_Op"]}
{"id": "C25", "title": "Parallel merge-path CSR matrix-vector product", "statement": "The load-balanced parallel CSR product gives y (+)= a*A*x for every matrix, every number of threads and every completion order; each row is written exactly once and each non-zero is used exactly once.", "quantifier": "every CSR matrix (with empty rows), every vector, every thread count", "why_tests_cant": "Split points depend on matrix shape and thread count; a test covers a handful of combinations.", "anchors": ["quspin/tools/matvec/_oputils/csrmv_merge.h: MergePathSearch, csrmv_merge", "quspin/tools/matvec/_oputils/csr.h"]}
{"id": "C26", "title": "CSR, CSC and DIA kernels compute the same product", "statement": "All matrix formats give the product of the matrix they store: y := a*A*x when overwriting and y += a*A*x otherwise, for single vectors and for multiple vectors of any memory layout.", "quantifier": "every matrix, format, layout, scale factor and previous content of the output", "why_tests_cant": "Layout dispatch has many combinations; index formulas for diagonals clip at both ends.", "anchors": ["quspin/tools/matvec/_oputils/csr.h", "quspin/tools/matvec/_oputils/csc.h", "quspin/tools/matvec/_oputils/dia.h", "quspin/tools/matvec/_oputils.pyx", "quspin/tools/matvec/matvec_core.py"]}
{"id": "C27", "title": "Parallel expm_multiply", "statement": "The parallel matrix-exponential action computes, independently of the number of threads, the s-fold application of the order-m truncated Taylor series of exp((a/s)(A - mu)) times exp(a mu/s), with early termination only dropping terms below the tolerance; all memory is written before it is read.", "quantifier": "every matrix, vector, scale a, thread count", "why_tests_cant": "Depends on norms, early-stop path and thread barriers.", "anchors": ["quspin/tools/expm_multiply_parallel_core/source/expm_multiply_parallel.h", "quspin/tools/expm_multiply_parallel_core/expm_multiply_parallel_core.py"]}
{"id": "C28", "title": "Subsystem reshaping and reduced density matrices", "statement": "Reordering a state vector to separate subsystem A from its complement moves the amplitude of every configuration to the position given by its A and B digits; the reduced density matrices obtained from it are rho_A[i,k] = sum_j psi_ij conj(psi_kj) and likewise for B: Hermitian, positive, of trace one for normalised states.", "quantifier": "every subsystem, every number of sites, every sps and every state", "why_tests_cant": "Index gymnastics over all subsets of sites.", "anchors": ["quspin/basis/_reshape_subsys.py", "quspin/basis/_basis_utils.pyx", "quspin/basis/_basis_utils/shuffle_sites.h"]}
{"id": "C29", "title": "Tensor product basis", "statement": "States of a tensor basis are pairs of factor states, the index map is a bijection, and the matrix of a split operator string 'a|b' is the Kronecker product of the matrices of a and b; also for several nested factors.", "quantifier": "every pair of bases and every operator string", "why_tests_cant": "Quantified over factor bases and operators.", "anchors": ["quspin/basis/tensor.py: Op, index, get_proj, _sort_opstr, _ent_entropy"]}
{"id": "C30", "title": "Hamiltonian arithmetic is pointwise operator arithmetic", "statement": "For time-dependent Hamiltonians, (A+B)(t)=A(t)+B(t), (A-B)(t), (A*B)(t)=A(t)B(t), (cA)(t), -A, transpose, conjugate and adjoint hold at every time, for the binary and the in-place forms; operands are not changed.", "quantifier": "every pair of Hamiltonians (any static part, any dynamic terms, dense or sparse) and every time", "why_tests_cant": "Dynamic terms are merged by function identity; combinations of shared and unshared terms are unbounded.", "anchors": ["quspin/operators/hamiltonian_core.py: _add_hamiltonian, _mul_hamiltonian, _imul_sparse, _rmul_hamiltonian, transpose, getH"]}
{"id": "C31", "title": "Time-dependent coefficient functions", "statement": "Products, conjugates and powers of coefficient functions evaluate to the product, conjugate and power of the values at every time, and two coefficients are merged only if they agree at all times.", "quantifier": "every expression tree over user functions, every time", "why_tests_cant": "Merging is decided by hashes; equality of hashes on samples does not imply equality of functions.", "anchors": ["quspin/operators/_functions.py", "quspin/operators/_make_hamiltonian.py: make_dynamic"]}
{"id": "C32", "title": "Parameter dictionaries of quantum_operator have no memory", "statement": "The value of quantum_operator methods depends only on the operator and the parameters passed in the call, not on earlier calls on this or other operators; the caller's dictionary is not changed.", "quantifier": "every sequence of calls on every collection of operators", "why_tests_cant": "A history property: shared mutable defaults only show for particular call sequences.", "anchors": ["quspin/operators/quantum_operator_core.py: _check_scalar_pars, dot, tocsr, __neg__, copy"]}
{"id": "C33", "title": "Operator views do not change the operator", "statement": "Taking the transpose, the conjugate or the adjoint of an operator object, or using it from the left, does not change what the object itself does afterwards.", "quantifier": "every sequence of view and application calls on quantum_LinearOperator, exp_op, hamiltonian and quantum_operator objects", "why_tests_cant": "History property over arbitrary call sequences.", "anchors": ["quspin/operators/quantum_LinearOperator_core.py: T, H, conj, _rmatvec", "quspin/operators/exp_op_core.py: transpose, getH, sandwich"]}
{"id": "C34", "title": "Liouville-von Neumann right-hand side", "statement": "The right-hand side used to evolve a density matrix is -i[H(t), rho], for every storage format of H.", "quantifier": "every Hermitian H (real or complex), every rho, every storage format", "why_tests_cant": "The tests use real symmetric Hamiltonians for which a missing transpose is invisible.", "anchors": ["quspin/operators/hamiltonian_core.py: __LO, evolve"]}
{"id": "C35", "title": "Schroedinger right-hand side in real and imaginary time", "statement": "The complex, the real-stacked and the imaginary-time right-hand sides represent -iH(t)psi and -H(t)psi for all states; stacking and unstacking of real and imaginary parts are inverse to each other.", "quantifier": "every H(t), state and time", "why_tests_cant": "Equality of vector fields on the whole space.", "anchors": ["quspin/operators/hamiltonian_core.py: __SO, __SO_real, __ISO, evolve", "quspin/tools/evolution.py: evolve, _format_output"]}
{"id": "C36", "title": "Lanczos recurrence", "statement": "The vectors produced by the Lanczos routines are orthonormal and satisfy H q_i = b_{i-1} q_{i-1} + a_i q_i + b_i q_{i+1}; the full and the iterative variants return the same basis, also when the Krylov space is exhausted early.", "quantifier": "every Hermitian operator, every start vector, every number of steps", "why_tests_cant": "An induction over steps; early termination depends on the invariant subspace.", "anchors": ["quspin/tools/lanczos/_lanczos_utils.py: lanczos_full, lanczos_iter, lin_comb_Q_T, expm_lanczos"]}
{"id": "C37", "title": "Parallel block evolution pipeline", "statement": "Evolving several symmetry blocks with worker processes yields exactly the same sequence of states as doing it sequentially, for every number of workers and every scheduling of workers and consumer, without deadlock and without reordering.", "quantifier": "every number of blocks and workers, every interleaving of the queue and event operations, every length of the time grid", "why_tests_cant": "Scheduling non-determinism.", "anchors": ["quspin/tools/block_tools.py: _worker, _generate_parallel, _evolve_gen, block_diag_hamiltonian"]}
{"id": "C38", "title": "One-dimensional lattice symmetries on bit strings", "statement": "In the one-dimensional bases translation, reflection and spin inversion (full and sublattice) act on bit strings as the corresponding site permutations/inversions and satisfy T^L=1, P^2=1, Z^2=1, PTP=T^-1, ZT=TZ, ZA ZB = Z.", "quantifier": "every chain length, shift distance and state", "why_tests_cant": "Bit arithmetic with masks and wrap-around for all lengths.", "anchors": ["quspin/basis/basis_1d/_basis_1d_core/sources/hcp_bitops.pyx", "quspin/basis/basis_1d/_basis_1d_core/sources/boson_bitops.pyx"]}
{"id": "C39", "title": "One-dimensional representatives and periods", "statement": "The one-dimensional checks accept a state exactly if it is the extremal state of its orbit under the requested symmetries and the quantum numbers are compatible; the reported period is the smallest shift returning the state, and the reference-state routine returns the representative together with the shift and reflection/inversion counts reaching it.", "quantifier": "every length, symmetry combination, quantum numbers and state", "why_tests_cant": "Case analysis with early exits over orbits of every shape.", "anchors": ["quspin/basis/basis_1d/_basis_1d_core/sources/checkstate.pyx", "quspin/basis/basis_1d/_basis_1d_core/sources/refstate.pyx"]}
{"id": "C40", "title": "Photon basis sectors", "statement": "The particle-photon basis with conserved total lists exactly the pairs with Nphoton + Nparticle = Ntot, and photon operator strings act as truncated harmonic oscillator operators.", "quantifier": "every particle basis, Ntot, photon cut-off and operator string", "why_tests_cant": "Ranges over every particle basis and total number.", "anchors": ["quspin/basis/photon.py: photon_Hspace_dim, Op, _pcon", "quspin/basis/photon.py: ho_basis"]}
{"id": "C41", "title": "Saving and loading operators", "statement": "Loading an archive written by save_zip returns an operator with the same keys and matrices.", "quantifier": "every operator, i.e. every set of key strings and matrices", "why_tests_cant": "Key strings are arbitrary; file names are decoded by substring replacement.", "anchors": ["quspin/operators/quantum_operator_core.py: save_zip, load_zip"]}
{"id": "C42", "title": "State <-> integer conversions", "statement": "Converting an integer state to the printed occupation string and back is the identity, and positions in the string are site numbers; python integers survive the conversion to fixed-width basis integers exactly when they fit.", "quantifier": "every state, number of sites, local dimension and integer width", "why_tests_cant": "Unbounded widths.", "anchors": ["quspin/basis/basis_general/base_general.py: int_to_state, state_to_int", "quspin/basis/basis_general/_basis_general_core/general_basis_utils.pyx: python_int_to_basis_int"]}
{"id": "C43", "title": "Expansion of x and y into ladder operators", "statement": "Replacing x and y by + and - in an operator string (as done before the symmetry checks) gives a sum of strings representing the same operator.", "quantifier": "every operator string and every spin normalisation", "why_tests_cant": "Exponentially many terms with signs and powers of i.", "anchors": ["quspin/basis/basis_general/spin.py: _expand_opstr", "quspin/basis/base.py: expanded_form"]}
{"id": "C44", "title": "Merging couplings keeps the operator", "statement": "Merging repeated terms of static and dynamic lists (summing couplings of equal operator strings and sites, dropping numerically zero sums) gives the same operator; terms with different time dependence are never merged.", "quantifier": "every static and dynamic list", "why_tests_cant": "Lists of arbitrary length and repetition.", "anchors": ["quspin/operators/_make_hamiltonian.py: _consolidate_static, _consolidate_dynamic", "quspin/basis/base.py: _consolidate_local_lists"]}
{"id": "C45", "title": "Expectation values, variances and matrix elements", "statement": "Expectation values of Hermitian operators are real, quantum fluctuations are non-negative and equal <H^2>-<H>^2, matrix_ele(l,r) is conjugate-linear in l and linear in r.", "quantifier": "every Hermitian operator and state", "why_tests_cant": "Quantified over all vectors.", "anchors": ["quspin/operators/hamiltonian_core.py: expt_value, quant_fluct, matrix_ele"]}
{"id": "C46", "title": "Operators between different symmetry sectors", "statement": "Op_shift_sector maps a state of one symmetry sector to the image O|psi> expressed in the other sector, Op_bra_ket gives the matrix elements <bra|O|ket> of the representative states.", "quantifier": "every pair of sectors, operator and state", "why_tests_cant": "Depends on stale group labels for states that already are representatives.", "anchors": ["quspin/basis/basis_general/_basis_general_core/source/general_basis_op.h: general_op_shift_sectors, general_op_bra_ket, general_op_bra_ket_pcon"]}
{"id": "C47", "title": "Ensemble and entropy measurements", "statement": "Renyi entropies equal log(sum p^alpha)/(1-alpha) for every alpha, mean_level_spacing lies in [0,1], KL divergence is non-negative, diagonal-ensemble temporal fluctuations equal the long-time variance.", "quantifier": "every spectrum, state and alpha", "why_tests_cant": "Real-valued identities and inequalities over all inputs.", "anchors": ["quspin/basis/tensor.py: _ent_entropy", "quspin/basis/lattice.py: _ent_entropy", "quspin/tools/misc.py: mean_level_spacing, KL_div", "quspin/tools/measurements.py: diag_ensemble"]}
{"id": "C48", "title": "Square-lattice transformations", "statement": "The translations, reflections and sublattice inversions of the square-lattice helper are valid symmetry maps with the stated periods (Lx, Ly, 2), translations commute, and they commute/anticommute with reflections as the lattice group prescribes.", "quantifier": "every Lx, Ly", "why_tests_cant": "All lattice sizes.", "anchors": ["quspin/basis/transformations/square.py: square_lattice_trans", "quspin/basis/transformations/square.py: allowed_blocks_spin_inversion_iter"]}
{"id": "C49", "title": "Accepted symmetry maps and their periods", "statement": "A user supplied map is accepted if and only if it sends the sites one-to-one onto the sites (ignoring inversions), and the period recorded for an accepted map is the smallest positive number of applications after which every basis state is back, whatever the local dimension.", "quantifier": "every list of integers used as a map; every state and local dimension", "why_tests_cant": "Periods of signed permutations grow faster than any enumeration; must hold for all maps.", "anchors": ["quspin/basis/basis_general/base_general.py: process_map"]}
{"id": "C50", "title": "Warning about non-commuting symmetries", "statement": "No non-commuting warning is given for two maps if and only if applying them in either order gives the same state for every state.", "quantifier": "every pair of valid maps and every state", "why_tests_cant": "Quantified over pairs of signed permutations and states.", "anchors": ["quspin/basis/basis_general/base_general.py: check_symmetry_maps"]}
{"id": "C51", "title": "Bit operations on arrays of states", "statement": "The functions bitwise_not, bitwise_and, bitwise_or, bitwise_xor, bitwise_leftshift and bitwise_rightshift return the operation applied to every element, leave out unchanged where the mask is False, and never read or write outside the arrays, whatever the number of threads, also when out is one of the inputs.", "quantifier": "every array length, integer width, mask, number of threads and interleaving of their loads and stores", "why_tests_cant": "Depends on thread schedules.", "anchors": ["quspin/basis/basis_general/_basis_general_core/source/general_basis_bitops.h: bitwise_op, bitwise_shift_op, bitwise_not_op_core", "quspin/basis/basis_general/_basis_general_core/general_basis_utils.pyx: bitwise_not, bitwise_and"]}
{"id": "C52", "title": "Matrices in the blocks of the one-dimensional bases", "statement": "For every one-dimensional chain (spin 1/2, higher spin, hard-core and soft bosons, spinless and spinful fermions) and every choice of translation, parity, inversion and sublattice-inversion blocks, the states of the basis are orthonormal, have the eigenvalues of the blocks and span all vectors of the sector with these eigenvalues, and the matrix built for an operator that commutes with the chosen symmetries has the entries <state j|H|state i>.", "quantifier": "every chain length, unit cell, block, particle sector and operator list commuting with the symmetries", "why_tests_cant": "Norm tables, phases and signs have to agree over all group orbits, for all sizes.", "anchors": ["quspin/basis/basis_1d/_basis_1d_core/sources/op_templates.pyx", "quspin/basis/basis_1d/_basis_1d_core/sources/basis_templates.pyx", "quspin/basis/basis_1d/base_1d.py: _make_symm_basis, _Op"]}
{"id": "C53", "title": "Projectors of the one-dimensional bases", "statement": "get_proj of a one-dimensional basis returns the matrix whose columns are the orthonormal symmetric states of the basis in the order of its states (over the full space, or over the particle sector with pcon=True), project_from maps a vector of the basis to the sum of these states, for dense and sparse output and input, projecting a vector of the block down and up again gives the vector, and the basis is not changed by the calls.", "quantifier": "every chain, unit cell, block, particle sector, vector and number type", "why_tests_cant": "The columns are accumulated in place by loops over the group with norms from small-integer labels; errors appear only for some orbits, momenta and lengths.", "anchors": ["quspin/basis/basis_1d/base_1d.py: get_proj, project_from, _get_norms, _get_vec_dense, _get_vec_sparse, _get_proj_sparse"]}
{"id": "C54", "title": "Preallocated arrays of the one-dimensional bases", "statement": "The constructors of the one-dimensional bases (spin, boson, spinless and spinful fermion) never write more states into their arrays of states, norms and labels than the length they allocated beforehand, which with a momentum block is a floating point estimate: for every chain length, unit cell, block labels and particle numbers they accept, the number of stored states is at most that length.", "quantifier": "every chain, unit cell, block and list of particle numbers", "why_tests_cant": "The arrays are written by compiled loops without bounds checks; the estimate is only exceeded for special orbits, sectors and label combinations.", "anchors": ["quspin/basis/basis_1d/_basis_1d_core/hcp_basis.pyx: get_Ns", "quspin/basis/basis_1d/_basis_1d_core/boson_basis.pyx: get_Ns", "quspin/basis/basis_1d/_basis_1d_core/spf_basis.pyx: get_Ns", "quspin/basis/basis_1d/base_1d.py: _make_basis arrays", "quspin/basis/basis_1d/spin.py: constructor"]}
{"id": "C55", "title": "Arguments of the one-dimensional constructors", "statement": "spin_basis_1d, boson_basis_1d, spinless_fermion_basis_1d and spinful_fermion_basis_1d either raise an exception or build the block that has exactly the block labels that were passed (momentum modulo the number of unit cells), for the particle numbers or densities that were passed, on states that the symmetries of the block map into each other, stored in an integer type that holds them; labels and numbers allowed by the documentation are accepted.", "quantifier": "every combination of labels, particle numbers, chain length and unit cell", "why_tests_cant": "There are dozens of combinations of optional arguments for four classes; tests use a few of them and never those that are silently ignored.", "anchors": ["quspin/basis/basis_1d/spin.py: spin_basis_1d.__init__", "quspin/basis/basis_1d/boson.py: boson_basis_1d.__init__", "quspin/basis/basis_1d/fermion.py: __init__ of both classes", "quspin/basis/basis_1d/base_1d.py: basis_1d.__init__", "quspin/basis/basis_1d/_basis_1d_core/hcp_basis.pyx: get_basis_type"]}
{"id": "C56", "title": "Floquet time vectors", "statement": "Floquet_t_vec(Omega, N_const, len_T, N_up, N_down) is an equidistant grid of (N_up+N_const+N_down)*len_T+1 times with len_T points per period that starts N_up periods before 0; strobo.inds and strobo.vals are exactly the positions and values of the whole multiples of the period; up, const and down together are the whole vector, each with its own stroboscopic times (positions in the whole vector) and its duration tot; get_coordinates(index) returns (i, j) with t[t.strobo.inds[i] + j] = t[index] for every index.", "quantifier": "every frequency, number of periods and of points per period, and every index", "why_tests_cant": "The tests only run the class; positions, offsets and rounding depend on all four numbers.", "anchors": ["quspin/tools/Floquet.py: Floquet_t_vec.__init__, get_coordinates, _strobo_times, _periodic_ramp"]}
{"id": "C57", "title": "Evolution operator and quasi-energies of a Floquet system", "statement": "Floquet(evo_dict) returns UF, the evolution operator over one period of the protocol (continuous drive, or a sequence of steps given by times or by Hamiltonians), which is unitary for Hermitian Hamiltonians; EF are the quasi-energies in increasing order in the zone |E| <= pi/T, thetaF = exp(-i EF T), VF are orthonormal Floquet states that belong to them, also for degenerate phases; a drive that is not periodic and lists that do not fit together are refused.", "quantifier": "every protocol, Hamiltonian, dimension and period", "why_tests_cant": "The operator is assembled from evolved basis states; symmetric Hamiltonians and single steps hide a transposition, and degenerate phases appear only for special protocols.", "anchors": ["quspin/tools/Floquet.py: Floquet.__init__, _evolve_cont, _evolve_step_2, _evolve_step_3, _get_U_cont, _get_U_step_2, _get_U_step_3"]}
{"id": "C58", "title": "Evolution in symmetry blocks", "statement": "block_ops.evolve and block_ops.expm return, for every state and time, the state that the Hamiltonian of the whole space gives, whatever the object was used for before (blocks added, matrices saved or not), for every number of jobs, with and without block_diag and iterate; they raise RuntimeError exactly if the state has no part in the blocks; a block that is added again changes nothing.", "quantifier": "every Hamiltonian with invariant blocks, state, grid of times, number of jobs and history of calls", "why_tests_cant": "Blocks are cached, sliced among jobs, stacked and mapped back; errors show up only for some numbers of blocks and jobs and for some histories.", "anchors": ["quspin/tools/block_tools.py: block_ops.__init__, update_blocks, compute_all_blocks, _get_P, _get_H, evolve, expm, _expm_gen, _block_evolve_iter, _block_expm_iter"]}
{"id": "C59", "title": "Block-diagonal Hamiltonians", "statement": "block_diag_hamiltonian(blocks, static, dynamic, ...) returns a matrix P, the projectors of the blocks side by side, and an operator H with H_full(t) P = P H(t) at every time t, where H_full is the operator with the same static and dynamic lists in the whole space.  It works for every list of blocks with compatible operators, also when a drive has no matrix elements in one of the blocks.", "quantifier": "every list of blocks, static and dynamic list, number of drives, order of iteration over a set, and time", "why_tests_cant": "The order of a Python set of functions depends on memory addresses, so the same test passes in one process and fails in another; drives that vanish in a block need special operators.", "anchors": ["quspin/tools/block_tools.py: block_diag_hamiltonian", "quspin/operators/_make_hamiltonian.py: make_dynamic, _consolidate_dynamic, _check_almost_zero", "quspin/operators/hamiltonian_core.py: hamiltonian.__init__, _mat_checks"]}
{"id": "C60", "title": "Exponentials of operators on a grid", "statement": "After every history of exp_op(O, a, start, stop, num, endpoint, iterate), set_a, set_grid, unset_grid and set_iterate, the grid is the equidistant grid set last (num and endpoint optional), and dot(A), rdot(A) and sandwich(A) give exp(t a (O - shift)) A, A exp(t a (O - shift)) and exp(t a (O - shift))^+ A exp(t a (O - shift)) for every point t of the grid (without a grid for t = 1), for vectors, arrays, sparse matrices and hamiltonian objects, as a generator or as an array in which each point has its product; iterate is refused without a grid.", "quantifier": "every operator, prefactor, shift, grid, kind of operand and history of setters", "why_tests_cant": "The points are reached by repeated multiplication with one step; the code has a branch for each kind of operand, with and without grid and iterate, and the tests run few of these combinations.", "anchors": ["quspin/operators/exp_op_core.py: exp_op.__init__, set_a, set_grid, unset_grid, set_iterate, dot, rdot, sandwich, _iter_dot, _iter_rdot, _iter_sandwich, _hamiltonian_iter_dot, _hamiltonian_iter_rdot, _hamiltonian_iter_sandwich"]}
{"id": "C61", "title": "Evolution with a complete eigenbasis", "statement": "For a Hamiltonian H with orthonormal eigenvectors V and energies E, ED_state_vs_time(psi, E, V, times) gives for every listed time the solution of i psi' = H psi that starts in psi, and for a density matrix the solution of rho' = -i [H, rho], which is the mixture of the evolved states; the generator yields the same states one by one, the array holds them as rows; norms and overlaps are conserved; arguments whose dimensions do not fit are refused, all others are accepted.", "quantifier": "every dimension, Hamiltonian, eigenbasis (also degenerate), state, density matrix and list of times", "why_tests_cant": "Four code paths (pure or mixed, generator or array) with different index conventions; tests compare them for one system.", "anchors": ["quspin/tools/evolution.py: ED_state_vs_time"]}
{"id": "C62", "title": "Observables along an evolution", "statement": "obs_vs_time(psi_t, times, Obs_dict) gives for every observable O and every listed time t the expectation value of O(t) in the state at time t, whether the states come as an array with the times along the last axis (also many pure states), from a generator, or from a state with the eigenvalues and eigenvectors of its Hamiltonian; with return_state the states come back unchanged and the values are the same; enforce_pure is respected; inputs whose dimensions or lengths do not fit are refused.", "quantifier": "every dimension, list of observables (static or driven), state, density matrix, list of times and choice of options", "why_tests_cant": "Values are computed in one product or state by state, with different axes and options; tests compare them for one system and one list of times.", "anchors": ["quspin/tools/measurements.py: obs_vs_time", "quspin/tools/evolution.py: ED_state_vs_time", "quspin/operators/hamiltonian_core.py: hamiltonian.expt_value"]}
{"id": "C63", "title": "Projection of operators", "statement": "project_op(Obs, proj) returns P^+ O(t) P for every time t if the number of rows of the projector is the dimension of the operator, and P O(t) P^+ if only the number of columns is, for hamiltonian objects and arrays, with projectors given as arrays, scipy matrices or bases; the result is an operator on the space after the projection (shape, number of states, evolution); all other shapes are refused.", "quantifier": "every operator with any number of drives, projector, dimensions and time", "why_tests_cant": "The products are taken in place for the static matrix and each drive in separate code for each format; the tests project static operators.", "anchors": ["quspin/tools/misc.py: project_op", "quspin/operators/hamiltonian_core.py: hamiltonian.project_to, _rmul_sparse, _imul_sparse, _rmul_dense, _imul_dense, Ns, evolve"]}
