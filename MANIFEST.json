{
 "claims": [
  {
   "property": "C01",
   "status": "partial",
   "theorems": [
    "C01_bit_count_partial",
    "C01_bit_count_upto_256_bits",
    "C01_bit_count_full_width_undefined",
    "C01_bit_count_refuted"
   ],
   "note": "Exact for every width, state and prefix below the width while at most 255 sites are occupied (so always on 32/64/256-bit types). Refuted on 1024-bit and wider types; l = width is an undefined shift."
  },
  {
   "property": "C02",
   "status": "proved",
   "theorems": [
    "C02_next_state_is_successor",
    "C02_enumeration_complete"
   ],
   "note": "Successor function and full enumeration for every number of sites and particles and every type width."
  },
  {
   "property": "C03",
   "status": "proved",
   "theorems": [
    "C03_next_state_is_successor",
    "C03_enumeration_complete"
   ],
   "note": "Successor and full enumeration for every number of states per site, sites and particles."
  },
  {
   "property": "C04",
   "status": "partial",
   "theorems": [
    "C04_next_state_is_successor_partial",
    "C04_enumeration_complete_partial",
    "C04_enumeration_complete_upto_255_sites",
    "C04_next_state_is_successor_refuted"
   ],
   "note": "Proved for every system with at most 255 down particles (all systems up to 255 sites); refuted above that."
  },
  {
   "property": "C05",
   "status": "proved",
   "theorems": [
    "C05_H_dim_counts_states"
   ],
   "note": "The alternating-sum formula equals the number of states for all parameters."
  },
  {
   "property": "C06",
   "status": "proved",
   "theorems": [
    "C06_spin_half_map_state",
    "C06_spin_half_map_bits",
    "C06_boson_map_state",
    "C06_image_unique",
    "C06_bijection_injective",
    "C06_bijection_surjective",
    "C06_keeps_particle_number",
    "C06_inversion_exchanges_particles_and_holes"
   ],
   "note": "All maps, states, local dimensions; the network routine and the bit loop of spin-1/2 bases and the digit loop of bosons. Period clause: see C49."
  },
  {
   "property": "C07",
   "status": "proved",
   "theorems": [
    "C07_network_realises_permutation",
    "C07_network_agrees_with_bit_loop"
   ],
   "note": "Every partial injective map on 2^L bits, every L and every state."
  },
  {
   "property": "C08",
   "status": "proved",
   "theorems": [
    "C08_representative_is_maximum",
    "C08_same_orbit_same_representative",
    "C08_idempotent",
    "C08_spin_half_maps",
    "C08_boson_maps"
   ],
   "note": "Every commuting set of signed maps (any number up to 32, any periods), plus the proof that accepted, commuting spin-1/2 and boson/higher-spin maps are such a set."
  },
  {
   "property": "C09",
   "status": "proved",
   "theorems": [
    "C09_norm_value",
    "C09_kept_iff_representative_and_compatible"
   ],
   "note": "Every commuting set of signed maps and all quantum numbers, in exact real arithmetic (floating-point rounding of the sum is not modelled)."
  },
  {
   "property": "C10",
   "status": "partial",
   "theorems": [
    "C10_returned_list_is_block",
    "C10_small_buffer_reported",
    "C10_larger_buffer_suffices",
    "C10_exact_buffer_suffices_refuted",
    "C10_spin_half_sector",
    "C10_spin_half_full",
    "C10_boson_sector",
    "C10_several_sectors",
    "C10_repeated_sector_refuted"
   ],
   "note": "Proved for the spin-1/2, boson and full-space candidate loops, any symmetry maps accepted by the constructor, any thread count and schedule; several particle sectors included. Refuted corner cases kept as theorems: a buffer of exactly the block size is rejected by the sequential routine, and a particle number listed twice yields every state twice. Missing: fermion maps (their sign theory is C20), integer overflow of the buffer estimate."
  },
  {
   "property": "C11",
   "status": "partial",
   "theorems": [
    "C11_schedule_independent",
    "C11_parallel_equals_sequential_partial",
    "C11_parallel_returns_block",
    "C11_parallel_equals_sequential_refuted",
    "C11_some_run_exists"
   ],
   "note": "Schedule and thread-count independence proved without bound; equality with the sequential routine proved whenever that routine succeeds; equality refuted for a buffer of exactly the block size (sequential -1, parallel succeeds)."
  },
  {
   "property": "C12",
   "status": "proved",
   "theorems": [
    "C12_search",
    "C12_position_unique",
    "C12_blocks_spin",
    "C12_blocks_boson",
    "C12_blocks_made",
    "C12_full_space",
    "C12_symmetry_lookup",
    "C12_python_index"
   ],
   "note": "Search, block tables, closed formula, symmetry lookup and basis.index. The length of the prefix chosen by default is not modelled (the theorem holds for every length). basis_1d lookup is not covered here."
  },
  {
   "property": "C13",
   "status": "proved",
   "theorems": [
    "C13_string_is_product",
    "C13_pauli_conventions",
    "C13_rejects_only_unknown"
   ],
   "note": "Every string, site list, state and coupling; the three Pauli conventions of spin_basis_general."
  },
  {
   "property": "C14",
   "status": "partial",
   "theorems": [
    "C14_boson_string_is_product_partial",
    "C14_spin_string_is_product",
    "C14_boson_z_refuted"
   ],
   "note": "Spin-S complete; bosons proved for I, n, +, - and every local dimension; refuted for the letter z of the boson bases (missing break in the switch)."
  },
  {
   "property": "C15",
   "status": "partial",
   "theorems": [
    "C15_anticommute_different_sites",
    "C15_anticommute_same_site",
    "C15_letters",
    "C15_string_is_product",
    "C15_spinful_string",
    "C15_many_sites_refuted"
   ],
   "note": "CAR, letters, strings as products and spinful strings proved for up to 256 (spin-)sites; C15_many_sites_refuted shows the relations fail above (bit_count of C01)"
  },
  {
   "property": "C16",
   "status": "proved",
   "theorems": [
    "C16_spin",
    "C16_boson",
    "C16_higher_spin",
    "C16_fermion",
    "C16_spinful"
   ],
   "note": "all general bases; fermions up to 256 (spin-)sites as in C15"
  },
  {
   "property": "C17",
   "status": "partial",
   "theorems": [
    "C17_spin",
    "C17_boson",
    "C17_fermion",
    "C17_accepted_lists_commute"
   ],
   "note": "spin-1/2 (all Pauli conventions), boson (without the letter z, see C14), spin-S and fermion (maps without inversions, up to 256 orbitals) general bases; every sector, quantum numbers, lookup (plain, blocks, full space) and dtype; exact arithmetic. Fermionic maps with inversions: refuted in C20."
  },
  {
   "property": "C18",
   "status": "proved",
   "theorems": [
    "C18_projector",
    "C18_real_type_refused",
    "C18_spin_boson_maps",
    "C18_fermion_maps"
   ],
   "note": "get_proj for all complex types, and for real types with real characters; rows = full space or particle sector; any commuting signed maps with the given periods (spins and bosons: C18_spin_boson_maps). pcon=True on a basis with several particle sectors is silently ignored (the raise at base_general.py:462 is unreachable); floating point exact."
  },
  {
   "property": "C19",
   "status": "partial",
   "theorems": [
    "C19_project_from",
    "C19_project_to_partial",
    "C19_round_trip_partial",
    "C19_sparse_project_to_zero",
    "C19_round_trip_default_refuted",
    "C19_pcon_dense_complex_refuted",
    "C19_pcon_dense_reads_first",
    "C19_pcon_dense_refuted"
   ],
   "note": "project_from proved in all cases. project_to is the adjoint for dense output in the full space, and in the other cases for real characters (pcon dense: at most one map); refuted otherwise: sparse output (default) uses the transpose, so every vector of a block with a complex character is sent to zero; pcon dense with complex character; pcon dense with two or more maps reads only the first component."
  },
  {
   "property": "C20",
   "status": "partial",
   "theorems": [
    "C20_sign",
    "C20_sign_permutation",
    "C20_unitary",
    "C20_transforms",
    "C20_transforms_inversions",
    "C20_composition",
    "C20_group",
    "C20_full_inversion",
    "C20_documented_inversion_refuted",
    "C20_inversion_symmetry_refuted",
    "C20_inversion_period_refuted",
    "C20_inversion_commutation_refuted"
   ],
   "note": "Image, sign, unitarity and transformation of every letter for all maps and states; for maps without inversions the representation property (composition, periods, commutation). Refuted for maps with inversions: the documented particle-hole sign, the period, commutation with translations and the symmetry check."
  },
  {
   "property": "C21",
   "status": "proved",
   "theorems": [
    "C21_spin",
    "C21_boson",
    "C21_higher_spin",
    "C21_fermion",
    "C21_spinful",
    "C21_sorted",
    "C21_fermion_sorted",
    "C21_canonical",
    "C21_fermion_canonical"
   ],
   "note": "stable sort and bubble sort with sign; spinful left|right strings"
  },
  {
   "property": "C22",
   "status": "partial",
   "theorems": [
    "C22_spin_partial",
    "C22_boson_partial",
    "C22_higher_spin_partial",
    "C22_fermion_partial",
    "C22_dynamic_partial",
    "C22_fermion_dynamic_partial",
    "C22_written_with_conjugates",
    "C22_fermion_written_with_conjugates",
    "C22_repeated_terms_refuted",
    "C22_other_times_refuted"
   ],
   "note": "Accepted lists of distinct terms are Hermitian (spin, boson, higher spin, fermion); dynamic lists at the one time checked; lists written with conjugates are accepted. Refuted for repeated terms and for other times."
  },
  {
   "property": "C23",
   "status": "partial",
   "theorems": [
    "C23_pcon_spin_partial",
    "C23_pcon_spin_exact_partial",
    "C23_pcon_boson_partial",
    "C23_pcon_fermion_partial",
    "C23_pcon_refuted",
    "C23_pcon_fermion_refuted",
    "C23_pcon_dynamic_refuted",
    "C23_symm_spin_partial",
    "C23_symm_higher_spin_partial",
    "C23_symm_boson_partial",
    "C23_symm_fermion_partial",
    "C23_symm_refuted",
    "C23_symm_repeated_terms_refuted",
    "C23_symm_boson_refuted"
   ],
   "note": "Accepted lists keep the particle number when no site occurs more often than it has states; accepted lists commute with the map under the stated conditions (fermions: maps without inversions). Refuted: + - + on one site, dynamic lists merged across functions, inversion of two sites, repeated terms, boson inversion, fermion inversion (C20)."
  },
  {
   "property": "C24",
   "status": "partial",
   "theorems": [
    "C24_spin",
    "C24_boson",
    "C24_fermion"
   ],
   "note": "all general bases (fermions: maps without inversions, see C20), every distribution of rows over threads and interleaving of atomic additions, transposed/conjugated; v_in and v_out assumed distinct arrays; site indices assumed in range (inplace_Op does not check them)"
  },
  {
   "property": "C25",
   "status": "proved",
   "theorems": [
    "C25_product",
    "C25_runs",
    "C25_partition"
   ],
   "note": "Model of csrmv_merge (csrmv_merge.h) with all interleavings of the threads' loads and stores; product, existence of runs and the partition of rows and non-zeros proved for every CSR matrix, thread count and stride. Exact arithmetic, no index overflow."
  },
  {
   "property": "C26",
   "status": "partial",
   "theorems": [
    "C26_vector",
    "C26_vector_runs",
    "C26_vectors_partial",
    "C26_vectors_new",
    "C26_csr_layout_refuted",
    "C26_matvec_partial",
    "C26_matvec_arguments_refuted"
   ],
   "note": "One vector: CSR, CSC, DIA and other formats, serial and parallel kernels, every interleaving. Several vectors: all formats, except that the CSR kernel with an output whose columns are stored apart but not contiguously is refuted (C26_csr_layout_refuted). The public matvec ignores overwrite_out, out and a (C26_matvec_arguments_refuted). Arithmetic is exact; negative strides and overlapping x and y are not modelled."
  },
  {
   "property": "C27",
   "status": "partial",
   "theorems": [
    "C27_kernel",
    "C27_threads",
    "C27_runs",
    "C27_dot_partial",
    "C27_full_order",
    "C27_zero",
    "C27_first_step_refuted",
    "C27_norm_refuted",
    "C27_smaller_team_refuted"
   ],
   "note": "Every run of the kernel (any number of threads, any interleaving, any content of the work array) gives the s-step truncated Taylor action; thread independence; no step stops early unless the terms are below the tolerance, except the first step. Refuted: the first step may drop a term of size 1/2 for any tolerance; the number used as 1-norm is not the 1-norm of A - mu; a parallel region with fewer threads than omp_get_max_threads() leaves entries untouched. Not modelled: scipy's choice of (m, s)."
  },
  {
   "property": "C28",
   "status": "partial",
   "theorems": [
    "C28_reorder",
    "C28_pure",
    "C28_mixed",
    "C28_sparse",
    "C28_order_small",
    "C28_order_refuted",
    "C28_conjugate_refuted"
   ],
   "note": "Proved: reordering (numpy and C++ routes, up to 64 groups), reduced density matrices of pure, mixed and sparse states, Hermiticity, positivity, trace, for every order of the complement. Refuted: the matrix of B is the complex conjugate of the reduced density matrix; the complement is listed in the iteration order of a Python set, which is not ascending from nine sites on (proved ascending up to eight). SVD based entropies are not modelled."
  },
  {
   "property": "C29",
   "status": "partial",
   "theorems": [
    "C29_op",
    "C29_positions",
    "C29_index",
    "C29_projector",
    "C29_project_from",
    "C29_factors",
    "C29_partial_trace_A",
    "C29_partial_trace_B_conjugated",
    "C29_partial_trace_B_refuted",
    "C29_sparse_vector_refuted",
    "C29_first_factor_refuted",
    "C29_nested_left_refuted",
    "C29_adjoint_string",
    "C29_fermion_sign_refuted"
   ],
   "note": "Op of strings a|b|... is J times the Kronecker product for any number of factors, and the string of the adjoint is the adjoint (C29_adjoint_string); positions, index, projector isometry, project_from and the reduced matrix of the left factor proved; refuted: rho of the right factor (complex conjugate), sparse 1-D vectors, factors needing bars in first position, and the sign dropped by _sort_opstr for fermions. The svd is a parameter with its defining equation; __str__ is not modelled, entropies see C47."
  },
  {
   "property": "C30",
   "status": "partial",
   "theorems": [
    "C30_untouched",
    "C30_add",
    "C30_sub",
    "C30_scalar",
    "C30_iadd",
    "C30_iscalar",
    "C30_mul",
    "C30_imul",
    "C30_mul_static_right",
    "C30_mul_static_left",
    "C30_matrix_right",
    "C30_matrix_left",
    "C30_sparse_right",
    "C30_sparse_left",
    "C30_add_matrix",
    "C30_sub_matrix",
    "C30_copy",
    "C30_negate",
    "C30_transpose_copy",
    "C30_conjugate",
    "C30_adjoint",
    "C30_transpose",
    "C30_isub_refuted",
    "C30_isub_ndarray_refuted",
    "C30_mixed_formats_refuted",
    "C30_flag_refuted",
    "C30_imul_static_refuted",
    "C30_dense_product_refuted",
    "C30_sharing_refuted",
    "C30_small_refuted"
   ],
   "note": "Sums, differences, scalar multiples, products, copies and views of operators have the right matrix at every time up to the dropping tolerance and leave the operands alone; refuted: A*=B with static B multiplies dynamic terms from the wrong side, static ndarray product is entrywise, sums and transposes share arrays, -= raises for common functions and ndarrays, small multiples become zero"
  },
  {
   "property": "C31",
   "status": "partial",
   "theorems": [
    "C31_equal",
    "C31_product",
    "C31_conjugate",
    "C31_defined",
    "C31_collision_refuted",
    "C31_conjugate_square_refuted",
    "C31_conjugate_product_refuted"
   ],
   "note": "Equality of coefficient functions, products and conjugates of them denote the right functions when the hash has no collisions; refuted: hash(-1)=hash(-2) makes different functions equal, powers of conjugates and conjugates of products fail"
  },
  {
   "property": "C32",
   "status": "partial",
   "theorems": [
    "C32_never_wrong",
    "C32_same_names_partial",
    "C32_separate_defaults",
    "C32_shared_default_refuted",
    "C32_callers_dictionary_refuted",
    "C32_rdot_refuted",
    "C32_small_parameter_refuted",
    "C32_linear_operator",
    "C32_adjoint_refuted",
    "C32_shared_linear_operator_refuted"
   ],
   "note": "Every history of calls, bindings and writes: each answer is the mathematical one or an error (never_wrong); with equal names exactly the expected one. Refuted in general: the default dictionaries are shared by all operators, the caller's dictionary is changed, rdot without out raises, dot drops parameters up to eps, rmatvec does not conjugate the parameters. Not modelled: eigensolvers, sparse and two-dimensional states, tohamiltonian."
  },
  {
   "property": "C33",
   "status": "partial",
   "theorems": [
    "C33_hamiltonian_partial",
    "C33_quantum_operator_partial",
    "C33_exp_op_partial",
    "C33_linear_operator_exact",
    "C33_transpose_refuted",
    "C33_rmatvec_refuted",
    "C33_left_refuted",
    "C33_conjugate_diagonal_refuted",
    "C33_copy_refuted",
    "C33_sandwich_exact",
    "C33_sandwich_refuted",
    "C33_shared_matrices_refuted",
    "C33_scaled_view_exact"
   ],
   "note": "hamiltonian: every history of transposes, conjugates, adjoints and copies keeps all meanings at all times. quantum_operator: every history of views, copies and uses, provided nothing is scaled in place (a copy shares its matrices, and -H changes H: refuted). exp_op: only views with copy=True and uses; views without copy and sandwich change the object (refuted, exact behaviour proved). quantum_LinearOperator: exact behaviour of every history proved; transposing, rmatvec and use from the left change the object, copies fail (refuted)."
  },
  {
   "property": "C34",
   "status": "partial",
   "theorems": [
    "C34_commutator_partial",
    "C34_compressed_exact",
    "C34_compressed_only_symmetric",
    "C34_hermitian_refuted"
   ],
   "note": "Right-hand side of the Liouville-von Neumann equation as computed with the stored matrices: C34_commutator_partial proves -i[H(t), rho] for dense and DIA terms, C34_compressed_exact gives what csr/csc terms compute, H rho - rho H^T, and C34_compressed_only_symmetric that this is the commutator exactly for symmetric H; C34_hermitian_refuted is a Hermitian counterexample."
  },
  {
   "property": "C35",
   "status": "partial",
   "theorems": [
    "C35_evolve_times",
    "C35_evolve_imaginary",
    "C35_stacked_matrix_refuted",
    "C35_imaginary_columns_refuted",
    "C35_real_time",
    "C35_imaginary_time",
    "C35_stacked",
    "C35_complex_drive_refuted",
    "C35_dense_complex_drive_refuted"
   ],
   "note": "Right-hand sides -iH psi, -H psi and the stacked real form proved for all formats and shapes (C35_real_time, C35_imaginary_time, C35_stacked); refuted for complex drives with real matrices (sparse: imaginary part dropped; dense: exception). evolve: C35_evolve_times and C35_evolve_imaginary prove the results for every list of times given an exact integrator; refuted for stacked matrices (exception) and for imaginary time with several columns (norm of the whole matrix). The integrator itself (scipy) is not modelled."
  },
  {
   "property": "C36",
   "status": "partial",
   "theorems": [
    "C36_full",
    "C36_iter",
    "C36_variants",
    "C36_exhausted_refuted",
    "C36_generator_list_refuted",
    "C36_eigenvector_refuted",
    "C36_ritz",
    "C36_lin_comb",
    "C36_expm",
    "C36_ftlm",
    "C36_ltlm_partial",
    "C36_ltlm_empty_refuted",
    "C36_ltlm_identity_refuted",
    "C36_runs"
   ],
   "note": "C36_full, C36_iter: every returned basis is orthonormal, satisfies the recurrence and T = Q^+AQ, by induction on steps; C36_variants: the two variants agree exactly when the last residual is not below eps, otherwise lanczos_full drops the last vector (C36_exhausted_refuted, also full_ortho raises); C36_eigenvector_refuted: start vectors that are eigenvectors fail; C36_generator_list_refuted: the generator yields one array; C36_runs: success otherwise. C36_ritz, C36_lin_comb, C36_expm, C36_ftlm, C36_ltlm_partial: what is computed from a basis, with C36_ltlm_empty_refuted and C36_ltlm_identity_refuted for small weights. Exact arithmetic; eigenvalues of T (scipy) and the QR step of full_ortho not modelled."
  },
  {
   "property": "C37",
   "status": "proved",
   "theorems": [
    "C37_result",
    "C37_sequential",
    "C37_no_deadlock",
    "C37_terminates",
    "C37_runs",
    "C37_prefix",
    "C37_short_generator_refuted"
   ],
   "note": "All schedules of the worker processes and the parent as one transition system (queue of one element, event flag per worker): every complete run yields the tuples of the sequential run in order, no reachable state is blocked, no run is infinite, a run exists; generators are the lists of values they yield. Hypothesis: every block's generator yields n_iter values; C37_short_generator_refuted shows that otherwise (exception in a worker) the caller blocks for ever."
  },
  {
   "property": "C38",
   "status": "proved",
   "theorems": [
    "C38_operations_act",
    "C38_translation_period",
    "C38_involutions",
    "C38_dihedral",
    "C38_inversions",
    "C38_sublattices_move",
    "C38_chosen_type",
    "C38_spinless_word_chain_refuted",
    "C38_spinful_type_refuted",
    "C38_spinful_one_particle_refuted",
    "C38_sublattice_names_refuted"
   ],
   "note": "Translation, reflection, inversion and sublattice inversions of all four families of 1d bases (spins/hard-core bosons, spinless fermions, bosons/higher spins, spinful fermions), for uint32, uint64 and Python integers, act as the site maps, with fermionic signs; all group relations hold including signs; the integer type chosen is wide enough. Counterexamples: spinless fermions on 32 or 64 sites (undefined shifts), spinful fermions without particle conservation on 17..32 sites (type too narrow), spinful with 32 sites and only the second species, sublattices A/B swapped against the documentation on even chains. Bosons with particle conservation (a narrower type is chosen) are covered only when sps^L fits the word."
  },
  {
   "property": "C39",
   "status": "partial",
   "theorems": [
    "C39_single_checks",
    "C39_reference",
    "C39_reference_translations",
    "C39_reference_PZ_sign_refuted",
    "C39_momentum_check",
    "C39_one_symmetry",
    "C39_sublattice",
    "C39_two_symmetries",
    "C39_kept_inversion",
    "C39_kept_sublattice",
    "C39_kept_both_sublattices",
    "C39_kept_odd_levels_refuted"
   ],
   "note": "Proved for the checks without translations, momentum alone, momentum with reflection, inversion, their product, sublattice inversions and pairs of these (period, first returns, signs, kept states for abelian groups) and for all reference-state routines. Missing: for momentum with reflection the split of the two semi-momentum states is only described by the reported first returns. Refuted: both sublattice inversions drop doubly invariant states when the number of levels is odd; the sign of the PZ reference routine for spinful fermions."
  },
  {
   "property": "C40",
   "status": "partial",
   "theorems": [
    "C40_oscillator",
    "C40_oscillator_letters",
    "C40_index_type_refuted",
    "C40_conserving",
    "C40_many_quanta_refuted",
    "C40_projector",
    "C40_sectors_spin_half",
    "C40_sectors_higher_spin_refuted",
    "C40_sectors_boson_refuted",
    "C40_sectors_fermion_refuted",
    "C40_sectors_spinful",
    "C40_sectors_spinful_refuted",
    "C40_dimension",
    "C40_coherent",
    "C40_coherent_refuted",
    "C40_check_pcon_refuted"
   ],
   "note": "oscillator words, conserving Op, projector, spin-1/2 sectors, dimension formula and coherent states (a>0) proved; refuted: 8-bit index type at Np=127, photon numbers for Ntot>127, missing top sector for bosons/fermions/higher spin/spinful, check_pcon accepts non-conserving terms, coherent_state(0). project_from of vectors (same sums as the projector), partial traces and non-1d particle bases are not modelled"
  },
  {
   "property": "C41",
   "status": "partial",
   "theorems": [
    "C41_round_trip_partial",
    "C41_names",
    "C41_dense_sparse_refuted",
    "C41_collision_refuted",
    "C41_integers_refuted",
    "C41_dtype_refuted",
    "C41_empty_refuted",
    "C41_failed_save_refuted"
   ],
   "note": "Round trip proved for plain names, none almost zero, supported common data type; names_exact says when a name survives. Refuted: dense names containing 'sparse', colliding names, integer matrices, data type, empty operators, archives left by a failed save. pickle and npz round trips are assumed."
  },
  {
   "property": "C42",
   "status": "partial",
   "theorems": [
    "C42_printed",
    "C42_round_trip",
    "C42_brackets_refuted",
    "C42_many_sites_refuted",
    "C42_many_levels_refuted",
    "C42_python_integers",
    "C42_default_type",
    "C42_index",
    "C42_index_too_large_refuted",
    "C42_basis_type",
    "C42_basis_type_smallest",
    "C42_full_lattice_refuted"
   ],
   "note": "round trip for at most 10 states per site and 64 sites without brackets; python integers exactly when they fit; smallest types; refuted: brackets, more than 64 sites, more than 10 states per site, index of integers that do not fit, full lattices in get_basis_type"
  },
  {
   "property": "C43",
   "status": "partial",
   "theorems": [
    "C43_expansion_is_the_operator",
    "C43_expanded_form_partial",
    "C43_expanded_form_refuted"
   ],
   "note": "Expansion of a string proved in full. The list function expanded_form is proved for strings with at most two letters per site, refuted for + - + on one site."
  },
  {
   "property": "C44",
   "status": "partial",
   "theorems": [
    "C44_static",
    "C44_static_exact",
    "C44_static_merged",
    "C44_dynamic",
    "C44_dynamic_local_refuted"
   ],
   "note": "Static merging and the constructor's dynamic merging proved in full; the dynamic merging used by the checks is refuted (it ignores the functions)."
  },
  {
   "property": "C45",
   "status": "partial",
   "theorems": [
    "C45_expt_value",
    "C45_expt_real",
    "C45_quant_fluct",
    "C45_quant_fluct_positive",
    "C45_matrix_ele",
    "C45_matrix_ele_diagonal",
    "C45_matrix_ele_sesquilinear",
    "C45_expt_value_matrix_ele",
    "C45_quantum_operator",
    "C45_one_state_refuted",
    "C45_sparse_refuted",
    "C45_fluct_refuted"
   ],
   "note": "expt_value and quant_fluct return the mean and <H^2>-<H>^2 of every state an accepted array stands for (vectors, columns, density matrices, lists of times), real and non-negative for Hermitian operators and normalised states; matrix_ele is <l|H(t)|r>, sesquilinear, for all pairs of arrays; quantum_operator.expt_value likewise. Refuted: Hilbert spaces with one state, several sparse pure states, sparse states with times, quant_fluct of quantum_operator for vectors and density matrices and of quantum_LinearOperator. Arithmetic is exact; dense operators times three-dimensional arrays at one time are not modelled."
  },
  {
   "property": "C46",
   "status": "partial",
   "theorems": [
    "C46_shift_spin_partial",
    "C46_shift_boson_partial",
    "C46_shift_fermion_partial",
    "C46_shift_refuted",
    "C46_shift_output_refuted",
    "C46_spinful_shift_refuted",
    "C46_bra_ket_spin_partial",
    "C46_bra_ket_boson_partial",
    "C46_bra_ket_fermion_partial",
    "C46_bra_ket_stale_refuted",
    "C46_bra_ket_diagonal_refuted",
    "C46_bra_ket_real_refuted",
    "C46_bra_ket_reduce_refuted"
   ],
   "note": "Op_shift_sector: for hard-core bosons/spin-1/2 (all pauli conventions), bosons, spin-S and spinless fermions, every list of strings, every pair of blocks and every schedule, the result is v_out plus the matrix of transition elements times v_in (C46_shift_*_partial), excluding returns to the orbit of the start (C46_shift_refuted: the character is dropped because the code compares the representative, not the image, with the state). v_out is added to, not written; spinful fermions always raise. Op_bra_ket: for every string list, kets of the block and schedule the returned elements add up to the reduced matrix (C46_bra_ket_*_partial) when the uninitialised array g cannot matter; refuted otherwise (stale phase off and on the diagonal), for real dtypes (imaginary parts silently lost) and for reduce_output=False of spin-S. Shape checks and the spinful Op_bra_ket are not modelled."
  },
  {
   "property": "C47",
   "status": "partial",
   "theorems": [
    "C47_time_average_unique",
    "C47_diag_degenerate",
    "C47_diag_average",
    "C47_diag_fluctuations_partial",
    "C47_diag_floor_partial",
    "C47_diag_mixture",
    "C47_diag_thermal",
    "C47_diag_distribution",
    "C47_diag_integer_refuted",
    "C47_diag_documented_refuted",
    "C47_diag_rejects",
    "C47_diag_complex_refuted",
    "C47_diag_density_matrix_refuted",
    "C47_diag_eigenstate_refuted",
    "C47_diag_documented_formula_refuted",
    "C47_renyi_partial",
    "C47_renyi_extremes",
    "C47_renyi_negative_alpha",
    "C47_renyi_zero_alpha_refuted",
    "C47_renyi_tensor_refuted",
    "C47_svd_partial",
    "C47_pure_entropy_partial",
    "C47_offset_refuted",
    "C47_empty_subsystem_refuted",
    "C47_KL",
    "C47_KL_zero_refuted",
    "C47_level_spacing",
    "C47_level_spacing_rejects"
   ],
   "note": "Proved: for every alpha > 0 and every list of non-negative eigenvalues (not all zero) the lattice and diagonal-ensemble entropies are the Shannon / Renyi formulas, lie in [0, log n] for distributions, attain both bounds and tend to the Shannon value as alpha -> 1; density matrices built from a singular value decomposition are the (conjugated, for B) partial traces with the squared singular values as spectrum; KL_div is accepted exactly for positive normalised lists, equals sum p log(p/q), is >= 0 and zero exactly for p = q; mean_level_spacing equals the mean ratio, lies in (0,1] and is invariant under aE+b; diag_ensemble: Obs is the long-time average of <O(t)>, delta_t^2 its long-time variance and delta_q^2 the averaged quantum variance for pure states with real matrix elements and non-degenerate gaps; mixtures are weighted sums with Gibbs weights. Refuted: alpha=0 counts zeros; tensor/photon bases give nan for alpha>1 and a wrong value below 1; the eps offset; empty subsystems; KL_div rejects zeros; complex observables, eigenvector phases, density matrices and eigenstates in the fluctuations; integer inverse temperatures give zero weights; documented f_args=[beta], arrays as observables with fluctuations; documented formula of delta_q_Obs. Missing: SVD and eigvalsh themselves (their results are hypotheses), Srdm_Renyi. C47_diag_rejects: unsorted energies and state numbers out of range are rejected; C47_diag_mixture covers V1_state and f_norm=False."
  },
  {
   "property": "C48",
   "status": "partial",
   "theorems": [
    "C48_maps",
    "C48_periods",
    "C48_translations",
    "C48_reflections",
    "C48_diagonals",
    "C48_sublattices",
    "C48_sublattice_exchange",
    "C48_blocks",
    "C48_momenta",
    "C48_all_momenta_refuted",
    "C48_diagonal_block_refuted",
    "C48_odd_length_refuted",
    "C48_inversion_loop",
    "C48_inversion_list_refuted"
   ],
   "note": "maps, periods and group relations for every Lx, Ly and local dimension; blocks consistent; refuted: all momenta covered, diagonal block on non-square lattices (None), list() of the inversion generator"
  },
  {
   "property": "C49",
   "status": "proved",
   "theorems": [
    "C49_invalid_map_rejected",
    "C49_period_is_order_on_states"
   ],
   "note": "Acceptance and exact order, with termination of the period loop."
  },
  {
   "property": "C50",
   "status": "partial",
   "theorems": [
    "C50_commutation_check_partial",
    "C50_check_passes_but_maps_do_not_commute_refuted",
    "C50_check_warns_but_maps_commute_refuted"
   ],
   "note": "Equivalence proved for maps that invert no site or all sites; refuted in both directions for mixed inversions."
  },
  {
   "property": "C51",
   "status": "partial",
   "theorems": [
    "C51_elementwise",
    "C51_in_place_one_thread_partial",
    "C51_in_place_refuted",
    "C51_bounds_refuted",
    "C51_bounds"
   ],
   "note": "element-wise for every thread schedule when out is a new array, also in place with one thread; refuted: in place with several threads (every thread runs the loop), mixed integer types"
  },
  {
   "property": "C52",
   "status": "partial",
   "theorems": [
    "C52_in_block",
    "C52_complete_partial",
    "C52_full_closed",
    "C52_complete_odd_levels_refuted",
    "C52_matrix_partial",
    "C52_orthonormal",
    "C52_constructed",
    "C52_number_closed",
    "C52_species_closed",
    "C52_spinful_product_refuted"
   ],
   "note": "Matrix elements, orthonormality, eigenvalues and completeness of every block for every chain, with closed particle sectors; missing: the PZ block of spinful fermions (matrix elements refuted) and completeness of translation + both sublattice inversions with an odd number of levels (refuted)"
  },
  {
   "property": "C53",
   "status": "partial",
   "theorems": [
    "C53_get_proj_partial",
    "C53_get_proj_sector_partial",
    "C53_isometry_partial",
    "C53_back_and_forth_partial",
    "C53_project_from_partial",
    "C53_cell_pi_refuted",
    "C53_norm_wraps_refuted",
    "C53_sparse_vector_refuted",
    "C53_sparse_vector_partial"
   ],
   "note": "Columns of get_proj, project_from (dense and sparse output), isometry and round trip proved when the labels fit the 8-bit integers of _get_norms and reflections with unit cells avoid momentum pi. False otherwise: C53_cell_pi_refuted (a=2 at momentum pi), C53_norm_wraps_refuted (12 sites, reflection and inversion), C53_sparse_vector_refuted (sparse input raises for other momenta and for semi-momentum states)."
  },
  {
   "property": "C54",
   "status": "partial",
   "theorems": [
    "C54_arrays_fit",
    "C54_momentum_arrays_fit_partial",
    "C54_two_numbers_refuted",
    "C54_unchecked_number_refuted",
    "C54_repeated_numbers_refuted"
   ],
   "note": "Proved without momentum for every list of particle numbers, and with momentum for the full space and for one particle number (half filling for the parity-inversion block), up to 2^46 states. Missing: several distinct particle numbers with momentum; there the claim is refuted for repeated numbers and for the parity-inversion block with a second number, which spin.py fails to reject because the ValueError is not raised."
  },
  {
   "property": "C55",
   "status": "partial",
   "theorems": [
    "C55_spin_block",
    "C55_spin_labels_partial",
    "C55_spin_numbers",
    "C55_spin_half_filling",
    "C55_spin_closed",
    "C55_spin_accepts",
    "C55_fermion_block",
    "C55_fermion_accepts",
    "C55_spinful_block",
    "C55_spinful_accepts",
    "C55_boson_block_partial",
    "C55_overlapping_labels_refuted",
    "C55_boson_product_refuted",
    "C55_boson_integer_refuted",
    "C55_boson_half_filling_refuted",
    "C55_two_numbers_refuted",
    "C55_density_partial",
    "C55_density_refuted",
    "C55_basis_type",
    "C55_spinful_type_refuted"
   ],
   "note": "Proved for spins, spinless and spinful fermions: accepted calls build a valid block with exactly the labels passed (if no labels overlap), the momentum and particle numbers passed, on closed states; allowed arguments are accepted; the integer type fits without particle number. Bosons: the same without pcblock and for int labels. Refuted: overlapping labels dropped, boson pcblock and non-int cblock ignored, boson cblock with Nb raises NameError, a second particle number unchecked, density m=-0.4 with L=10 gives 0 spins, uint32 for 34-bit states of spinful fermions. Missing: integer type with particle numbers, _Np."
  },
  {
   "property": "C56",
   "status": "partial",
   "theorems": [
    "C56_coordinates_partial",
    "C56_coordinates_empty",
    "C56_coordinates_rounding_refuted",
    "C56_accepts",
    "C56_times",
    "C56_periodic",
    "C56_strobo",
    "C56_regimes",
    "C56_part_strobo_partial",
    "C56_down_strobo_refuted",
    "C56_part_tot_refuted",
    "C56_const_missing_refuted"
   ],
   "note": "Proved over exact real arithmetic: the grid, its attributes, periodicity, all stroboscopic times, the regimes and the stroboscopic times of up and const, get_coordinates for every index. Refuted: down.strobo.vals, tot of up and down, const without ramps, get_coordinates with rounding (IndexError). Missing: a bound on the vectors for which get_coordinates survives rounding."
  },
  {
   "property": "C57",
   "status": "partial",
   "theorems": [
    "C57_propagator_partial",
    "C57_lengths",
    "C57_unitary",
    "C57_symmetric",
    "C57_UF_refuted",
    "C57_mismatch_refuted",
    "C57_periodicity_refuted",
    "C57_refused",
    "C57_spectrum",
    "C57_quasienergies"
   ],
   "note": "UF is proved to be the transpose of the evolution operator over one period, for all three kinds of protocol, and unitary; the spectrum (order, zone, orthonormal eigenvectors with degenerate phases, thetaF = exp(-i EF T)) and the quasi-energies are proved, given solvers and linear algebra that are right for the calls made. UF itself, VF as Floquet states, refusing lists of different lengths and refusing drives that are not periodic are refuted."
  },
  {
   "property": "C58",
   "status": "partial",
   "theorems": [
    "C58_evolve",
    "C58_whole_state",
    "C58_kwargs",
    "C58_new_blocks",
    "C58_update_blocks",
    "C58_expm_no_projection",
    "C58_block_diag_refuted",
    "C58_jobs_refuted",
    "C58_kwargs_refuted",
    "C58_double_refuted",
    "C58_expm_partial",
    "C58_exponential",
    "C58_expm_grid",
    "C58_expm_options"
   ],
   "note": "Proved over all histories of an object: it holds exactly the non-empty blocks asked for, with basis_kwargs merged in; evolve (all times) and expm (single exponential, time grids, iterate, block_diag with at most as many jobs as used blocks) return the state evolved in the whole space, given invariant blocks and solvers that are right for the calls made; RuntimeError exactly without a part in the blocks. With iterate each point of the grid has the exponential for its time (C58_expm_grid), so iterate, the number of jobs and block_diag do not change the result (C58_expm_options). Refuted: evolve with block_diag=True, more jobs than blocks, a block added with its labels in another order, basis_kwargs in update_blocks."
  },
  {
   "property": "C59",
   "status": "partial",
   "theorems": [
    "C59_accepted",
    "C59_operator_partial",
    "C59_exchanged",
    "C59_order_refuted",
    "C59_vanishing_refuted"
   ],
   "note": "Proved: which calls are accepted (checks pass for the first block and no drive vanishes in a non-empty block), P, and, when the set of drives is iterated in order of first use, H_full(t) P = P H(t) for all times; for any other order the operator returned is the one with exchanged drives. Refuted: other orders of iteration over the set give a wrong H(t); a drive without entries in one block raises ValueError."
  },
  {
   "property": "C60",
   "status": "partial",
   "theorems": [
    "C60_dot_array_refuted",
    "C60_hamiltonian_refuted",
    "C60_set_grid_refuted",
    "C60_iterate_refuted",
    "C60_sandwich_sparse_refuted",
    "C60_shift_refuted",
    "C60_grid",
    "C60_dot",
    "C60_rdot",
    "C60_sandwich",
    "C60_single",
    "C60_construct",
    "C60_history",
    "C60_sandwich_single",
    "C60_shapes"
   ],
   "note": "Proved: acceptance by the constructor (C60_construct), prefactor, iterate and grid over all histories of setters (C60_history, C60_grid); dot, rdot and sandwich on grids give the products with E(t a (O + shift)) for every point, in every kind of result (C60_dot, C60_rdot, C60_sandwich), and without grid (C60_single, C60_sandwich_single), refusal of wrong shapes (C60_shapes); E is any function with the laws of the exponential (sum of scalars, transpose, conjugate), with instances. Refuted: axes of dot for two-dimensional arrays, hamiltonian operands of dot and rdot on a grid, omitted num or endpoint in set_grid, set_iterate(True) without grid, sandwich of sparse matrices on a grid, sign of shift (and shift ignored by sandwich without grid, where the adjoint also stands on the other side)."
  },
  {
   "property": "C61",
   "status": "partial",
   "theorems": [
    "C61_same_states",
    "C61_group",
    "C61_pure",
    "C61_mixed",
    "C61_ensemble",
    "C61_norm",
    "C61_refused",
    "C61_rows_refuted",
    "C61_single_refuted",
    "C61_same_matrices"
   ],
   "note": "Proved for every dimension above one: the generator and the array hold the solutions of the Schroedinger equation (C61_pure) and of the von Neumann equation (C61_mixed), mixtures become mixtures of the evolved states (C61_ensemble), generator and array hold the same states (C61_same_states, C61_same_matrices in C62_mixed.v), evolving for s and then for t is evolving for s + t (C61_group), norms and overlaps are conserved (C61_norm), arguments that do not fit are refused (C61_refused). Refuted: the states are the columns, not the rows, of the array (C61_rows_refuted); dimension one always raises IndexError (C61_single_refuted)."
  },
  {
   "property": "C62",
   "status": "partial",
   "theorems": [
    "C62_options_mixed",
    "C62_array",
    "C62_generator",
    "C62_eigen",
    "C62_eigen_mixed",
    "C62_refused",
    "C62_short",
    "C62_enforce_pure_refuted",
    "C62_single_refuted",
    "C62_many_refuted",
    "C62_options",
    "C62_conserved"
   ],
   "note": "Means of every observable at every time in the states of an array (C62_array), a generator (C62_generator) and of the solutions of the Schroedinger and von Neumann equations given by an eigenbasis (C62_eigen, C62_eigen_mixed), with the states returned exactly if asked for and values that do not depend on the options (C62_options, C62_options_mixed), constant for observables that commute with the Hamiltonian (C62_conserved); refused inputs and short generators (C62_refused, C62_short). Refuted: enforce_pure with generators, return_state with a single time, many pure states in three dimensions. Not modelled: the entanglement entropy (Sent_args) and matrices in Obs_dict before they become hamiltonian objects."
  },
  {
   "property": "C63",
   "status": "partial",
   "theorems": [
    "C63_down_partial",
    "C63_up_partial",
    "C63_array",
    "C63_refused",
    "C63_Ns_refuted",
    "C63_driven_refuted",
    "C63_rotations",
    "C63_rotations_trace",
    "C63_back_refuted"
   ],
   "note": "Proved: P^+ H(t) P and P H(t) P^+ at every time for hamiltonian objects with any number of drives and projectors given as arrays, and without drives for scipy matrices (C63_down_partial, C63_up_partial), for arrays (C63_array), the refusal of shapes that do not fit (C63_refused), and any number of rotations by square arrays: their product, with trace and Hermiticity kept by unitary ones (C63_rotations, C63_rotations_trace). Refuted: drives with projectors given as scipy matrices or bases are multiplied from the wrong side (C63_driven_refuted); Ns of the result is the old one, so evolve refuses the states of the new space (C63_Ns_refuted) and the operator cannot be projected back (C63_back_refuted). Not modelled: the tolerance for vanishing matrices, dtype, arrays times scipy matrices."
  }
 ]
}