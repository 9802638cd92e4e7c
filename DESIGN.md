# Formal model of QuSpin in Rocq/Coq: design

The model is a shallow Gallina embedding of the parts of /repo listed below, written function by
function.  Nothing is extracted and nothing of /repo is executed: the tie between the model and the
code is the citation (file and lines) in the comment of every model definition.

## Layout

    rocq/theories/
      Aux*.v     general purpose lemmas (lists, bits, sums, permutations); nothing about QuSpin
      Spec*.v    small independent specifications (textbook definitions used in theorem statements)
      M_*.v      the model: definitions only, each citing file and lines of /repo
      P_*.v      proofs
      C??_*.v    property theorems only (statement, `exact`, `Print Assumptions`, non-vacuity examples)

A name ending in `_partial` marks a theorem which covers only part of its property; a name ending in
`_refuted` is a proof that the property (or a clause of it) is false of the modelled code, with a
concrete witness.  A refutation is a finding about the code; they are collected below.

## Modelling conventions

* States are `N` (unbounded naturals).  Where a property depends on the machine width the width `w`
  appears explicitly (`mod 2^w`).
* Site, map, thread and index numbers are `nat` or `Z` as in the code (negative map entries are `Z`).
* Amplitudes and phases are exact: complex numbers over the Coq reals or an arbitrary commutative ring
  given as a section variable (and hence universally quantified in the theorem).  Rounding is not modelled.
* A C++/Python exception, an error code or NaN is a value (`option`, an inductive result).
* A loop is structural recursion, a fold, or a recursion with explicit fuel returning an error value.
* A parallel loop is modelled by an arbitrary schedule (a list of atomic steps, or a permutation of
  the iteration order) and the theorem quantifies over all of them.
* numpy / scipy / OpenMP / C++ library calls are not modelled beyond their documented contract.

## Plan per property

| id | model | method |
|----|-------|--------|
| C01 | `bit_count` with explicit width | byte-wise induction on the number of bytes, 256-case sweep per byte; refutation for widths above 256 bits |
| C02 | `next_state_pcon` of the hcb/spinless basis | successor characterisation (least larger number with the same popcount), induction on the enumeration, Pascal recursion for the count |
| C03 | boson `next_state_pcon` on base-sps digits | same, on digit lists |
| C04 | spinful `next_state_pcon` | lexicographic product of two C02 enumerations |
| C05 | `H_dim` | generating function / inclusion-exclusion by induction on N |
| C06 | `hcb_map_bits`, `boson_map_bits`, `process_map` | testbit characterisation; group action |
| C07 | Benes network generation and application | induction on the number of stages |
| C08 | `ref_state_core_unrolled` | induction on the nesting depth; group lemmas |
| C09 | `check_state_core_unrolled` | same; character sums over the stabiliser |
| C10 | `make_basis_sequential`, pcon variant | induction on the scan |
| C11 | `make_basis_parallel`, pcon variant | any distribution over threads; sorting lemma |
| C12 | `binary_search`, `rep_position`, `make_basis_blocks`, full-space formula | invariant of the search; block decomposition of a sorted list |
| C13 | hcb `op` | refinement to composition of local matrices |
| C14 | boson, higher-spin `op` | refinement to composition of local matrices; refutation for `z` |
| C15 | spinless and spinful fermion `op` | sign lemmas; anticommutation relations |
| C16 | `_hc_opstr` | induction on strings |
| C17 | general op core | abstract group action, exact complex numbers |
| C18 | projector | character orthogonality |
| C19 | `project_to/from` | isometry; refutation for the pcon branch and sparse branch |
| C20 | fermion map sign | inversion parity, merge sort |
| C21 | `_sort_opstr` | bubble sort invariants |
| C22 | `check_hermitian` | soundness on consolidated lists; refutations |
| C23 | `check_pcon`, `check_symm` | soundness; refutation |
| C24 | `inplace_op` | sum rearrangement for all flag combinations |
| C25 | merge-path CSR | invariant of the split search; any thread order |
| C26 | CSR/CSC/DIA kernels | sums over index sets; refutation of a strided branch |
| C27 | expm_multiply | loop invariant; any thread count |
| C28 | reshape / partial trace, numpy and C++ routes | digit permutations; refutation for rho_B and for the order of the complement |
| C29 | tensor basis | index bijection; Kronecker; refutations |
| C30 | hamiltonian arithmetic | homomorphism theorem over an abstract matrix ring; refutations |
| C31 | coefficient functions | induction over expression trees; refutation from hash collision |
| C32 | quantum_operator parameters, shared default dictionaries | state machine over call histories, object identities; refutations |
| C33 | views of the four operator classes | state machines over histories of views and uses; refutations |
| C34 | `__LO` | kernel dispatch by format, on the kernel theorems of C26; refutation for csr/csc |
| C35 | `__SO`, `__SO_real`, `__ISO`, `evolve` | matrix algebra on the kernel theorems; loop over times with an exact integrator; refutations |
| C36 | Lanczos variants, expm_lanczos, FTLM, LTLM | induction on steps in an inner-product space; eigenvectors of T given by their equations; refutations |
| C37 | worker pipeline | transition system with queues/events; invariant, deadlock freedom |
| C38 | 1d bit operations for each integer type | testbit characterisation, group relations with signs; refutations at type boundaries |
| C39 | 1d check/ref state | orbit induction; refutations for odd numbers of levels and for the fermionic PZ sign |
| C40 | photon basis | counting, filtering, harmonic-oscillator algebra; refutations for 8-bit types and sectors |
| C41 | save/load archive | string round trip of names; refutations |
| C42 | conversions | digit round trip |
| C43 | `_expand_opstr` | multilinearity |
| C44 | consolidation | fold invariants; refutation |
| C45 | expt_value, quant_fluct, matrix_ele | inner-product algebra by shape of the state; refutations |
| C46 | Op_shift_sector, Op_bra_ket | transition elements between sectors, sums over any schedule; refutations for dropped and stale phases |
| C47 | entropies, KL_div, mean_level_spacing, diag_ensemble | real analysis: convexity, limits of time averages; refutations |
| C48 | square lattice blocks | modular arithmetic; refutations |
| C49 | `process_map`, `check_symmetry_map` period loop | order of a signed permutation; termination |
| C50 | commutation test of the maps | equivalence without mixed inversions; refutations in both directions |
| C51 | bitwise array operations | any schedule of the threads, arrays in a heap; refutations |
| C52 | 1d blocks: `_Op` of base_1d, the `*_op` templates, normalisations, `Op1d`/`make_matrix` | projector coefficients of the symmetry group as phases; columns of the templates = projected H, semi-momentum states for reflections with translations; completeness from the projection on the block and the kept representatives of every orbit; refuted for the PZ block of spinful fermions and for spans with an odd number of levels |
| C53 | 1d projectors: `_get_norms` (with its 8-bit integers), `get_proj`, `project_from` (dense and sparse loops, numpy buffered `+=`) | visits of the loops = group elements; sums over visits = symmetric states of C52; norms from the stored labels under bounds on the chain length; refuted for reflections with unit cells at momentum pi, for 12 sites (wrap-around of int8) and for sparse input |
| C54 | 1d constructors: `get_Ns` (double precision estimate), entries written by the `make_*` templates | counting orbits by stabilisers, fixed points of the reflections and inversions bounded by ring counts, rounding error of the double formula (Flocq); refuted for repeated particle numbers, for a second particle number with the parity-inversion block (exception built but not raised) and with the check switched off |
| C55 | 1d constructors: argument checks and branch order of spin.py, boson.py, fermion.py, base_1d.py; densities in double precision; `get_basis_type` without particle number | case analysis of the checks; blocks built satisfy `block_ok` and `closed`, the hypotheses of C52-C54; refuted for overlapping labels, pcblock and non-int labels of bosons, bosons at half filling (NameError), a second particle number, a density (m=-0.4, L=10), 17 sites of spinful fermions |
| C56 | `Floquet_t_vec`, its stroboscopic times, regimes and `get_coordinates`, over an abstract arithmetic | closed forms of the arrays over the reals; refuted: stroboscopic values of the down regime, tot of up and down, const without ramps, and (binary64 arithmetic computed in the kernel) get_coordinates on ordinary vectors |
| C57 | class `Floquet`: evolution operator of the three kinds of protocol, periodicity check, repeated attempts, spectrum with `qr` for close phases | the Schroedinger equation conserves inner products, so solutions are unique and UF is unitary; Gram-Schmidt on eigenvectors of a unitary matrix by strong induction; solvers and linear algebra of scipy are assumed right for the calls made; refuted: UF is the transpose (VF are conjugates of Floquet states), lists of different lengths, periodicity compared at one time |
| C58 | class `block_ops`: dictionaries of blocks and saved matrices, `evolve`, `expm`, the generator `_expm_gen`, slicing among jobs | invariant of the saved matrices over all histories; flows in invariant subspaces are flows of the whole space; stacked projectors with block diagonal matrices are invariant again; refuted: evolve with block_diag, more jobs than blocks, labels in another order (block counted twice), basis_kwargs missing in update_blocks; uniqueness of solutions of v' = A v (Gronwall) turns the steps of iterate into exponentials at the times of the grid |
| C59 | `block_diag_hamiltonian` with `make_dynamic` and the constructor of `hamiltonian` | loop invariant of the lists of matrices per position; dimensions decide acceptance; stacked projectors with block diagonal matrices are invariant; sums of invariant matrices; refuted: order of the set of drives, drives that vanish in a block |
| C60 | class `exp_op` with grids: constructor, setters, `dot`, `rdot`, `sandwich`, generators | the exponential by its laws on a class of matrices closed under scaling and transposition; induction along the generators (each step multiplies by the exponential of one spacing); invariant of the grid over histories; instances: square-zero matrices of every size, numbers; refuted: axes of dot for arrays, hamiltonian operands on a grid, defaults of set_grid, set_iterate without grid, sandwich of sparse matrices, sign and use of shift |
| C61 | `ED_state_vs_time` with the squeezing of its argument, generators and arrays | derivatives of finite sums of waves; the eigenvalue equation turns them into -iH psi and -i[H, rho]; completeness of the eigenbasis at t = 0; uniqueness of solutions for mixtures; refuted: states as rows, dimension one |
| C62 | `obs_vs_time` for tuples, arrays and generators, with and without return_state | the values of `expt_value` (C45) at each time, stacked or one by one, in the states of C61; refuted: enforce_pure along generators, a single time with return_state, many pure states in a three-dimensional array |
| C63 | `project_op` and `hamiltonian.project_to` with the in-place products for both formats, in exact arithmetic | the sandwich of every matrix, including those that vanish on the way and are replaced or removed; refuted: drives with scipy projectors, Ns of the result |

## Modelled parts of the code

Each file M_*.v starts with the files it models and the simplifications made; every definition cites the lines.  The headers:

* `M_alloc1d.v`: the sizes of the arrays that the constructors of the one-dimensional bases allocate before filling them.
* `M_bdiag.v`: block_diag_hamiltonian (tools/block_tools.py:30-137), with the parts of the class hamiltonian it uses: make_dynamic (operators/_make_hamiltonian.py:44-77, 117-149) and the sum of matrices with drives (hamiltonian_core.py:257-430). A drive is a pair (f, f_args), hashed as the code does without collisions (for those see C31). Iteration over a Python set gives its elements in an order that depends on their hashes, here an argument; dictionaries keep the order of insertion. A matrix is the sum of the matrices of its terms: consolidation of equal terms and the coupling threshold eps are left out, as are types of arguments, data types, and terms given as matrices. block_diag of an empty list raises ValueError, or gives a matrix of another shape, which raises ValueError too.
* `M_benes.v`: the Benes network used to permute the bits of a state. /repo/quspin/basis/basis_general/_basis_general_core/source/benes_perm.h An index array ta_index<I> is a total function; no_index (-1) is None. Array bounds are not modelled, but reading an index array entry that holds no_index and using it as an index is an error (None).
* `M_bitcount.v`: bit_count, quspin/basis/basis_general/_basis_general_core/source/bits_info.h:119-128
* `M_bits1d.v`: the bit operations of the one-dimensional bases: /repo/quspin/basis/basis_1d/_basis_1d_core/sources/ hcp_bitops.pyx, boson_bitops.pyx, spf_bitops.pyx, bitcount.h, and of the parameters the Python classes hand to them (spin.py, boson.py, fermion.py in /repo/quspin/basis/basis_1d/). Every operation takes the state and the sign that the caller passes by reference (NP_INT8_t * sign) and returns both. None stands for undefined C behaviour: a shift count that is negative or not below the width, or a negative index.
* `M_bitwise.v`: the array bit operations: /repo/quspin/basis/basis_general/_basis_general_core/source/general_basis_bitops.h:10-175 and the functions bitwise_not, bitwise_and, bitwise_or, bitwise_xor, bitwise_leftshift, bitwise_rightshift of general_basis_utils.pyx:411-1110. Arrays live in a heap, so that out can be one of the inputs. Every thread of the outer "omp parallel" meets the inner "omp parallel for", which shares out the whole loop among the threads of a new team: the loop is run once per outer thread. Loads and stores of different iterations interleave freely.
* `M_block.v`: the class block_ops (tools/block_tools.py:232-246, 305-502, 565-604, 681-788): its dictionaries of blocks and saved matrices, and the methods evolve and expm. Bases, projectors, Hamiltonians and the solvers of scipy are fields of [external]; the theorems say what is assumed of them. A dictionary with block labels is the list of its items in order of insertion, which is what str(block) shows; a projector is the list of its columns. n_jobs = jobs + 1. The generator pipeline (C37) hands the blocks' states on in order, so iterate=True yields the columns of the array. Real numbers are exact. Left out: types of the arguments, imag_time, states with several columns, num = 0, what is saved by a call that raises an exception in compute_all_blocks, and saved matrices that were changed through H_dict or P_dict.
* `M_check1d.v`: the representative checks and reference-state routines of the one-dimensional bases: /repo/quspin/basis/basis_1d/_basis_1d_core/sources/checkstate.pyx and refstate.pyx, and of the tests that the loops of basis_templates.pyx apply to their results. The bit operations are those of M_bits1d. None stands for undefined C behaviour inside a bit operation. int products do not overflow (L, kblock, T are at most a few hundred).
* `M_conv.v`: the conversions between states, python integers and printed strings: /repo/quspin/basis/basis_general/_basis_general_core/source/general_basis_core.pxd:66-95, general_basis_utils.pyx:29-210, 330-400 (get_basis_type), /repo/quspin/basis/basis_general/base_general.py:208-236, /repo/quspin/basis/basis_1d/base_1d.py:523-560. A fixed-width integer is a number below 2^w; a left shift drops the bits above w (for the boost types; for uint32 and uint64 a shift by w or more is undefined in C++ and the model only says what the boost types do).
* `M_diag.v`: diag_ensemble (/repo/quspin/tools/measurements.py:100, 263-457) and _inf_time_obs (1149-1265). Floating point is exact apart from nan and infinities (M_entropy.num). Not modelled: Srdm_Renyi (lines 392-423), which needs the eigenvalues of a sum of partial traces; N is a number of type int, V2 a complex array of n rows and n columns. None: an exception is raised.
* `M_edtime.v`: ED_state_vs_time (tools/evolution.py 21-140): checks (57-74), generators (81-97) and arrays (100-140). Arrays have one to three axes; a sparse matrix becomes an array without axes. V and E are arrays, V with any number of axes. Left out: a scalar in place of the list of times (the TypeError is created but not raised; len raises it later).
* `M_entropy.v`: the entropies of ent_entropy (/repo/quspin/basis/lattice.py:263-411, 421-468, /repo/quspin/basis/tensor.py:622-660, 673-699), of the diagonal ensemble (/repo/quspin/tools/measurements.py:1228-1239) and of KL_div and mean_level_spacing (/repo/quspin/tools/misc.py:119-222). Floating point is exact apart from the special values of IEEE arithmetic. None: an exception is raised.
* `M_evolve.v`: the right-hand sides of the equations of motion in quspin/operators/hamiltonian_core.py (__LO, __ISO, __SO_real, __SO), on top of the model of the matrix products in M_sparse.v. Arrays are memories; a C-contiguous array with k columns has strides k and 1.
* `M_expect.v`: expt_value, quant_fluct and matrix_ele of quspin/operators/hamiltonian_core.py, quantum_operator_core.py and quantum_LinearOperator_core.py. Arrays are taken at their values (the compiled products are modelled in M_sparse.v, the parameters of quantum_operator in M_qop.v); check=True.
* `M_expm.v`: the parallel action of the matrix exponential: /repo/quspin/tools/expm_multiply_parallel_core/source/expm_multiply_parallel.h, math_functions.h, csr_utils.h and ../expm_multiply_parallel_core.py (dot, _calculate_partition). Simplifications: exact arithmetic (the real types are complex numbers with imaginary part 0); the arrays Ap, Aj, Ax do not overlap with F and work; the version compiled without OpenMP (18-48, 121) is not modelled.
* `M_expop.v`: the class exp_op with grids (operators/exp_op_core.py): constructor (50-155), set_a, set_grid, unset_grid, set_iterate (287-394), dot, rdot, sandwich (428-690) and the generators they use (695-815). E is scipy's exponential of a matrix, _expm_multiply(M,x) is E(M) x, with start, stop, num and endpoint it is E(g M) x for each point g of the grid. An operand has a list of matrices: one for a vector (kept as a column), an array or a sparse matrix, and for a hamiltonian the static one and one for each drive (the methods act on each of them in the same way; conjugation of the functions of time is undone by the second conjugation). Operators O are taken at one time. Real numbers are exact. Left out: other types of arguments, negative num.
* `M_floquet.v`: the class Floquet (tools/Floquet.py:39-132, 170-356): the evolution operator over one period for the three kinds of evo_dict, and its eigenvalues, eigenvectors and quasi-energies. Functions of numpy and scipy and H.evolve are fields of [external]; the theorems say what is assumed of them. Real numbers are exact. Left out: the tests of the types of the arguments, the tolerances handed to H.evolve, joblib (the rows come back in order), the attribute HF (logm), and Ns = 0.
* `M_fmap.v`: the maps on fermion states: /repo/quspin/basis/basis_general/_basis_general_core/source/spinless_fermion_basis_core.h:12-60 mergeSort, getf_count, 66-90 spinless_fermion_map_bits, 140-164 map_state; the spinful basis uses the same functions on twice the sites.
* `M_func.v`: /repo/quspin/operators/_functions.py. None is an exception (AttributeError, or RecursionError when the fuel of a product is used up).
* `M_ham.v`: the arithmetic of /repo/quspin/operators/hamiltonian_core.py. Matrices live in a store, so that sharing of matrices between operators is visible. Simplifications: all numbers have one data type; entries of a sparse matrix are stored once; a matrix is dense (ndarray) or sparse (csr, csc or dia, which behave alike here). None is an exception.
* `M_hamviews.v`: histories of views of a hamiltonian object (quspin/operators/hamiltonian_core.py).
* `M_hdim.v`: the dimension formula of boson sectors.
* `M_index.v`: state -> index lookup: /repo/quspin/basis/basis_general/_basis_general_core/source/misc.h, make_general_basis.h, general_basis_op.h, general_basis_core.pyx, ../general_basis_utils.pyx.
* `M_init1d.v`: the constructors of the one-dimensional bases (basis_1d/spin.py, boson.py, fermion.py, base_1d.py): the checks of the arguments and the choice of the block that is built. Simplified: L is a nonnegative int, a an int (None: 1), check_z_symm a truth value; the argument _Np, the keyword tests (an unknown keyword raises ValueError) and warnings are left out; the densities m, nb and nf are treated in count_of_density.
* `M_inplace.v`: the matrix-free application of operators, inplace_Op: /repo/quspin/basis/basis_general/_basis_general_core/source/general_basis_op.h:215-302 general_inplace_op_core, openmp.h:19-37 atomic_add, misc.h:88-135, general_basis_core.pyx:441-498, base_general.py:290-325, spin.py:199-217. Vectors: v r k is component r of column k. v_in and v_out are different arrays. Floating point is exact.
* `M_lanczos.v`: quspin/tools/lanczos/_lanczos_utils.py: lanczos_full, lanczos_iter, the generator of Lanczos vectors and lin_comb_Q_T. Numbers are exact; dividing by a norm that is zero makes the coefficients NaN, on which eigh_tridiagonal raises (None). The operator is its matrix: dot with and without out give the same. Not modelled: the eigenvalues and vectors of the tridiagonal matrix (scipy), dtypes, the copies of v0 and A, and the QR decomposition of full_ortho.
* `M_make.v`: the construction of the list of basis states: /repo/quspin/basis/basis_general/_basis_general_core/source/make_general_basis.h, hcb_core.pyx:67-106 (boson_core.pyx:103-142, higher_spin_core.pyx:101-140 are the same), base_general.py:733-778.
* `M_maps.v`: the maps on states: hcb_basis_core.h, boson_basis_core.h (/repo/quspin/basis/basis_general/_basis_general_core/source/) and base_general.py: process_map, check_symmetry_maps.
* `M_next.v`: the particle-sector successor functions.
* `M_obstime.v`: obs_vs_time (tools/measurements.py 546-700): input as tuple (564-590), array (593-603) or generator (605-618), the evaluation at once (645-650) and along a generator (655-688). expt_value of hamiltonian is that of M_expect.v, ED_state_vs_time that of M_edtime.v. Exceptions are not told apart. Left out: the entanglement entropy (Sent_args), messages, matrices in Obs_dict that are not yet hamiltonian objects (they become static ones), a scalar in place of times.
* `M_ode.v`: evolve (quspin/tools/evolution.py): packing of the initial state, the loop over the requested times and the formatting of the output. Arrays are lists in row-major order. The integrator is a function flow: flow s t y is the state solver.integrate(t) reaches from y at time s; it is taken to succeed. The final transposition of the array of results, which moves the time to the last axis, and verbose are not modelled.
* `M_op1d.v`: the one-dimensional bases: the arrays of states, norms and labels built for every combination of block labels (basis_templates.pyx, base_1d.py) and the matrix elements computed in them (op_templates.pyx, base_1d.py _Op). Simplified: real numbers instead of doubles; the integer arrays N and m are unbounded (int8 and uint8/uint16 in the code, int32/uint32 for Python integers: for L <= 64 the stored values are at most 64, 129 and 46474 and fit); the enumeration of the states by next_state is an argument (C02, C03, C04); a matrix element that the code sets to nan is left out.
* `M_ops.v`: the action of an operator string on a basis state: /repo/quspin/basis/basis_general/_basis_general_core/source/{hcb,boson,higher_spin,spinless_fermion}_basis_core.h. The arrays opstr[], indx[] are one list of pairs. Floating point is exact. Result None: return value -1.
* `M_ops1d.v`: the action of an operator string on a state of a one-dimensional basis, one iteration of the loop of op_func: /repo/quspin/basis/basis_1d/_basis_1d_core/sources/{hcp_ops,boson_ops,spf_ops}.pyx. The string and the array indx are one list of pairs, the factor J is multiplied by M_op1d.op_func. Floating point is exact. Result None: the error code 1.
* `M_opstr.v`: the python functions on operator strings: /repo/quspin/basis/base.py, basis/basis_general/{spin,boson,fermion,base_general}.py (the functions of basis_1d are textual copies), operators/_make_hamiltonian.py. An operator string with its sites is one list of pairs (the ValueErrors for unequal lengths and stray '|' cannot occur then); a term is such a list with its coupling. Couplings are exact complex numbers.
* `M_photon.v`: /repo/quspin/basis/photon.py: ho_basis, the conserving photon_basis, coherent_state, photon_Hspace_dim, and of the sectors that the one-dimensional particle bases build for it. Matrix elements: Some exact complex number, or None for nan. Outer None: an exception is raised.
* `M_pipe.v`: /repo/quspin/tools/block_tools.py:140-246, the worker processes of the block evolution and the generator that collects their results. A generator is the list of the values it yields. Queue(1) is a buffer of one element, Event a flag; put blocks while the buffer is full, get while it is empty, wait while the flag is not set. Starting a process late is a schedule in which it does not step.
* `M_proj.v`: the projector and of the transformation of vectors between the symmetry reduced and the full basis: /repo/quspin/basis/basis_general/_basis_general_core/source/general_basis_get_vec.h, general_basis_core.pyx, /repo/quspin/basis/basis_general/base_general.py. Floating point is exact. A vector is a function from row indices; with several columns every column is treated in this way.
* `M_proj1d.v`: the projectors of the one-dimensional bases (base_1d.py): _get_norms, get_proj with _get_proj_sparse, and project_from with _get_vec_dense and _get_vec_sparse. Simplified: real numbers instead of floats; the arrays N and M have the unbounded entries of M_op1d, but the int8 arrays of _get_norms wrap around; the arrays basis_in, sign and norms are followed entry by entry; the quantities "sign" of _get_norms are products of a sign and a period, at most L in modulus, and do not wrap; bases without states are left out.
* `M_project.v`: project_op (tools/misc.py 23-116) and hamiltonian.project_to and rotate_by (operators/hamiltonian_core.py 1036-1083, 1143-1148) for numpy arrays and scipy matrices, with _rmul_dense (2904-2941), _imul_dense (2943-2963), _rmul_sparse (2669-2698) and _imul_sparse (2700-2721). Arithmetic is exact, so _check_almost_zero (_make_hamiltonian.py 12-19) asks for zero; exceptions are None. astype and get_matvecs only copy. Left out: projectors that are hamiltonian or exp_op objects (C30, C60), arrays multiplied with scipy matrices in the branch for arrays, the optional dtype, get_proj of a basis (C18, C53: it gives a scipy matrix).
* `M_qop.v`: the parameter dictionaries of quspin/operators/quantum_operator_core.py. A default argument {} of a Python method is one dictionary object created with the function and shared by all calls on all objects; each method has its own. Dictionaries keep insertion order. Simplifications: complex numbers are exact; states are one-dimensional dense arrays of the right length; the formats of the stored matrices do not matter; the order in which the set of missing keys is enumerated is a parameter.
* `M_shift.v`: Op_shift_sector and Op_bra_ket of the general bases: /repo/quspin/basis/basis_general/_basis_general_core/source/general_basis_op.h:1132-1403, general_basis_core.pyx:274-436 and 811-885, /repo/quspin/basis/basis_general/base_general.py:324-420 and 838-915, spin.py:221-238 and 362-376, fermion.py:637-646. Floating point is exact. None: an exception is raised.
* `M_sparse.v`: the sparse matrix products: /repo/quspin/tools/matvec/_oputils/csr.h, csc.h, dia.h, csrmv_merge.h, utils.h, openmp.h, ../_oputils.pyx:490-595, ../matvec_core.py. Arrays are functions from addresses (in units of the item size) to values; pointers are offsets into them. Index arrays (Ap, Aj, offsets) are functions from nat. Simplifications: arithmetic is exact, the index type does not overflow, x and y do not overlap, byte strides are multiples of the item size and not negative (the division of a negative stride by sizeof is not modelled).
* `M_square.v`: /repo/quspin/basis/transformations/square.py. numpy arrays of site numbers are lists of integers.
* `M_symm.v`: the orbit traversal of general_basis_core.h (/repo/quspin/basis/basis_general/_basis_general_core/source/general_basis_core.h). gg and g are C arrays of length nt, modelled as lists; B->map_state(t,depth,phase) multiplies phase by the sign, here ms depth t = (image, sign); phases are +1/-1 (P = signed char). Floating point numbers are reals.
* `M_symop.v`: the construction of operator matrices in a (symmetry reduced) basis: /repo/quspin/basis/basis_general/_basis_general_core/source/general_basis_op.h, general_basis_core.pyx, /repo/quspin/basis/basis_general/base_general.py, spin.py, /repo/quspin/basis/base.py. Floating point is exact. None: an exception is raised. basis: the list of (state, norm) in the order of the arrays basis[] and n[].
* `M_tensor.v`: tensor_basis: /repo/quspin/basis/tensor.py and the _tensor_ functions of /repo/quspin/basis/_reshape_subsys.py. A factor is the record of what tensor.py uses of it. None: an exception is raised. Matrix elements and vectors are exact complex numbers; row and column indices are machine integers of the type the code picks.
* `M_thermal.v`: quspin/tools/lanczos/_expm.py, _FTLM.py and _LTLM.py for one operator O, given by its matrix. qs: the Lanczos vectors in the order they are iterated; E, V: arrays of shapes (M,) and (M,M). None: an exception. Numbers are exact.
* `M_trace.v`: the partial traces of lattice states: /repo/quspin/basis/_reshape_subsys.py, _basis_utils.pyx, _basis_utils/shuffle_sites.h. A dense array is the function of its flat index in C order, so that reshape(..., order="C") is the identity; every leading ("extra") dimension is a separate array. numpy's transpose is modelled from its definition.
* `M_tvec.v`: the time vectors of periodically driven systems (tools/Floquet.py:420-791): the constructor of Floquet_t_vec (441-516), the stroboscopic times (_strobo_times, 685-701), the three regimes (_periodic_ramp, 731-742) and get_coordinates (645-681). The arithmetic is a parameter ([arith]): real numbers for the theorems, binary64 with rounding for the counterexample. Numbers of periods and points are natural numbers (the docstrings say "number of"); a negative one is not modelled. numpy functions used: linspace, arange, take, slices, searchsorted (on a sorted array: the number of entries that are smaller) and where. An exception is None. The properties, __iter__, __getitem__ and __len__ only hand out the fields.
* `M_views.v`: taking views of quantum_LinearOperator (quspin/operators/quantum_LinearOperator_core.py), exp_op (exp_op_core.py) and quantum_operator (quantum_operator_core.py) objects and of using them afterwards. A method that returns self makes the new name stand for the same object.
* `M_zip.v`: save_zip and load_zip, quspin/operators/quantum_operator_core.py:1470-1566. A zip archive is a list of named members in the order written. pickle, save_npz/load_npz and savez/load are taken to return what was stored, and load_npz to fail on a file written by savez; names that the file system rejects for other reasons than a slash (which names a directory that does not exist) are not modelled.

### Not modelled

* Rounding: floating point numbers are exact (complex numbers over the Coq reals), apart from nan and infinities where a
  theorem is about them.  Tolerances of the code (eps) are kept as parameters.
* Eigensolvers, singular values and integrators of numpy/scipy (eigh, eigsh, svd, solve_ivp, ode): used through their defining
  equations, as hypotheses of the theorems that mention them.
* Memory management, reference counts, import machinery, printing other than the state strings of C42, warnings (apart from C50),
  progress output.
* In `tools/Floquet.py`: the attribute HF (logm), the tests of argument types, the tolerances of the solver, joblib.
* Whole modules: `basis/transformations` other than square.py, the user basis with compiled callbacks
  (`basis_general/base_user.py`), the deprecated names, `tools/block_tools.py` other than C37, C58 and C59 (block_diag_ensemble).
* Build scripts, wheels, documentation and examples.

### Assumed behaviour outside /repo

* CPython: default arguments are one object per function; dictionaries keep insertion order; the iteration order of a set of
  small integers (hash table of 8 slots and more, C28); hash(-1) = hash(-2) (C31).
* numpy: C order of reshape, broadcasting, casts between integer types (mod 2^w), result types, truncation when assigning to
  an integer array, comparison with nan.
* scipy.sparse: sums, products and conversions return the mathematical result; which operations return views.
* OpenMP: a parallel loop runs each iteration once in some order, atomics are atomic; the number of threads is arbitrary.
* C++: std::sort sorts, std::lower_bound finds; shifts by at least the width and signed overflow are undefined (None).

## Findings: clauses that are false of the modelled code

Each line names a theorem whose statement exhibits the failing case.

* `C01_bit_count_refuted`: On the 1024-bit type 256 occupied sites are counted as 1: even the parity, which decides the sign of fermion operators, is wrong.
* `C04_next_state_is_successor_refuted`: 300 sites, uint1024 states, 1 up and 256 down particles: the successor leaves the sector
* `C10_exact_buffer_suffices_refuted`: a buffer of exactly the block size can be rejected by the single-threaded construction although nothing is missing
* `C10_repeated_sector_refuted`: a particle number given twice is not noticed: every state of that sector appears twice
* `C11_parallel_equals_sequential_refuted`: full equality fails for a buffer of exactly the block size: sequential reports an error, parallel does not
* `C14_boson_z_refuted`: the letter z of the boson bases is not the operator n - (B-1)/2: the code multiplies by n as well (missing break)
* `C15_many_sites_refuted`: with more than 256 sites the relations fail (1024-bit states, bit counts above 255 are wrong, see C01): c_299 c_43^+ and c_43^+ c_299 give the same sign on the state with the last 256 of 300 sites occupied
* `C19_round_trip_default_refuted`: so the round trip fails: three sites, one particle, momentum 1, with the default arguments
* `C19_pcon_dense_complex_refuted`: dense output with pcon=True and a complex character: the same
* `C19_pcon_dense_refuted`: two sites, exchange and inversion, one particle, both even: (0, 1) has overlap 1/sqrt 2 with the state of the block
* `C20_documented_inversion_refuted`: ... and not the documented c_j^+ -> (-1)^j c_j
* `C20_inversion_symmetry_refuted`: an accepted map and a list that passes the symmetry check, while the operator does not commute with the map: c_0^+ c_1 + c_1^+ c_0
* `C20_inversion_period_refuted`: an accepted map whose period is not the period of its action: two applications give the sign -1
* `C20_inversion_commutation_refuted`: two accepted maps that commute on states and anticommute as signed maps
* `C22_repeated_terms_refuted`: 2 S+_0 S-_1 + S-_0 S+_1, with the first term written twice, is accepted
* `C22_other_times_refuted`: whatever time is used for the check
* `C23_pcon_refuted`: S+_1 S-_1 S+_1 = S+_1 is accepted
* `C23_pcon_fermion_refuted`: the same for fermions
* `C23_pcon_dynamic_refuted`: f1(t) S+ - f2(t) S+ is accepted: the terms are added before the functions are looked at
* `C23_symm_refuted`: i S+_0 S+_1 - i S-_0 S-_1, which is Hermitian, changes sign under the inversion of both sites but is accepted
* `C23_symm_repeated_terms_refuted`: 2 S^z_0 + S^z_1, with the first term written twice, under the exchange of the sites
* `C23_symm_boson_refuted`: hopping of bosons with three states per site, under n -> 2 - n
* `C26_csr_layout_refuted`: CSR and an output array with stored columns that are not adjacent (a slice out[:2] of an array in Fortran order with 3 rows): the second column is written to the wrong place
* `C26_matvec_arguments_refuted`: matvec accepts arguments for which the kernels read or write outside the arrays
* `C27_first_step_refuted`: The first step can stop although the two last terms are not small, because the norm of the initial vector is never recorded. For every tolerance there is a 3 x 3 matrix for which the last component of the result is 0 instead of 1/2
* `C27_norm_refuted`: The number handed to scipy's choice of (m, s) as the 1-norm of A - mu is not that norm, even for a Hermitian matrix: row sums of A + mu are taken
* `C27_smaller_team_refuted`: If the parallel region gets one thread while omp_get_max_threads() returned 2, the last entry of the vector is not multiplied by exp(a mu)
* `C28_order_refuted`: ... but for nine sites with A = {0, ..., 5} the columns run over the sites (8, 6, 7): the state with one particle on site 8 appears at position 4 of the matrix of B, not at position 1.
* `C28_conjugate_refuted`: The matrix of B is not the reduced density matrix: for psi = |00> + i |01> the off-diagonal element of rho_B is -i, and +i is returned.
* `C29_partial_trace_B_refuted`: (|0> |0> + i |0> |1>) / sqrt 2 up to the norm
* `C29_sparse_vector_refuted`: partial_trace(psi, sparse=True) of a one-dimensional array does not return the reduced matrix: it treats every amplitude as a state and returns Ns matrices, for every tensor basis with more than one state
* `C29_first_factor_refuted`: a factor whose own strings need the bar (another tensor basis, spinful fermions) cannot be the first one: every operator string raises
* `C29_nested_left_refuted`: a concrete nested basis for which this happens
* `C29_fermion_sign_refuted`: _sort_opstr of a tensor basis forgets the sign of the reordering of fermions: c1^+ c0 - c0^+ c1 (times anything on the other factor) passes check_hermitian, and is anti-Hermitian; c1^+ c0 + c0^+ c1, which is Hermitian, is rejected
* `C30_isub_refuted`: A -= B always raises if A and B have a function in common; A -= ndarray always raises; ndarray-valued static times sparse dynamic raises
* `C30_isub_ndarray_refuted`: A -= B always raises if A and B have a function in common; A -= ndarray always raises; ndarray-valued static times sparse dynamic raises
* `C30_mixed_formats_refuted`: A -= B always raises if A and B have a function in common; A -= ndarray always raises; ndarray-valued static times sparse dynamic raises
* `C30_flag_refuted`: A + ndarray sets the flag is_dense of A itself
* `C30_imul_static_refuted`: A *= B for a static B multiplies the dynamic terms of A from the left: the result is B A(t) - with A = sigma^+ and B = sigma^z it has the wrong sign
* `C30_dense_product_refuted`: the product of two static operators stored as ndarrays is taken entry by entry: the square of the all-ones matrix is wrong
* `C30_sharing_refuted`: C = A + B uses the matrices of B for the functions that A does not have: C *= 2 changes B. The same for C = B.T, C *= 2.
* `C30_small_refuted`: a multiple that is small in absolute terms is replaced by zero, however large it is in relative terms
* `C31_collision_refuted`: with Python's hash of integers f(t,-1) and f(t,-2) compare equal, whatever the hash of tuples and of f is: one of the two terms is lost
* `C31_conjugate_square_refuted`: the square of a conjugate exists but cannot be hashed: it cannot be the coefficient of a term
* `C31_conjugate_product_refuted`: a product or a power has no conjugate
* `C32_shared_default_refuted`: A request without parameters to one operator makes the same request to another operator fail, although that request alone succeeds.
* `C32_callers_dictionary_refuted`: The dictionary the caller passes is changed, so that passing it to another operator fails: {} goes to an operator named a, then to one named b.
* `C32_rdot_refuted`: rdot without an array for its result always fails.
* `C32_small_parameter_refuted`: dot drops a parameter not larger than eps in modulus: the answer is not that of the matrix sum_k lambda_k O_k which toarray returns.
* `C32_adjoint_refuted`: For a complex parameter rmatvec is not the adjoint of matvec.
* `C32_shared_linear_operator_refuted`: Two linear operators made without parameters share the dictionary of the default: making the second one breaks the first.
* `C33_transpose_refuted`: Taking H.T changes H.
* `C33_rmatvec_refuted`: Two calls of rmatvec with the same vector give different results.
* `C33_left_refuted`: Two uses from the left with the same vector give different results.
* `C33_conjugate_diagonal_refuted`: The conjugate of an operator with a complex diagonal keeps the diagonal.
* `C33_copy_refuted`: A quantum_LinearOperator with a term that is not diagonal cannot be copied, and multiplying it with a number loses it.
* `C33_sandwich_refuted`: For a nilpotent operator the first sandwich is not E+ X E, which the documentation promises, and taking the adjoint changes the object.
* `C33_shared_matrices_refuted`: copy() of a quantum_operator shares the matrices: scaling the copy in place scales the original, and so does taking -H.
* `C34_hermitian_refuted`: The Pauli matrix sigma^y in CSR format: the right-hand side of its own equation of motion is wrong.
* `C35_stacked_matrix_refuted`: matrices of several columns cannot be evolved with a stacked state: the output cannot be formatted
* `C35_imaginary_columns_refuted`: imaginary time, matrices: each column is scaled to the norm of the whole initial matrix: even the initial state is not returned
* `C35_complex_drive_refuted`: With matrices of a real type the kernels drop the imaginary part of a complex drive: H(t) = i (a 1 x 1 matrix times the function i), psi = 1, and the right-hand side is 0 instead of 1.
* `C35_dense_complex_drive_refuted`: A dense matrix of a real type with a complex function has no result when the arrays are real.
* `C36_exhausted_refuted`: the variants can differ: the Krylov space of e_0 under this Hermitian matrix has dimension two; lanczos_iter finds both vectors and the exact tridiagonal matrix, lanczos_full drops the second and returns T = (0), though A A e_0 = e_0, so that A only has the eigenvalues 1 and -1 on the Krylov space; with full_ortho it raises
* `C36_generator_list_refuted`: the generator yields one array: a list of what it yielded does not hold the basis
* `C36_eigenvector_refuted`: an eigenvector as start vector: both variants fail for every number of vectors above one, although the Krylov space is simply smaller
* `C36_ltlm_empty_refuted`: a small weight of the lowest energy: the function raises, whatever the operator
* `C36_ltlm_identity_refuted`: small weights of higher energies: vectors are dropped together with eigenvalues, and the thermal average of the identity is 1/2
* `C37_short_generator_refuted`: a block whose process ends early (an exception in the worker) leaves the caller waiting for ever, while the sequential run returns
* `C38_spinless_word_chain_refuted`: Spinless fermions on 32 or 64 sites: translation and reflection are undefined on every state (negative shift count in the population count).
* `C38_spinful_type_refuted`: Spinful fermions without particle conservation: the type is chosen for L bits although a state has 2L, so that on 17 to 32 sites the state with one particle of the first species on the first site is lost (its word is wrapped to zero).
* `C38_spinful_one_particle_refuted`: Spinful fermions on 32 sites with one particle of the second species only: uint32, and translation shifts by the width.
* `C38_sublattice_names_refuted`: The documentation of zAblock and zBblock (spin.py:89-91, boson.py:70-72) calls A the even and B the odd lattice sites. On chains of even length the operations do the opposite; on odd chains they agree with it.
* `C39_reference_PZ_sign_refuted`: The sign of the PZ routine is never set: for spinful fermions on two sites with one particle of each species the reference state of 5 is reached with sign -1 while +1 is reported.
* `C39_kept_odd_levels_refuted`: With an odd number of levels the case distinction misses the states that return under two inversions: the spin-1 state (0,0) of two sites (middle levels, number 4) is its own orbit and compatible with zA = zB = 1 and k = 0, but dropped.
* `C40_index_type_refuted`: without room: an oscillator with the levels 0..127 has 8-bit row indices; a a^+ on the highest level is nan for real types and -128 for complex types, instead of 128
* `C40_many_quanta_refuted`: the photon numbers are kept in 8 bits: with Ntot = 200 the state without particles, |200> of the oscillator, is given the photon number 145
* `C40_sectors_higher_spin_refuted`: higher spin: with sps states per site there are particle numbers up to (sps-1)*L, but none above L is included
* `C40_sectors_boson_refuted`: bosons and spinless fermions: the highest possible number is always missing; for Ntot = 0 the basis is empty
* `C40_sectors_fermion_refuted`: the same for spinless fermions
* `C40_sectors_spinful_refuted`: the same for spinful fermions
* `C40_coherent_refuted`: coherent_state is not the truncated coherent state for every argument
* `C40_check_pcon_refuted`: check_pcon of a conserving basis accepts every list of terms with at most Ntot raising and at most Ntot lowering photon letters; sigma^+ n (particle raised, photons kept) then gets elements that the product does not have
* `C41_dense_sparse_refuted`: A dense matrix whose name contains "sparse" is saved without an error and cannot be loaded.
* `C41_collision_refuted`: Two sparse matrices can become one: the names a and sparse_a.
* `C41_integers_refuted`: Matrices of integers, which a complex operator accepts, cannot be loaded.
* `C41_dtype_refuted`: The data type of the operator is lost: a complex operator made of real matrices is loaded as a real one.
* `C41_empty_refuted`: An operator without matrices cannot be loaded.
* `C41_failed_save_refuted`: save_zip fails on a name with a slash, but the archive (which replaced any older one) can be loaded: it gives an operator without the matrices that come after.
* `C42_brackets_refuted`: with the default bracket notation the string cannot be read back, for any basis
* `C42_many_sites_refuted`: with more than 64 sites the middle of the string is left out and it cannot be read back
* `C42_many_levels_refuted`: with more than 10 states per site an occupation takes several characters and the string is read as another state
* `C42_index_too_large_refuted`: an integer that does not fit is cut off: it is found although it is not in the basis
* `C42_full_lattice_refuted`: when every site is full the largest state is computed as a float: a wider type than needed, or an overflow error
* `C43_expanded_form_refuted`: S+_1 S-_1 S+_1 = S+_1 is removed
* `C44_dynamic_local_refuted`: the merging used by expanded_form and check_pcon joins terms with different functions
* `C45_one_state_refuted`: A Hilbert space with one state: no expectation value of one state, and one number, the sum, instead of one for each column.
* `C45_sparse_refuted`: Several sparse pure states, and sparse states with a list of times, always raise.
* `C45_fluct_refuted`: quant_fluct of quantum_operator raises for every vector and every density matrix, and that of quantum_LinearOperator always.
* `C46_shift_refuted`: The factor exp(-i k) of the output sector is left out whenever the representative of the image is the state itself, although the image may be another state of its orbit: S+_0 S-_1 - S+_1 S-_0 leads from k = 0 to k = pi, its matrix element is +1, and the call returns -1.
* `C46_shift_output_refuted`: "v_out: array to write the result to": the array is not set to zero first; and an empty list of operators raises
* `C46_spinful_shift_refuted`: spinful fermions: every call raises
* `C46_bra_ket_stale_refuted`: The phase of an image that is itself a representative is computed from an array the search did not write to. Three sites, translation, k = 1, no particle number: S+_1 takes 100 to 110, a representative; whatever the array contains (j) decides the value returned.
* `C46_bra_ket_diagonal_refuted`: With a particle number the same array multiplies the diagonal elements: the density on site 0 at k = pi is 1/1 or its negative.
* `C46_bra_ket_real_refuted`: With a real dtype an imaginary element is silently replaced by its real part: for S^y the call returns nothing at all.
* `C46_bra_ket_reduce_refuted`: Spins larger than 1/2: reduce_output=False is not passed on. Spin 1, S+ on the highest state: no element for the ket is returned.
* `C47_diag_integer_refuted`: inverse temperatures given as integers: the weights are rounded to zero, and so is every output
* `C47_diag_documented_refuted`: the documented form f_args=[beta] raises, a Python list as state raises, and so does an array as observable when fluctuations are asked for
* `C47_diag_complex_refuted`: a complex observable (sigma^y): nan, although the long-time variance is 288/625; and for sigma^x nan or not depending on the phase of an eigenvector
* `C47_diag_density_matrix_refuted`: density matrices: the maximally mixed state has no temporal fluctuations, the returned value is sqrt(1/2)
* `C47_diag_eigenstate_refuted`: an eigenstate: the quantum fluctuations of the identity vanish, the returned value is nan, because a vanishing population is replaced by eps
* `C47_diag_documented_formula_refuted`: the documentation of delta_q_Obs gives the formula of the temporal fluctuations: (long-time average of <O>^2) - <O>_d^2. That is delta_t_Obs, not the returned delta_q_Obs
* `C47_renyi_zero_alpha_refuted`: alpha = 0 is accepted and counts the zero eigenvalues: log of the dimension instead of log of the rank
* `C47_renyi_tensor_refuted`: tensor and photon bases: nan for every alpha > 1 and every list of eigenvalues; for alpha < 1 the value is log(sum p^alpha) - log(1 - alpha), which is not zero for a product state
* `C47_offset_refuted`: the offset eps = 2^-52 of the eigenvalues is not a rounding error: the Renyi entropy of a product state with alpha = 1/52 exceeds log(3/2) although it is zero
* `C47_empty_subsystem_refuted`: the subsystem without sites (or the complement of all sites) with density=True: minus infinity
* `C47_KL_zero_refuted`: distributions with a vanishing probability are rejected, although the divergence is defined when q is positive (the lines that would treat them are never reached)
* `C48_all_momenta_refuted`: the blocks do not cover all states: a generic momentum is missing
* `C48_diagonal_block_refuted`: on a lattice that is not square, with both lengths even, some blocks contain the python None instead of a diagonal reflection
* `C48_odd_length_refuted`: translations exchange the sublattices only when the length is even
* `C48_inversion_list_refuted`: but a list made of the generator contains every block twice without zblock
* `C50_check_passes_but_maps_do_not_commute_refuted`: no warning for maps which do not commute
* `C50_check_warns_but_maps_commute_refuted`: a warning for maps which do commute
* `C51_in_place_refuted`: with two threads the in-place call bitwise_not(x, out=x) can leave x as it was: every thread runs the whole loop
* `C51_bounds_refuted`: the checks let arrays of different integer types through; the kernel then runs past the end of out or x2 (sizes in bits)
* `C52_complete_odd_levels_refuted`: Two spins of size 1, unit cells of two sites, both sublattice inversions with labels 1: the state with both spins in the middle level (number 4) has the eigenvalues of the block, but is no combination of the states the basis stores.
* `C52_spinful_product_refuted`: The reference state of the product of parity and spin inversion is computed without the fermionic sign: for two sites and one particle of each species the block of eigenvalue 1 has one state, its energy for a hopping pair is 1 in the matrix and -1 in the state
* `C53_cell_pi_refuted`: Four spins, unit cells of two sites, reflection and momentum pi (kblock=1, a=2): the test for momentum pi in _get_norms ignores the size of the unit cell, and the column of the state 1000 has squared norm 2.
* `C53_norm_wraps_refuted`: Twelve spins, momentum 2 pi/12, reflection and spin inversion with labels -1: the label of the state 111111000000 is too large for the 8-bit integers of _get_norms, and its column has squared norm 4.
* `C53_sparse_vector_refuted`: project_from refuses sparse vectors of every block with a momentum other than 0 and pi or with momentum and reflection, although it accepts the same vector as an array.
* `C54_two_numbers_refuted`: The claim fails for the product of reflection and inversion with two particle numbers of which the first is half filling: spin_basis_1d(L=8, Nup=[4,5], a=2, kblock=1, pzblock=1). The line of spin.py that should reject the second number builds the ValueError without raising it, 43 entries are allocated and 44 are written
* `C54_unchecked_number_refuted`: The same labels with one number off half filling, when the check is switched off: spin_basis_1d(L=6, Nup=4, a=2, kblock=1, pzblock=1, check_z_symm=False)
* `C54_repeated_numbers_refuted`: A particle number given several times: spin_basis_1d(L=3, Nup=[0,0,0,0,0,0], kblock=0)
* `C55_overlapping_labels_refuted`: Overlapping labels are accepted and one of them is dropped: pblock=1, pzblock=-1 builds the block of the reflection only; pblock=1, zblock=1, pzblock=-1, which no state satisfies, builds the block of the first two; zblock=1, zAblock=1 the block of zblock; with kblock, pblock=1 and pzblock=-1 build the block of pzblock
* `C55_boson_product_refuted`: boson_basis_1d accepts pcblock and ignores it: sps=2, L=4, pcblock=1 builds the basis without symmetries
* `C55_boson_integer_refuted`: boson_basis_1d accepts a cblock that is not an int, such as numpy.int64(1), and ignores it; spin_basis_1d rejects it
* `C55_boson_half_filling_refuted`: boson_basis_1d with cblock at half filling raises NameError, whatever the chain, the number of bosons and the other labels
* `C55_two_numbers_refuted`: A second particle number is not checked (the ValueError is built but not raised): spin_basis_1d(4, Nup=[2,3], zblock=1) builds the inversion block on states that inversion does not map into each other, so that the basis is not a symmetry sector
* `C55_density_refuted`: spin_basis_1d(L=10, m=-0.4) asks for one spin up, (m + 1/2) L = 1, and gets none: int(0.9999999999999998) = 0
* `C55_spinful_type_refuted`: spinful fermions: the type is chosen for sps**L states with sps = 2, but the states have 2 L bits; 17 sites get uint32 and have states beyond it (spinful_fermion_basis_1d(17) without particle numbers)
* `C56_coordinates_rounding_refuted`: With rounding get_coordinates fails on ordinary vectors: for t = Floquet_t_vec(1.0, 3, len_T=3) the call t.get_coordinates(7) raises IndexError, and so does t.get_coordinates(9), the end of the last period; for the vector of the docstring's own example, Floquet_t_vec(10.0, 10), index 920 raises it. The tolerance 1E-15 is absolute: it is smaller than the rounding error of t - i*T as soon as t is larger than about 4.
* `C56_down_strobo_refuted`: The stroboscopic times of the down regime are wrong for every vector with at least two points per period: down.strobo.inds are the positions of the ends of its periods, but down.strobo.vals (and down.strobo itself) hold the times one step after the beginning of each period, none of which is a multiple of T. Floquet.py:497 starts t_down one point after the end of the constant regime, and _strobo_times takes its entries 0, len_T, 2*len_T, ...
* `C56_part_tot_refuted`: The attribute tot of the up and down regimes is not the duration f - i of the regime (which is what tot is for the whole vector and for const): it is one time step longer, for every vector.
* `C56_const_missing_refuted`: The attribute const is documented without condition, but a vector without ramps (the default) does not have it: reading it raises AttributeError.
* `C57_UF_refuted`: UF is not the evolution operator: its rows, instead of its columns, are the evolved basis states (vstack of the evolved states), so it is the transpose. For sigma^z for the time pi/2 followed by sigma^x for the time pi/2 the state (1, 0) evolves into (0, -1), but UF (1, 0) = (0, 1). The eigenvectors of UF, which are returned as Floquet states VF, are not Floquet states either: (1, -i)/sqrt(2) has the eigenvalue i in UF and gets the factor -i over one period.
* `C57_mismatch_refuted`: A protocol with more durations than times is accepted: the extra durations are left out of the evolution, but counted in the period T used for the quasi-energies. (The other kind of step protocol is rejected, C57_lengths.)
* `C57_periodicity_refuted`: A continuous protocol that is not periodic passes the check, which compares the drive at two times only: whatever the time t_check is, there is a drive function with f(t) <> f(t+T) for almost all t that is accepted.
* `C58_block_diag_refuted`: evolve with block_diag=True never returns a state: block_diag_hamiltonian, which only takes block dictionaries, is called with Hamiltonians and raises ValueError (the next line would use the undefined name psi_list_prime).
* `C58_jobs_refuted`: expm with block_diag=True and more jobs than blocks with a part of the state raises ValueError: some of the groups of blocks are empty.
* `C58_kwargs_refuted`: update_blocks does not add the basis_kwargs of the constructor: the same block gets another basis.
* `C58_double_refuted`: The keys of the dictionary of blocks are the printed dictionaries of labels, which show the order of insertion: a block that is passed to update_blocks with its labels in another order is stored a second time, and then the part of the state in this block is counted twice. Here the norm of the evolved state is twice that of the initial state.
* `C59_order_refuted`: Two drives, and a set that is iterated in the other order: H(t) is wrong, x is driven by g and y by f.
* `C59_vanishing_refuted`: A drive that has no entry in one of the blocks: the call raises ValueError, although every block has a Hamiltonian.
* `C60_dot_array_refuted`: dot of an array with two axes on a grid is documented as the product exp(O) A: the result has its axes reversed, and for A = 1 the matrices at the points are the transposes of the exponentials; rdot and sandwich return other orders of the axes.
* `C60_hamiltonian_refuted`: hamiltonian objects on a grid: dot and rdot always raise, also as generators (step and grid are exchanged in the call); sandwich works.
* `C60_set_grid_refuted`: set_grid documents num and endpoint as optional: leaving out either raises ValueError.
* `C60_iterate_refuted`: set_iterate(True) is meant to be refused without a grid: it is accepted, and after it dot, rdot and sandwich raise TypeError.
* `C60_sandwich_sparse_refuted`: sandwich of a sparse matrix on a grid without iterate always raises ValueError.
* `C60_shift_refuted`: shift is documented as exp(O - shift): the sign is the opposite, and sandwich without a grid does not use shift at all.
* `C61_rows_refuted`: The documentation has the states as rows of the array: they are its columns.
* `C61_single_refuted`: In a space of dimension one every state is refused with IndexError: squeeze removes its only axis.
* `C62_enforce_pure_refuted`: enforce_pure: the option is not passed on when the states come from a generator and are not returned; the columns of a square array are then taken for a density matrix, although the call asks for pure states.
* `C62_single_refuted`: With return_state a generator that yields the states of a single time is refused: squeeze removes the axis of the times.
* `C62_many_refuted`: Many pure states at each time in an array of three dimensions, as documented: refused unless their number is the dimension of the space, and then taken for density matrices even with enforce_pure.
* `C63_Ns_refuted`: The attribute Ns of the result is still that of the operator before the projection: evolve of the projected operator refuses every state of the space it acts on, and accepts only numbers of elements for which its products fail.
* `C63_driven_refuted`: With a scipy matrix, as get_proj gives it, the drives are multiplied from the wrong side: they become P P^+ D, of the dimension of the large space, in an operator of the small one.
* `C63_back_refuted`: Because Ns is the old one, the projected operator cannot be projected back: project_op with the same projector raises an exception.

## Trusted base

* The kernel of Coq 8.16.1, with its virtual machine (`vm_compute`), and the standard library.
* The axioms below, all of the standard library.  No axiom is declared in this development, and no other library is used.
* The reading of /repo written down in the comments of the `M_*.v` files, and the assumed behaviour of numpy, scipy, CPython and OpenMP listed above.
* The statements: the `Spec*.v` files and the statements of the theorems in `C??_*.v`.

### What Print Assumptions lists, theorem by theorem

**Closed under the global context (no axioms)** (152 theorems): C01_bit_count_partial, C01_bit_count_upto_256_bits, C01_bit_count_full_width_undefined, C01_bit_count_refuted, C02_next_state_is_successor, C02_enumeration_complete, C03_next_state_is_successor, C03_enumeration_complete, C04_next_state_is_successor_partial, C04_enumeration_complete_partial, C04_enumeration_complete_upto_255_sites, C04_next_state_is_successor_refuted, C05_H_dim_counts_states, C06_spin_half_map_state, C06_spin_half_map_bits, C06_boson_map_state, C06_image_unique, C06_bijection_injective, C06_bijection_surjective, C06_keeps_particle_number, C06_inversion_exchanges_particles_and_holes, C07_network_realises_permutation, C07_network_agrees_with_bit_loop, C08_representative_is_maximum, C08_same_orbit_same_representative, C08_idempotent, C08_spin_half_maps, C08_boson_maps, C11_some_run_exists, C12_search, C12_position_unique, C12_blocks_spin, C12_blocks_boson, C12_blocks_made, C12_full_space, C12_symmetry_lookup, C12_python_index, C18_spin_boson_maps, C18_fermion_maps, C20_sign, C20_sign_permutation, C20_composition, C20_group, C20_inversion_period_refuted, C20_inversion_commutation_refuted, C21_sorted, C21_canonical, C28_order_small, C29_positions, C31_defined, C31_conjugate_square_refuted, C31_conjugate_product_refuted, C32_rdot_refuted, C37_short_generator_refuted, C38_operations_act, C38_translation_period, C38_involutions, C38_dihedral, C38_inversions, C38_sublattices_move, C38_chosen_type, C38_spinless_word_chain_refuted, C38_spinful_type_refuted, C38_spinful_one_particle_refuted, C38_sublattice_names_refuted, C39_single_checks, C39_reference, C39_reference_translations, C39_reference_PZ_sign_refuted, C39_momentum_check, C39_one_symmetry, C39_sublattice, C39_two_symmetries, C39_kept_inversion, C39_kept_sublattice, C39_kept_both_sublattices, C39_kept_odd_levels_refuted, C40_sectors_spin_half, C40_sectors_higher_spin_refuted, C40_sectors_boson_refuted, C40_sectors_fermion_refuted, C40_sectors_spinful, C40_sectors_spinful_refuted, C41_round_trip_partial, C41_names, C41_dense_sparse_refuted, C41_collision_refuted, C41_integers_refuted, C41_dtype_refuted, C41_empty_refuted, C41_failed_save_refuted, C42_printed, C42_round_trip, C42_brackets_refuted, C42_many_sites_refuted, C42_many_levels_refuted, C42_python_integers, C42_default_type, C42_index, C42_index_too_large_refuted, C42_basis_type, C42_basis_type_smallest, C42_full_lattice_refuted, C46_spinful_shift_refuted, C48_maps, C48_periods, C48_translations, C48_reflections, C48_diagonals, C48_sublattices, C48_sublattice_exchange, C48_blocks, C48_momenta, C48_all_momenta_refuted, C48_diagonal_block_refuted, C48_odd_length_refuted, C48_inversion_loop, C48_inversion_list_refuted, C49_invalid_map_rejected, C49_period_is_order_on_states, C50_commutation_check_partial, C50_check_passes_but_maps_do_not_commute_refuted, C50_check_warns_but_maps_commute_refuted, C51_elementwise, C51_in_place_one_thread_partial, C51_in_place_refuted, C51_bounds_refuted, C51_bounds, C52_full_closed, C52_number_closed, C52_species_closed, C55_spin_block, C55_spin_labels_partial, C55_spin_numbers, C55_spin_half_filling, C55_spin_closed, C55_spin_accepts, C55_fermion_block, C55_fermion_accepts, C55_spinful_block, C55_spinful_accepts, C55_boson_block_partial, C55_overlapping_labels_refuted, C55_boson_product_refuted, C55_boson_integer_refuted, C55_boson_half_filling_refuted, C55_two_numbers_refuted, C55_basis_type, C55_spinful_type_refuted, C56_coordinates_rounding_refuted, C58_kwargs_refuted, C58_kwargs.

**FunctionalExtensionality.functional_extensionality_dep** (6 theorems): C37_result, C37_sequential, C37_no_deadlock, C37_terminates, C37_runs, C37_prefix.

**ClassicalDedekindReals.sig_forall_dec** (12 theorems): C21_fermion_sorted, C25_partition, C28_reorder, C29_index, C29_partial_trace_A, C29_first_factor_refuted, C29_nested_left_refuted, C33_copy_refuted, C35_dense_complex_drive_refuted, C45_expt_value_matrix_ele, C45_sparse_refuted, C45_fluct_refuted.

**FunctionalExtensionality.functional_extensionality_dep, ClassicalDedekindReals.sig_forall_dec** (130 theorems): C13_string_is_product, C13_pauli_conventions, C13_rejects_only_unknown, C15_anticommute_different_sites, C15_anticommute_same_site, C15_letters, C15_string_is_product, C15_spinful_string, C15_many_sites_refuted, C16_spin, C16_fermion, C16_spinful, C17_accepted_lists_commute, C20_unitary, C20_transforms, C20_transforms_inversions, C20_full_inversion, C20_documented_inversion_refuted, C20_inversion_symmetry_refuted, C21_spin, C21_fermion, C21_spinful, C21_fermion_canonical, C22_spin_partial, C22_fermion_partial, C22_dynamic_partial, C22_fermion_dynamic_partial, C22_written_with_conjugates, C22_fermion_written_with_conjugates, C22_repeated_terms_refuted, C22_other_times_refuted, C23_symm_spin_partial, C23_symm_fermion_partial, C23_symm_refuted, C23_symm_repeated_terms_refuted, C25_product, C25_runs, C26_vector, C26_vector_runs, C26_vectors_partial, C26_vectors_new, C26_csr_layout_refuted, C26_matvec_partial, C26_matvec_arguments_refuted, C27_full_order, C28_pure, C28_mixed, C28_sparse, C28_order_refuted, C28_conjugate_refuted, C29_op, C29_projector, C29_project_from, C29_partial_trace_B_conjugated, C29_partial_trace_B_refuted, C29_sparse_vector_refuted, C29_adjoint_string, C29_fermion_sign_refuted, C30_untouched, C30_copy, C30_negate, C30_transpose_copy, C30_conjugate, C30_adjoint, C30_transpose, C31_equal, C31_product, C31_conjugate, C31_collision_refuted, C33_hamiltonian_partial, C33_quantum_operator_partial, C33_exp_op_partial, C33_linear_operator_exact, C33_transpose_refuted, C33_rmatvec_refuted, C33_left_refuted, C33_conjugate_diagonal_refuted, C33_sandwich_exact, C33_sandwich_refuted, C33_shared_matrices_refuted, C33_scaled_view_exact, C34_commutator_partial, C34_compressed_exact, C34_compressed_only_symmetric, C34_hermitian_refuted, C35_real_time, C35_imaginary_time, C35_stacked, C35_complex_drive_refuted, C36_generator_list_refuted, C36_ritz, C36_lin_comb, C40_projector, C40_dimension, C43_expansion_is_the_operator, C45_expt_value, C45_expt_real, C45_quant_fluct, C45_quant_fluct_positive, C45_matrix_ele, C45_matrix_ele_diagonal, C45_matrix_ele_sesquilinear, C45_quantum_operator, C45_one_state_refuted, C47_svd_partial, C47_level_spacing, C47_level_spacing_rejects, C60_dot_array_refuted, C60_hamiltonian_refuted, C60_set_grid_refuted, C60_iterate_refuted, C60_sandwich_sparse_refuted, C60_grid, C60_dot, C60_rdot, C60_sandwich, C60_single, C60_construct, C60_history, C60_sandwich_single, C60_shapes, C63_down_partial, C63_up_partial, C63_array, C63_refused, C63_Ns_refuted, C63_driven_refuted, C63_rotations, C63_rotations_trace, C63_back_refuted.

**FunctionalExtensionality.functional_extensionality_dep, ClassicalDedekindReals.sig_forall_dec, ClassicalDedekindReals.sig_not_dec** (183 theorems): C09_norm_value, C09_kept_iff_representative_and_compatible, C10_returned_list_is_block, C10_small_buffer_reported, C10_larger_buffer_suffices, C10_exact_buffer_suffices_refuted, C10_spin_half_sector, C10_spin_half_full, C10_boson_sector, C10_several_sectors, C10_repeated_sector_refuted, C11_schedule_independent, C11_parallel_equals_sequential_partial, C11_parallel_returns_block, C11_parallel_equals_sequential_refuted, C14_boson_string_is_product_partial, C14_spin_string_is_product, C14_boson_z_refuted, C16_boson, C16_higher_spin, C17_spin, C17_boson, C17_fermion, C18_projector, C18_real_type_refused, C19_project_from, C19_project_to_partial, C19_round_trip_partial, C19_sparse_project_to_zero, C19_round_trip_default_refuted, C19_pcon_dense_complex_refuted, C19_pcon_dense_reads_first, C19_pcon_dense_refuted, C21_boson, C21_higher_spin, C22_boson_partial, C22_higher_spin_partial, C23_pcon_spin_partial, C23_pcon_spin_exact_partial, C23_pcon_boson_partial, C23_pcon_fermion_partial, C23_pcon_refuted, C23_pcon_fermion_refuted, C23_pcon_dynamic_refuted, C23_symm_higher_spin_partial, C23_symm_boson_partial, C23_symm_boson_refuted, C24_spin, C24_boson, C24_fermion, C27_kernel, C27_threads, C27_runs, C27_dot_partial, C27_zero, C27_first_step_refuted, C27_norm_refuted, C29_factors, C30_add, C30_sub, C30_scalar, C30_iadd, C30_iscalar, C30_mul, C30_imul, C30_mul_static_right, C30_mul_static_left, C30_matrix_right, C30_matrix_left, C30_sparse_right, C30_sparse_left, C30_add_matrix, C30_sub_matrix, C30_isub_refuted, C30_isub_ndarray_refuted, C30_mixed_formats_refuted, C30_flag_refuted, C30_imul_static_refuted, C30_dense_product_refuted, C30_sharing_refuted, C30_small_refuted, C32_never_wrong, C32_same_names_partial, C32_separate_defaults, C32_shared_default_refuted, C32_callers_dictionary_refuted, C32_small_parameter_refuted, C32_linear_operator, C32_adjoint_refuted, C32_shared_linear_operator_refuted, C35_evolve_times, C35_evolve_imaginary, C35_stacked_matrix_refuted, C35_imaginary_columns_refuted, C36_full, C36_iter, C36_variants, C36_exhausted_refuted, C36_eigenvector_refuted, C36_expm, C36_ftlm, C36_ltlm_partial, C36_ltlm_empty_refuted, C36_runs, C40_oscillator, C40_oscillator_letters, C40_index_type_refuted, C40_conserving, C40_many_quanta_refuted, C40_check_pcon_refuted, C43_expanded_form_partial, C43_expanded_form_refuted, C44_static, C44_static_exact, C44_static_merged, C44_dynamic, C44_dynamic_local_refuted, C46_shift_spin_partial, C46_shift_boson_partial, C46_shift_fermion_partial, C46_shift_refuted, C46_shift_output_refuted, C46_bra_ket_spin_partial, C46_bra_ket_boson_partial, C46_bra_ket_fermion_partial, C46_bra_ket_stale_refuted, C46_bra_ket_diagonal_refuted, C46_bra_ket_real_refuted, C46_bra_ket_reduce_refuted, C47_diag_thermal, C47_diag_distribution, C47_diag_integer_refuted, C52_in_block, C52_complete_partial, C52_complete_odd_levels_refuted, C52_matrix_partial, C52_orthonormal, C52_constructed, C52_spinful_product_refuted, C53_cell_pi_refuted, C56_coordinates_partial, C56_coordinates_empty, C56_accepts, C56_times, C56_periodic, C56_strobo, C56_regimes, C56_part_strobo_partial, C56_down_strobo_refuted, C56_part_tot_refuted, C56_const_missing_refuted, C57_propagator_partial, C57_lengths, C57_mismatch_refuted, C57_periodicity_refuted, C57_refused, C58_evolve, C58_whole_state, C58_expm_no_projection, C58_block_diag_refuted, C58_jobs_refuted, C58_double_refuted, C58_new_blocks, C58_update_blocks, C59_accepted, C59_operator_partial, C59_exchanged, C59_order_refuted, C59_vanishing_refuted, C61_pure, C61_mixed, C61_refused, C61_rows_refuted, C61_single_refuted, C62_array, C62_generator, C62_eigen, C62_eigen_mixed, C62_refused, C62_short, C62_enforce_pure_refuted, C62_single_refuted, C62_many_refuted.

**Classical_Prop.classic, FunctionalExtensionality.functional_extensionality_dep, ClassicalDedekindReals.sig_forall_dec, ClassicalDedekindReals.sig_not_dec** (59 theorems): C27_smaller_team_refuted, C36_ltlm_identity_refuted, C40_coherent, C40_coherent_refuted, C47_time_average_unique, C47_diag_degenerate, C47_diag_average, C47_diag_fluctuations_partial, C47_diag_floor_partial, C47_diag_mixture, C47_diag_documented_refuted, C47_diag_rejects, C47_diag_complex_refuted, C47_diag_density_matrix_refuted, C47_diag_eigenstate_refuted, C47_diag_documented_formula_refuted, C47_renyi_partial, C47_renyi_extremes, C47_renyi_negative_alpha, C47_renyi_zero_alpha_refuted, C47_renyi_tensor_refuted, C47_pure_entropy_partial, C47_offset_refuted, C47_empty_subsystem_refuted, C47_KL, C47_KL_zero_refuted, C53_get_proj_partial, C53_get_proj_sector_partial, C53_isometry_partial, C53_back_and_forth_partial, C53_project_from_partial, C53_norm_wraps_refuted, C53_sparse_vector_refuted, C53_sparse_vector_partial, C54_arrays_fit, C54_momentum_arrays_fit_partial, C54_two_numbers_refuted, C54_unchecked_number_refuted, C54_repeated_numbers_refuted, C55_density_partial, C55_density_refuted, C57_unitary, C57_symmetric, C57_UF_refuted, C57_spectrum, C57_quasienergies, C58_expm_partial, C60_shift_refuted, C61_ensemble, C61_norm, C58_exponential, C58_expm_grid, C58_expm_options, C61_same_states, C61_group, C62_options, C62_conserved, C61_same_matrices, C62_options_mixed.

