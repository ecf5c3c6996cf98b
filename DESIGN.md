# Design: Rocq model of JohanSchott/impurityModel

Coq 8.16.1, standard library only.  All files are in `rocq/theories`, logical prefix `Verif`.

* `M_*.v`  model: total, computable Gallina functions, one per Python function,
  each with a comment citing the file and lines in /repo it models.  No proofs.
* `S_*.v`  independent specifications: what the property text means, written
  without using the model's helper functions (occupations, Fock-space operators,
  matrices, resolvents, Boltzmann means, ...).
* `L_*.v`  lemmas and proofs.
* `P_*.v`  property theorems: `Theorem Cxx_... . Proof. exact lemma. Qed.`,
  `Print Assumptions`, plus an `Example` showing that a concrete non-trivial input
  meets the hypotheses (or computing the modelled function on such an input).
* `X_*.v`  helpers for the examples: rational constants, the reals as scalars, an exact linear
  solver, a sorting function.

Names: `..._partial` is a weaker statement than the property, the missing part is in the note of
the property; `..._refuted` is an existential statement that contradicts the property text.

## Conventions of the model

* **Exceptions are values**: `res A := Ok a | Err exc`, `exc` being the Python exception
  class.  Every branch that raises in the code returns `Err` in the model.
* **Dictionaries** are insertion-ordered association lists with unique keys (Python >= 3.7);
  `d[k]=v` keeps the position of an existing key.  Iteration order is list order.
* **Python sets**: iteration order is not defined by the language; functions iterating over a
  set take an ordering oracle (one arbitrary permutation per rank) and theorems quantify over it.
* **Mutation and aliasing**: a dictionary that a function changes in place (`opResult`, `h_dict`,
  `psi`) is an argument and a result of the model function.  The list `[{}]*n` of getRIXSmap is
  modelled as one shared dictionary.
* **Integers** are `Z`, list indices follow Python's negative-index rules where the code can
  meet them.  Product states: `str` = list of characters, `tuple` = list of `Z`, `int` = `Z`,
  `bitarray` = list of `bool`, `bytes` = list of `N`.
* **Numbers**: floats and complex floats are exact numbers.  The model is parametric in an
  ordered field (record `ofield`; complex numbers are pairs over it), instantiated with canonical
  rationals `Qc` for executable examples and with the reals of the standard library where a square root or an
  exponential function must exist.  Rounding, overflow and NaN are outside the model.
* **MPI**: an SPMD program on `ranks` processes is a function on the list of all
  rank-local states.  Collectives (`bcast`, `Bcast`, `allreduce`, `Reduce`, ...) are synchronous:
  all ranks must reach the same collective, otherwise the model returns `Err Deadlock`.
  Network behaviour below the MPI interface is not modelled.
* **External functions** are Section variables, so that every theorem holds for all functions
  with the laws in its hypotheses (table below).
* **Loops without static bound** (`while`, `expand_basis`) use explicit fuel and return
  `Err OutOfFuel`; theorems exclude this value for an explicit amount of fuel.

## Trusted base

* The Coq kernel (8.16.1), including `vm_compute`.
* Axioms: no axiom is declared in `rocq/theories`.  Two theorems on the real numbers use axioms of the standard library
  (table "Assumptions per theorem").  Loading `Reals` and `ssreflect` also brings the opaque
  constants of `Rdefinitions.RbaseSymbolsImpl`, `Rdefinitions.RinvImpl` and `ssr.ssrunder.Under_rel`
  into the environment, which a checker that lists library constants reports although no theorem rests on them.
* That the model reads the Python code correctly (the code is not run); each definition cites its lines.
* Exact arithmetic in place of IEEE-754.
* The hypotheses on external functions:

| hypothesis | external function | where |
|---|---|---|
| `sqrt_laws`: `0 <= sqrt x`, `sqrt x * sqrt x = x` for `0 <= x` | `math.sqrt`, `np.sqrt` | C35-C38, C43, C45, C46, C60, C62, C70-C76 |
| `exp_laws`: `exp x > 0`, `exp (x+y) = exp x * exp y` | `np.exp` | C41, C62, C65, C66, C70, C73, C74, C76 |
| `gaunt_laws`: two symmetries of the Gaunt coefficients | `sympy.physics.wigner.gaunt` | C48, C52, C79, C82 |
| `Y_k,-m = (-1)^m conj(Y_km)` | `scipy.special.sph_harm` | C82 (NIXS) |
| `tensor_laws`: `[L+-, C^k_q] = sqrt(k(k+1) - q(q+-1)) C^k_(q+-1)` for the multipoles with a non-zero Slater integral | `sympy.physics.wigner.gaunt` | C75 (L and J), C89 (only C^1 between 2p and 3d), C87 (k = 1 between 3d and 2p) |
| `eigh_works`, `eigsh_works`, `argsort_works`: decomposition, eigenpairs, sorting permutation | `np.linalg.eigh`, `scipy.sparse.linalg.eigsh`, `np.argsort` | C55, C68, C76 |
| `exact_solver`: the linear system is solved | `scipy.sparse.linalg.bicgstab` | C60, C74 |
| permutation oracle | iteration over Python sets | C28-C30, C36, C38, C40, C60, C70-C74 |
| rounding to float32 and reading the header back | `ndarray.tofile`, `np.fromfile`, `int` | C57, C77; C65, C66 (not negative for `x >= 0`) |
| `int(float(z)) = z` | float conversion | C52, C75 |
| none (any function) | `spherical_jn`, `sph_harm`, `arccos`, `sin` as functions in the operator | C50 matrix elements |

  Every hypothesis is met by a concrete function in an `Example` (reals with `sqrt` and `exp`, Gaussian
  elimination, insertion sort, ...).

## What is modelled and what is not

Modelled:
* `product_state_representation.py`, `create.py`, `remove.py`, `average.py`, `mpi_comm.py`: every function.
* `finite.py`: every function; printing functions return the printed numbers.
* `spectra.py`: every function, with `simulate_spectra` as a list of outputs (hdf5 datasets, text files, RIXS.bin).
* `get_spectra.py`, `get_spectra_using_CF.py`: `main` from the parsed arguments to the last file, the checks of the arguments, Hamiltonian,
  crystal field, restrictions, energy cut.  The parser of the command line.  The contents of data.npz.  Not the formatting of printed numbers.  The radial
  file and the unpickled Hamiltonian are arguments.
* `plotSpectra.py`, `plotRIXS.py`: the data of the figures.

Not modelled: `plotRIXS.plt`, shell scripts, tests, help texts, reading of the pickle, timing, layout of printed numbers and of figures.

Simplifications are named in the comment of the definition concerned (for example: vectors of equal length given as
a list of pairs, `printThermalExpValues` returning the numbers that are printed).

## Per property

Status and theorems are those of MANIFEST.json.

| id | status | what is modelled and how it is proved, or why not |
|----|--------|------------------------------------|
| C01 | proved | **Product-state representations round-trip.** All 20 converters; what a value represents is an occupation `nat -> bool` (S_Occ). Each converter maps the representation of an occupation to the representation of the same occupation, by induction over digits and bytes. Strings restricted to the characters 0 and 1. Theorems: `C01_round_trip`, `C01_representable`. |
| C02 | proved | **All conversion routes denote the same occupation.** As C01; routes are arbitrary lists of representations (S_Routes), induction over the route. Occupation meaning of each representation is rep_* in S_Occ.v. Theorems: `C02_routes_commute`. |
| C03 | proved | **bytes keys are canonical and collision free.** Length, padding and injectivity from C02; byte order against numeric order by induction over big-endian digits.  Theorems: `C03_bytes_canonical`, `C03_bytes_injective`, `C03_bytes_order`, `C03_bytes_produced`. |
| C04 | proved | **Boundary behaviour of the converters.** The error and edge branches, by induction over the input.  Theorems: `C04_tuple_out_of_range_dropped`, `C04_empty_system_int_raises`, `C04_int_str_any_width`, `C04_int_too_big`, `C04_int_negative`, `C04_int_negative_bits`, `C04_string_rejected`. |
| C05 | proved | **The five create implementations agree.** `create.*` with bisect as binary search; each refined to one representation-independent specification (S_Ladder).  Theorems: `C05_create_correct`, `C05_create_agree`. |
| C06 | proved | **The five remove implementations agree.** As C05 for `remove.*`.  Theorems: `C06_remove_correct`, `C06_remove_agree`. |
| C07 | proved | **Fermionic sign and Pauli principle of create/remove.** Facts of the specification transported through C05 and C06.  Theorems: `C07_remove_after_create`, `C07_create_after_remove`, `C07_out_of_range`, `C05_create_correct`, `C06_remove_correct`. |
| C08 | proved | **Canonical anticommutation relations.** `a` and `c` on dictionaries; equality of amplitude functions on all configurations (S_Fock). Operators modelled without the print branch. Theorems: `C08_annihilators_anticommute`, `C08_creators_anticommute`, `C08_mixed_anticommutator`, `C08_vacuum`, `C08_normal_order`. |
| C09 | proved | **a and c are adjoint.** Finite sums over dictionaries, reindexing along create/remove.  Theorems: `C09_create_adjoint`, `C09_annihilate_adjoint`. |
| C10 | proved | **inner / norm2 form a Hermitian inner product.** `inner`, `norm2` as sums over all configurations.  Theorems: `C10_inner_is_sum`, `C10_linear`, `C10_antilinear`, `C10_conjugate_symmetric`, `C10_nonnegative`, `C10_definite`, `C10_norm2`, `C10_zero_keys`. |
| C11 | proved | **add and addToFirst compute psi1 + mul*psi2.** Association lists, induction.  Theorems: `C11_add_amplitude`, `C11_keys`, `C11_add_same_as_addToFirst`. |
| C12 | proved | **applyOp applies the second-quantised operator.** `applyOp` with its four branches and the local variable `sign` that survives an iteration; specification: matrix element of a product of ladder operators. Loop invariant on the accumulated dictionary. Cutoff switched off by slaterWeightMin <= 0; C14 treats the cutoff. Theorems: `C12_matrix_elements`, `C12_linear_in_state`. |
| C13 | proved | **applyOp restrictions remove exactly the forbidden product states.** As C12; restrictions as a predicate on configurations.  Theorems: `C13_restrictions`. |
| C14 | proved | **applyOp weight cutoff.** As C12; the cut-off is applied to the final dictionary.  Theorems: `C14_cutoff`. |
| C15 | proved | **applyOp cache coherence.** Invariant `coherent` of the opResult dictionary over the loop of applyOp.  Theorems: `C15_cache_coherence`, `C15_same_result`, `C15_empty_cache_coherent`. |
| C16 | partial | **Cached and uncached applyOp agree for every history.** Witness computed on the model; first use of an empty cache by C15. Refuted: a second call with the same opResult may lose amplitudes because columns were cut at 1e-12; agreement on the first use of a cache is proved. Theorems: `C16_cached_equals_uncached_refuted`, `C16_first_call_partial`. |
| C17 | partial | **Unknown ladder labels are rejected.** Witness computed on the model; positive part by inspection of the first step. Refuted: an unknown label after a valid one reuses the stale sign; proved for a label that acts first. Theorems: `C17_unknown_label_rejected_refuted`, `C17_first_label_partial`. |
| C18 | proved | **daggerOp is the Hermitian adjoint.** `daggerOp`; adjoint by induction over the process with C09.  Theorems: `C18_involution`, `C18_defined`, `C18_unknown_label_raises`, `C18_adjoint`. |
| C19 | proved | **addOps adds operators.** `addOps`, `assert_hermitian`; sums over association lists.  Theorems: `C19_value`, `C19_unique_keys`, `C19_apply`, `C19_hermitian`, `C19_assert_hermitian_meaning`. |
| C20 | proved | **Hermitian operator gives Hermitian Hamiltonian matrix.** `get_hamiltonian_matrix` on top of C12-C14 and C18. Basis without repetitions; C20_needs_distinct_states shows that this is needed. Theorems: `C20_matrix_elements`, `C20_hermitian_matrix`, `C20_needs_distinct_states`. |
| C21 | proved | **get_job_tasks partitions the work.** `get_job_tasks` with integer division; a closed formula for each rank's slice.  Theorems: `C21_job_tasks`. |
| C22 | proved | **Hamiltonian matrix is independent of mode and rank count.** Per-rank loops and Reduce/allreduce as sums over ranks; each column is set by exactly one rank (C21). Well-formed operator and basis; results compared entrywise. Theorems: `C22_modes_agree`, `C22_other_mode`. |
| C23 | proved | **get_basis enumerates exactly the restricted configurations.** `get_basis` with itertools.combinations and product; specification counts occupied orbitals per shell interval (S_Basis). Spec: counts of occupied orbitals in the index interval of each shell. Also the exact set of accepted parameters, the kinds of error, and the size. Parameter dictionaries have integer keys. Theorems: `C23_basis`, `C23_basis_size`, `C23_accepted_parameters`. |
| C24 | partial | **get_basis conserves the electron number.** Corollary of C23 with a hypothesis; witness without it. Proved when no shell has an empty valence bath with dnValBaths>0; refuted without that condition (electrons are created). Theorems: `C24_electrons_partial`, `C24_electrons_refuted`. |
| C25 | proved | **c2i and i2c are inverse bijections.** `c2i`, `i2c` for plain and tuple keys; explicit enumeration of coordinates (S_Basis). Plain and tuple keys. The distinctness condition is shown to be needed. Theorems: `C25_c2i`, `C25_i2c_after_c2i`, `C25_bijection`. |
| C26 | partial | **c2i and i2c reject invalid coordinates.** Error branches of `c2i`, `i2c`. C2i, and i2c for too large indices, proved. Refuted for negative indices: i2c returns a bath state with negative number. Theorems: `C26_c2i_rejects`, `C26_i2c_rejects_large_partial`, `C26_negative_index_accepted`, `C26_i2c_rejects_refuted`. |
| C27 | proved | **expand_basis returns the smallest closed basis.** `expand_basis` with fuel; abstract expansion relation, closure as inductive predicate `Reach` (S_Ham), measure 2^n. Termination: every fuel above 2^n gives the result; the call on an applyOp error is not part of the statement. Theorems: `C27_smallest_closed_basis`. |
| C28 | proved | **Parallel expand_basis equals the serial one on every rank.** The H_build loop refined to the abstract expansion of C27; sets sorted before use are independent of the order oracle. Set iteration order is an arbitrary permutation per rank; disjoint keys over ranks are an assumption and are preserved. Theorems: `C28_parallel_equals_serial`. |
| C29 | proved | **Hamiltonian from h_dict.** `get_hamiltonian_matrix_from_h_dict` in both modes.  Theorems: `C29_serial_matrix`, `C29_local_matrices`, `C29_basis_index`, `C29_after_serial_expansion`, `C29_after_parallel_expansion`, `C29_local_serial_refused`, `C29_wrong_refused`. |
| C30 | proved | **Restricted Hamiltonian used for spectra is Hermitian.** C27-C29 with C18 and symmetry of the restrictions. C30_needs_allowed_start_states shows that the start states have to obey the restrictions. Theorems: `C30_restricted_matrix_hermitian`, `C30_restricted_matrix_hermitian_parallel`, `C30_needs_allowed_start_states`. |
| C31 | partial | **allgather_dict distributes all data.** `allgather_dict` with bcast per chunk; presence of `np.int` is an argument of the model. Proved for a numpy that has np.int. Refuted for the pinned numpy 2.0.0: np.int (mpi_comm.py:73) does not exist, so the function raises AttributeError on every rank. Chunk sizes outside the property: with 0 rank 0 stops and the others wait for ever, with a negative size all data are lost silently. Theorems: `C31_allgather_partial`, `C31_allgather_shared_keys_partial`, `C31_allgather_pinned_numpy_refuted`, `C31_zero_partial`, `C31_negative_partial`. |
| C32 | proved | **dict_chunks_from_one_MPI_rank chunks losslessly.** Generator modelled by the list of its values. Len/chunk_maxsize taken as exact division. Also the chunk sizes below 1, where nothing is sent. Theorems: `C32_chunks`, `C32_zero`, `C32_negative`. |
| C33 | proved | **Continued fraction equals the tridiagonal resolvent.** Continued fraction over complex numbers over an ordered field; Schur complement by induction. Cont_frac (spectra.py:677-680) is the unique (0,0) resolvent element of the tridiagonal matrix; all denominators are non-zero for delta <> 0. Theorems: `C33_resolvent`, `C33_denominators`. |
| C34 | proved | **Spectral functions have the right sign and are bounded.** Im of the continued fraction by induction over the fraction; loops of getSpectra, getRIXSmap and simulate_spectra by invariants. GetGreen, getSpectra and getRIXSmap in every mode, on every rank, for every returned value and all arguments; the written PS, XPS, NIXS and XAS columns after thermal averaging. Theorems: `C34_getGreen`, `C34_getRIXSmap`, `C34_getSpectra`, `C34_absorption`, `C34_emission`, `C34_photoemission`. |
| C35 | proved | **Lanczos recursion is an orthonormal tridiagonalisation.** Lanczos loops with invariant (orthonormality, tridiagonal matrix elements, polynomials in H); dict mode by a simulation of dictionaries by vectors. Serial, H_build and dict recursion of get_tridiagonal_krylov_vectors; square root as function with the law sqrt(x)^2 = x (met by the reals); dict mode with slaterWeightMin <= 0. Theorems: `C35_dict`, `C35_dict_closed_set`, `C35_serial`, `C35_parallel`. |
| C36 | proved | **Full Krylov space gives the exact Green's function.** C33 and C35 and a dimension argument; from the matrix in the generated basis to the whole Fock space by uniqueness of the resolvent. On the whole Fock space for the restricted operator (for the operator itself without restrictions and without elements of modulus < 1e-6): getGreen in serial mode and on rank 0 of H_build, getSpectra in mode eigen_states on every rank and in mode H_build on rank 0 (transition operator without elements below the cache cut-off). Mode dict: for the projected operator without cut-off, slaterWeightMin <= 0. Theorems: `C36_dict`, `C36_serial`, `C36_H_build`, `C36_restricted_operator`, `C36_eigen_states`, `C36_H_build_spectra`. |
| C37 | partial | **getGreen always returns a Green's function.** Witness computed on the model; exact condition from the Lanczos invariant. False: an eigenstate spread over two configurations raises ValueError (AttributeError in dict mode, other ranks hang in H_build). Positive part: exact condition under which the matrix modes and the dict mode return a value, and the exception otherwise. Theorems: `C37_dict_value_iff_partial`, `C37_value_iff_partial`, `C37_always_a_value_refuted`. |
| C38 | partial | **Green's function is the same on every MPI rank.** Per-rank values of getGreen and getSpectra. False for H_build: ranks other than 0 return <psi/psi>/(omega+i delta+e) whatever the Hamiltonian (getGreen and getSpectra). Positive part: serial and eigen_states equal on all ranks and for every number of ranks; rank 0 of H_build does not depend on the number of ranks; mode dict on every rank equals the matrix modes for krylovSize up to the basis size and fails above. Theorems: `C38_dict`, `C38_serial`, `C38_H_build_rank0_partial`, `C38_other_ranks_ignore_H`, `C38_same_on_all_ranks_refuted`, `C38_rixs_same_on_all_ranks_refuted`, `C38_eigen_states`, `C38_spectra_rank0_partial`, `C38_spectra_other_ranks`, `C38_spectra_same_on_all_ranks_refuted`. |
| C39 | partial | **RIXS uses the requested outgoing operator.** Shared dictionary; invariant: all cached columns belong to the first operator. Refuted: tOut_big = [{}]*len(tOpsOut) is one shared dictionary, so that all outgoing operators after the first are ignored (C39_only_first_operator_used, for all inputs); a concrete map that is wrong in every mode on every rank (C39_requested_operator_refuted). True for one outgoing operator (C39_requested_operator_partial). Theorems: `C39_only_first_operator_used`, `C39_requested_operator_partial`, `C39_requested_operator_refuted`. |
| C40 | proved | **RIXS map is the same on every rank and for every rank count.** Task distribution (C21) and allreduce over ranks. Same array on all ranks or failure on all of them (all inputs); every incoming energy on exactly one rank; the map does not depend on rank count, mode, set order. Theorems: `C40_same_on_all_ranks`, `C40_each_block_once`, `C40_independent_of_ranks`. |
| C41 | proved | **thermal_average is a Boltzmann average.** `thermal_average` with its shift by the lowest energy. Np.exp is a function argument with the laws exp>0 and exp(x+y)=exp x exp y; Example with the exponential function of the reals. Exact arithmetic. T<>0. Theorems: `C41_average`, `C41_weights`, `C41_shift`, `C41_permutation`, `C41_constant`, `C41_bounds`, `C41_errors`, `C41_no_overflow`. |
| C42 | proved | **Angular-momentum expectation values agree with operators.** Loops over dictionaries against one-particle operators (S_Expect). GetLz3d/getSz3d/getTraceDensityMatrix against applyLz3d/applySz3d and the textbook one-particle operators in Fock space. Error branches: tuple keys, missing 3d shell. Theorems: `C42_Lz`, `C42_Sz`, `C42_trace`, `C42_tuple_key`, `C42_no_shell`, `C42_no_shell_zero`. |
| C43 | proved | **Ladder operators are mutually adjoint and L^2,S^2 are non-negative.** apply* functions refined to one-body operators on vectors. Apply* are the textbook ladder operators; adjointness; L^2 and S^2 as sums of squares, non-negative. Theorems: `C43_Lplus`, `C43_Lminus`, `C43_Splus`, `C43_Sminus`, `C43_adjoint_L`, `C43_adjoint_S`, `C43_Lsqr`, `C43_Ssqr`. |
| C44 | proved | **Density matrix is Hermitian with the right trace.** Loops refined to matrix elements; positivity as a norm. Entries exactly the non-zero <c_y^+ c_x>, Hermitian, 0 <= rho <= norm as a matrix, trace. Theorems: `C44_entries`, `C44_hermitian`, `C44_positive`, `C44_trace`. |
| C45 | proved | **Spherical-to-cubic matrix is unitary.** Explicit matrices, computed with symbolic sqrt 2. U u^+ = u^+ u = 1 for l=1,2 with and without spin; real harmonics; any other l leaves u unbound. Theorems: `C45_unitary`, `C45_real_p`, `C45_real_d`, `C45_other_l`. |
| C46 | proved | **eg/t2g occupations are real and sum to the shell occupation.** C44 and C45. Exact arithmetic: the imaginary part is exactly 0, so all four numbers are real; bounds; sums; cubic matrix entries, Hermiticity, trace. Theorems: `C46_occupations`, `C46_cubic_entries`, `C46_cubic_hermitian`, `C46_cubic_trace`. |
| C47 | proved | **One-particle Hamiltonian terms are Hermitian.** Dictionaries written by nested loops, lookup lemma for each key; comparison with L.S and h.S matrices. SOC equals xi L.S and the field operator h.S as one-particle matrices for every l; both pass assert_hermitian; sqrt is an arbitrary function. Theorems: `C47_SOC_hermitian`, `C47_SOC_conserves`, `C47_SOC_is_LS`, `C47_field_hermitian`, `C47_field_conserves`, `C47_field_is_hS`. |
| C48 | proved | **Coulomb operator conserves N, Sz, Lz and is Hermitian.** As C47 for four nested loops; Hermiticity by the symmetries of gaunt. Exact list of processes and coefficients of getUop (Slater-Condon formula over gauntC), conservation laws, absence of double creation/annihilation; Hermiticity from two symmetries of the Gaunt coefficients (library function, hypotheses gaunt_laws). Theorems: `C48_elements`, `C48_conserves`, `C48_no_double`, `C48_adjoint`, `C48_2p3d_sum`, `C48_2p3d_hermitian`, `C48_2p3d_conserves`, `C48_sector`. |
| C49 | proved | **Dipole operators move one electron between shells.** As C47 for the dipole loops. The operator is n.r between the shells in terms of gauntC; selection rules, linearity in the polarisation, adjoints, error cases. sqrt 2 assumed non-zero. Theorems: `C49_dipole`, `C49_selection`, `C49_linear`, `C49_all`, `C49_daggered`, `C49_well_formed`, `C49_short_polarisation`, `C49_not_two_shells`. |
| C50 | partial | **NIXS operator depends on the full scattering vector.** Angles over the reals with acos, sin; witness; operator for arbitrary angle functions. The statement is false for q_y < 0: arccos loses the sign, so the angles belong to (qx, /qy/, qz). Proved: refutation, the corrected statement over the reals, the mirror symmetry, and the matrix elements of the operator for given angles. Theorems: `C50_matrix_elements`, `C50_program_operators`, `C50_angles_partial`, `C50_angles_refuted`, `C50_mirror`. |
| C51 | proved | **Crystal-field Hamiltonian is Hermitian and stays in the system.** Products of explicit 5x5 matrices and unitarity (C45). Matrix elements of all blocks, Hermiticity, spin conservation, bath indices inside nBaths for the command-line case (10 valence, 10 or 20 bath states); error branches. Theorems: `C51_CF_hamiltonian`, `C51_in_system`, `C51_other_basis`, `C51_no_3d`, `C51_parameters`. |
| C52 | proved | **Total Hamiltonian passes its own Hermiticity assertion.** Sum of the parts (C19), translation of indices (C25). Sum of the parts with c2i indices, Hermitian, well formed; non-Hermitian h0, orbitals outside the system and an open 2p shell raise. Uses gaunt_laws and int(float(z)) = z. Theorems: `C52_total`, `C52_total_CF`, `C52_conserves_N`, `C52_nonhermitian_rejected`, `C52_outside_rejected`, `C52_2p_not_full`. |
| C53 | proved | **Low-energy selection keeps energies and states paired.** Prefix of a sorted list. For ascending energies the kept energies and states are the same prefix, and exactly those below the cut; a counterexample shows that the order is needed. eigensystem returns ascending energies (C55). Theorems: `C53_pairing`, `C53_needs_order`. |
| C54 | partial | **Ground-state configurations respect the excited-state restrictions.** Restrictions against the basis of C23; witness. The statement is false for dnTol >= 2 and dnConBaths >= 2: the basis then has states with n0-2 impurity electrons, the restrictions start at n0-1. Proved: refutation, the exact meaning of the restrictions, and the property if dnTol <= 1 or dnConBaths <= 1. Theorems: `C54_meaning`, `C54_defined`, `C54_basis_allowed_partial`, `C54_basis_allowed_refuted`. |
| C55 | proved | **eigensystem returns truncated eigenvectors.** eigh, eigsh, argsort as oracles with hypotheses. For every decomposition delivered by eigh/eigsh (eigen-equation, orthonormality; hypotheses eigh_works, eigsh_works, argsort_works): truncation, energies ascending, pairing of energies and states, bounds on the lost weight, exact orthonormal eigenstates without cutoff; unknown mode and empty basis raise. Theorems: `C55_full`, `C55_Lanczos`, `C55_weight`, `C55_no_cutoff`, `C55_other_mode`, `C55_empty_basis`. |
| C56 | proved | **dc_MLFT decision logic.** All branches. All branches; occupations are integers iff int(x) == x. Theorems: `C56_not_integer`, `C56_2p_incomplete`, `C56_3d`, `C56_2p3d`. |
| C57 | proved | **RIXS.bin round-trips through the plot script.** Writer (spectra.py) and reader (plotRIXS.py) composed. Up to rounding to float32; the number of columns must be representable (hypothesis). The reader is characterised for every file. Theorems: `C57_round_trip`, `C57_read_errors`, `C57_read`. |
| C58 | proved | **Photoemission sum rule.** C08 and C09. The sum rule is stated for the functions a and c; getPhotoEmissionOperators / getInversePhotoEmissionOperators are shown to return exactly the single ladder operators of the shell. Theorems: `C58_sum_rule`, `C58_operators`, `C58_no_shell`. |
| C59 | partial | **RIXS hands normalised states to getGreen.** Norm of a truncated vector. Refuted: amplitudes below slaterWeightMin are dropped after the normalisation. Proved: norm between 1 - N*slaterWeightMin and 1, and 1 without cut-off. Theorems: `C59_norm_bounds_partial`, `C59_normalised_refuted`. |
| C60 | proved | **RIXS map is the Kramers-Heisenberg expression.** C36 with the resolvent of the intermediate state; linear solver as oracle. Exact linear solver (bicgstab) and square root are hypotheses; complete Krylov space, no cut-off; modes serial, wIn, H_build_wIn on all ranks, H_build on rank 0. Theorems: `C60_kramers_heisenberg`, `C60_unique`. |
| C61 | proved | **Angular momentum algebra of the 3d operators.** C43 operators as vectors, matrix computation of the commutators. Commutators applied to every state. Theorems: `C61_commutators`, `C61_L_S_commute`. |
| C62 | proved | **Printed thermal averages are Boltzmann means of expectation values.** Composition of C41-C46. All ten printed numbers, from the functions of C41-C46; exp and sqrt enter by their laws. Theorems: `C62_thermal`, `C62_sum`, `C62_bounds`. |
| C63 | partial | **RIXS map does not depend on the number of ranks.** Cached columns are those of a fresh cache if the operator has no small element; all loops carry the invariant that every entry is a function of the arguments; C64. Refuted: with slaterWeightMin > 0 the columns stored for the outgoing operator are cut, so one rank and two ranks differ; equality is proved if the first outgoing operator has no element below the cut-off, for any solver and krylovSize. Theorems: `C63_rank_count_partial`, `C63_rank_count_refuted`. |
| C64 | proved | **Green's function does not depend on the storage order of psi.** Lanczos recursion in a permuted basis. All inputs; modes serial and H_build, dense and sparse. Theorems: `C64_insertion_order`. |
| C65 | proved | **Every run writes an initial part of a fixed list of outputs.** Invariant over the stages of M_Program: labels of the outputs and result of rank 0.  Theorems: `C65_order`. |
| C66 | proved | **Format and sign of everything that is written.** The invariant of C65 with the format of every output; signs from C36 and C60, one result per rank. The meshes are arbitrary lists; the code uses fixed ones. Theorems: `C66_written`. |
| C67 | partial | **Printed thermal averages are those at the temperature T.** The part before the spectra does not read T; witness computed on the model. False for the code: main calls printThermalExpValues without T, so 300 K is used (C67_at_T_refuted); C67_printed_T and C67_at_300K say what is printed. Theorems: `C67_printed_T`, `C67_at_300K`, `C67_at_T_refuted`. |
| C68 | proved | **Printed product states are those of largest weight.** argsort as oracle; one permutation for weights and states.  Theorems: `C68_weights`. |
| C69 | partial | **Arguments that pass the checks give a Hamiltonian basis.** C23 and C54 for the dictionaries built from the arguments; witnesses. False for the code: the lengths of dnTols, dnValBaths and dnConBaths are not checked, and the occupation may become negative (C69_checks_refuted).  C69_sound_args gives a sufficient condition. Theorems: `C69_sound_args`, `C69_checks_refuted`. |
| C70 | proved | **The whole program does not depend on the number of MPI ranks.** Results of the two runs are related part by part: equal on rank 0 and all-or-none over the ranks. getSpectra by the simulation of C37, getRIXSmap by the unique values and a rank-independent condition for completion, eigensystem by C55; the dipole operators have at most one process per pair of product states. Eigsh is assumed to depend on the matrix entries only; without the condition on the first outgoing operator the map does depend on the ranks (C63). Theorems: `C70_ranks`, `C70_ranks_pickle`, `C70_ranks_CF`. |
| C71 | proved | **A rank waits for ever only if another rank has raised.** No local function can return Deadlock (by going through all of them); every collective step turns a list of results in which waiting is explained into another one; induction over the loops. No well-formedness of the operators or states is needed: disagreement about the next collective would show up as an unexplained Deadlock. The explaining exception may be OutOfFuel; a single expansion of a basis never is out of fuel if 2^n < fuel (C27). External calls (eigh, eigsh, Hamiltonian file) are assumed not to wait themselves. Theorems: `C71_main`, `C71_pickle`, `C71_CF`, `C71_one_rank`, `C71_all_or_none`, `C71_getGreen`, `C71_getSpectra`, `C71_getRIXSmap`, `C71_eigensystem`, `C71_get_hamiltonian_matrix`. |
| C72 | proved | **A truncated Lanczos run keeps the first 2k moments of the spectrum.** T^p e_0 has no component beyond p, so H^p psi is the combination of the Lanczos vectors with the components of T^p e_0 for p < k (three-term recursion, induction); moments up to 2k-1 by splitting H^(p+q) over the scalar product, the middle one from the matrix elements. Carried to the Fock space by the map from basis vectors to amplitudes; normalisation undone by bilinearity.  Theorems: `C72_serial`, `C72_parallel`, `C72_sharp`, `C72_getGreen_serial`, `C72_getGreen_H_build`, `C72_eigen_states`, `C72_H_build_spectra`, `C72_getRIXSmap`. |
| C73 | proved | **Every written spectrum is the thermal mean of Green's functions of the program's own states.** C72 for the value of rank 0 in every call of getSpectra, C41 for the average, and the cached applyOp described by an existential matrix of kept elements; the transition operators are well-formed (C64), the Hamiltonian is Hermitian because total_hamiltonian asserts it. The outputs are followed through the stages of simulate_spectra and main.  Theorems: `C73_main`, `C73_pickle`, `C73_CF`, `C73_columns`. |
| C74 | proved | **RIXS.bin has thermal means of the Kramers-Heisenberg expression.** The row of the map is described for any slaterWeightMin (S_RIXS2): C72 for the last Green's function, the exact solver as a recorded assumption about the oracle, C41 for the average; the binary output is followed through simulate_spectra and main as in C73. Where psi3 has a small product state the second removal of small amplitudes leaves a start vector that is not a unit vector (C59), so the Green's function part has that hypothesis inside the row. Formula holds inside a row where psi3 has no product state of small relative weight (C59 refutes it otherwise); the linear solver is an oracle assumed exact; recorded in the row. Theorems: `C74_main`, `C74_pickle`, `C74_CF`, `C74_getRIXSmap`, `C74_file`. |
| C75 | proved | **The Hamiltonian has the rotational symmetries it should have.** Operators are taken as linear maps on functions of Fock states (S_Symmetry: opv, commute). The commutator of a one-particle generator with a product of two or four ladder operators is again a sum of such products (L_Symmetry, L_Symmetry2), so that only an identity of matrix elements remains. For the Coulomb interaction the spin part cancels identically, the orbital part follows from the tensor law of c^k term by term (L_Symmetry5); for L.S from the commutators of L and of S. The tensor law is a hypothesis on the Gaunt coefficients (external), met by the true 2p coefficients in an Example. For L and J the Gaunt coefficients are assumed to obey the tensor law for the multipoles in use; the spin statement has no such hypothesis. Theorems: `C75_coulomb_spin`, `C75_coulomb_L`, `C75_SOC`, `C75_field`, `C75_hamiltonian_spin`, `C75_hamiltonian_L`, `C75_hamiltonian_J`, `C75_one_particle`, `C75_multiplets`. |
| C76 | proved | **The printed quantities, the meshes and the accepted command lines are the documented ones.** printExpValues, print_density, rank0_prints, main, linspace, main_meshes, sanity_checks and sanity_checks_CF are modelled in M_Program.  C76_rows: the printed rows are the values of the operators of S_Print (observables).  C76_density: the printed elements are those of S_Output.density_elements, also for a negative tolerance.  C76_main: the first eight outputs of every run whose eigensystem succeeds on all ranks.  C76_meshes / C76_linspace: number of points, end points, equal distances, directions and lengths of the momentum transfers.  C76_checks / C76_checks_CF: an exact description of the accepted arguments; C76_rejected: the exception. Rows, density matrix elements and averages are tied to S_Expect/S_Print operators on Fock space; sqrt, exp and argsort are oracles with laws; eigensystem is the one of the run; formats and rounding of the printed numbers are not modelled. Theorems: `C76_rows`, `C76_density`, `C76_main`, `C76_meshes`, `C76_linspace`, `C76_checks`, `C76_checks_CF`, `C76_rejected`. |
| C77 | proved | **The figures of the plot scripts show the numbers of the files of the run.** M_Plot models both scripts; the result is the data of the figures that are shown and the exception, titles and colours are left out.  S_Plot says in terms of the written files what each figure has to show.  L_Plot lists all outputs of a complete run; L_Plot2 evaluates the figures on them (np.argmin by an invariant, the sums over several axes by exchanging sums), L_Plot3 combines them for main and for the two programs. For runs with positive widths; plotRIXS.py additionally needs int(float32(n)) = n for the number n of incoming energies. Theorems: `C77_plotSpectra`, `C77_pickle`, `C77_CF`, `C77_plotRIXS`, `C77_nearest`. |
| C78 | partial | **plotSpectra.py can plot the file of any complete run.** False: with 1 incoming and 2 outgoing polarisations plt.subplots returns a one-dimensional array and np.shape(axes)[1] raises IndexError before plt.show(), so that even the summed map is not seen.  C78_IndexError: this happens for all numbers of polarisations other than 1 x 1 and >=3 x >=2; C77_plotSpectra covers those. Refuted for one incoming and two outgoing polarisations; C78_IndexError gives all numbers of polarisations that fail, C77_plotSpectra the others. Theorems: `C78_any_refuted`, `C78_IndexError`. |
| C79 | proved | **The Hamiltonian is time-reversal symmetric up to the field, and its levels with an odd number of electrons are Kramers pairs.** Spec S_TimeReversal: the antilinear map defined on products of creators; not defined with any function of the model other than the order of the spin-orbitals.  The map intertwines creators and annihilators up to a sign (L_TimeReversal); each term of the operators is taken to the term with reversed labels, whose coefficient in the dictionary is shown to be the conjugate one up to the product of phases (L_TimeReversal2, for the crystal field L_TimeReversal3, where the cubic harmonics are real).  Kramers: <v|Tv> = conj <Tv|TTv> = -<v|Tv>.  The symmetry gaunt(-m) = gaunt(m) of the library sympy and the square root are hypotheses. Assumes of the Gaunt coefficients only that they do not change when all m change sign, of sqrt that it is a square root. Bath of the crystal-field program: 10 or 20 states; other shells with a multiple of ten. Theorems: `C79_antiunitary`, `C79_SOC`, `C79_field`, `C79_coulomb`, `C79_hamiltonian`, `C79_CF`, `C79_kramers`, `C79_CF_kramers`. |
| C80 | proved | **The numbers on the command line reach the calculation unchanged.** argparse as far as the programs use it (`M_CommandLine`): option strings and their abbreviations, negative numbers, `--option=value`, nargs `+` and one, defaults, the last one wins. `int` and `float` of strings are arbitrary functions, the contents of the files are given. All ways in which argparse ends the program are one result, and `--` alone is treated as one of them. Accepted command lines and their arguments, rejected command lines, calls of main in both programs, parameters of the Hamiltonian. argparse is modelled as far as these programs use it. Theorems: `C80_parse`, `C80_not_a_number`, `C80_files`, `C80_unknown`, `C80_help`, `C80_get_spectra`, `C80_get_spectra_CF`, `C80_hamiltonian`. |
| C81 | proved | **The Coulomb interaction without spin and the printed Gaunt table agree with the interaction used.** `getNoSpinUop` and the lines of `printGaunt` (`M_Gaunt`); the coefficients are compared with those of `getUop` and with a table of `c^k` (`S_Gaunt`). The text format of a line is not modelled. Coefficients and spin structure relative to getUop, exchange of the electrons, the printed table, other ranks. Theorems: `C81_elements`, `C81_spin`, `C81_exchange`, `C81_table`, `C81_other_ranks`. |
| C82 | proved | **Time-reversed states have the same spectra, and there is no circular dichroism without a field.** The response `<Sv|(z-H)^-1|Sv>` is defined by a linear equation on the whole Fock space (`S_Dichroism`), not by the truncated basis and the Lanczos recursion of the program, which C36 relates to it. Time reversal as in C79; dipole and NIXS operators through their matrix elements (C49, C50), removal and addition directly. Exact statements on the full Fock space; the crystal-field Hamiltonians need no hypothesis about h0. Existence of the response needs only a solution when z is not real (C82_defined). Theorems: `C82_defined`, `C82_response`, `C82_dipole`, `C82_one_electron`, `C82_NIXS`, `C82_hamiltonian`, `C82_CF`, `C82_no_dichroism`. |
| C83 | proved | **The spectrum summed over three perpendicular polarisations does not depend on the axes.** Matrix elements of C49 for the linearity; a 3 x 3 matrix with orthonormal rows has orthonormal columns (determinant and adjugate); the sum is the trace of the tensor of solutions for the axes, which exist because those for one triad do. getSpectra through C36. Exact response; getSpectra in modes eigen_states (all ranks) and H_build (rank 0) for krylovSize at least the dimension of the Fock space and slaterWeightMin <= 0. The program uses krylovSize 150 and a positive cut-off, for which only C72 and C73 hold. Theorems: `C83_response`, `C83_eigen_states`, `C83_H_build`. |
| C84 | proved | **Every spectrum probes one electron number and one number of core holes.** The charge of opelem (C51) gives invariance of Reach and of powers by induction; for the Green's function the projection of the solution on the sector is a solution, so it is the solution. Shift of every process of each operator by its definition; count of 2p electrons through the index map (C22); eigenstates through the admitted configurations of C24. transition_ops is a small specification of the six kinds of operators. Transition_ops (S_Sector) names the six operator constructors of the program; the final states are all powers of the restricted Hamiltonian and the solution of (z - h) x = T psi, with the cut-offs of the program. The unpickled h0 must conserve both numbers. Theorems: `C84_count`, `C84_closure`, `C84_powers`, `C84_only_sector`, `C84_hamiltonian`, `C84_CF`, `C84_transitions`, `C84_run_CF`, `C84_run_pickle`. |
| C85 | proved | **The file data.npz determines the spectra of the run.** data_npz follows main up to the print-outs and collects the variables; equal records give equal setups (get_basis is a function of the saved dictionaries), hence equal eigensystems and equal arguments of simulate_spectra; the names of the datasets separate the NIXS part. The operator fits by the well-formedness of total_hamiltonian. All runs. The meshes are compared as given: w, wIn, wLoss and qsNIXS are in spectra.h5, not in data.npz. Theorems: `C85_same_files`, `C85_other_radial`, `C85_written`, `C85_operator`. |
| C86 | partial | **A new run with the arguments saved in data.npz gives the same spectra.** recover: ordered followed by map snd is the identity for distinct shells, and the factor k_B*T cancels. Refuted by a run at 100 K that keeps two states (XAS has shape 2 x 1 x 2) and whose repetition keeps one. C86_rerun_refuted: the energy cut is saved in eV but read in units of k_B*T. C86_rerun_partial: after division by k_B*T the arguments are those of the first run; missing for the full statement is only that division. Theorems: `C86_rerun_partial`, `C86_rerun_refuted`. |
| C87 | proved | **The dipole operators obey the sum rules of x-ray absorption.** A full shell annihilates c_y^+, so <c_x^+ c_y v|c_x'^+ c_y' v> = delta_yy' (delta_xx' <v|v> - <v|c_x'^+ c_x|v>). The squares of the nine coefficients follow from the commutators with L+ (tensor_law), x and y are recombined into C_1 and C_-1; norms and expectation values through C12 and C42. The coefficients of the examples are the true ones, A^2 = 2/5. Integrated spectrum = squared norm of the final state (times -pi); cut-off swm <= 0. Assumes the commutators of C^1 with L+- for the Gaunt coefficients (met by the true ones in the example). Theorems: `C87_holes`, `C87_dichroism`, `C87_linear`, `C87_states_holes`, `C87_states_dichroism`, `C87_sector`. |
| C88 | partial | **The averaged spectra do not depend on the choice of the eigenstates of a degenerate level.** The matrix between the two sets is unitary and mixes equal energies only (from orthonormality and the two spans); solutions of (z - h) x = y combine linearly, so the weighted sum of the quadratic forms is a trace. Written columns through C36, C60, C73 and C74. Refutation computed for two sites, one of the two states kept. Proved for complete levels (full Krylov space, no cut-off); false for levels that nPsiMax cuts (C88_incomplete_refuted). Theorems: `C88_whole`, `C88_operator`, `C88_response`, `C88_kramers_heisenberg`, `C88_absorption`, `C88_emission`, `C88_photoemission`, `C88_RIXS`, `C88_incomplete_refuted`. |
| C89 | proved | **Without symmetry-breaking terms x-ray absorption does not depend on the polarisation.** The three components C^1_q obey [J, C_q] = k C_q' on Fock space (from the tensor law of C^1). The matrix T_qq' of weighted sums of <C_q psi| (z - h)^-1 |C_q' psi> is invariant (a trace over closed levels of an operator that commutes), so it commutes with the spin-1 matrices and is a multiple of the unit matrix; a polarisation e gives e.e times this multiple. Written columns through C60. Refutation with the sum rule of C87. L and J rotations of both shells; full Krylov space and no cut-off for the written columns; C89_incomplete_refuted shows that complete multiplets are needed. Theorems: `C89_restrictions`, `C89_restricted`, `C89_whole`, `C89_linear`, `C89_circular`, `C89_hamiltonian`, `C89_absorption`, `C89_incomplete_refuted`. |
| C90 | proved | **Levels that are shifted together shift the spectra rigidly.** The sum of number operators is diagonal with element c*charge (occupation of a configuration as a sum over its orbitals). On a sector H' = H + c q, so (z + c q - H')^-1 = (z - H)^-1 there; the solution for a vector of a sector stays in the sector (projection and uniqueness), with restrictions because the restricted operators differ by the same diagonal on allowed configurations (no element of either operator is below the cut-off 1e-12: the hypothesis no_small). C36 and C60 identify the values of getSpectra and getRIXSmap with these resolvents, the Boltzmann weights are invariant under a common shift. Full Krylov space and no cut-off on amplitudes (swm <= 0), as in C88 and C89; columns for states with one common charge, getSpectra and getRIXSmap for a charge of each state. Theorems: `C90_levels`, `C90_hamiltonian`, `C90_eigen`, `C90_spectra`, `C90_absorption`, `C90_emission`, `C90_photoemission`, `C90_RIXS`, `C90_program`, `C90_XAS_core`, `C90_XAS_all`. |
| C91 | proved | **The spectra do not depend on the choice of the bath orbitals.** The map of the states is defined independently of the model: product states of the turned creators on the vacuum. It is isometric and intertwines the creators (anticommutation relations, induction over the orbitals), hence their adjoints and all products; one-particle operators by bilinearity. Restrictions: a product state of turned orbitals of unmixed sets has the same occupation of each set. Resolvents are turned with the operators and uniqueness of the solutions gives equal responses; C36 and C60 identify them with getSpectra and getRIXSmap, C88 removes the choice of the states within the levels. For the crystal field the one-particle matrices of the two bath bases are compared entry by entry (cf_spec of C51: rotm u u against rotm u 1), the restrictions by their explicit orbital ranges, the transition operators by their keys. The hypotheses exclude elements below the cut-off 1e-12 (no_small), since a dropped element in one basis need not be dropped in the other; both runs are assumed to end (an exactly invariant Krylov space raises ValueError, C37).  Theorems: `C91_inner`, `C91_kept`, `C91_hops`, `C91_eigen`, `C91_levels`, `C91_h0`, `C91_hamiltonian`, `C91_bath_basis`, `C91_transitions`, `C91_absorption`, `C91_emission`, `C91_photoemission`, `C91_RIXS`. |
| C92 | proved | **Energies in another unit give the same spectra.** Every builder of operators is linear in its energies: proved by pushing the map of the values through the model (folds, dict updates, the comparison with zero that is invariant because x is not zero, the Hermiticity assertions), also for the error branches. The resolvent of x H at x z is 1/x times the one of H at z, restricted or not (no element of either operator is below the cut-off 1e-12, which is not scaled: hypothesis no_small); C36 and C60 identify the values of getSpectra and getRIXSmap with these resolvents. Boltzmann weights depend on E/(k_B T) only. The missing entries of the json file are defaults in eV: C92_incomplete_file_refuted. The statement is restricted to complete crystal-field files; C92_incomplete_file_refuted shows that this restriction is needed (the defaults are numbers of electron volts). Theorems: `C92_hamiltonian`, `C92_crystal_field`, `C92_hamiltonian_CF`, `C92_incomplete_file_refuted`, `C92_same`, `C92_eigen`, `C92_selection`, `C92_average`, `C92_printed`, `C92_spectra`, `C92_absorption`, `C92_emission`, `C92_photoemission`, `C92_RIXS`. |
| C93 | proved | **Without interaction PS.dat is the one-particle spectral function.** Equation of motion: the commutators of the Hamiltonian with ladder operators, derived from the anticommutation relations of the model's ladder operators (C08), give (z + E - H) sum_j G_ji c_j^+ psi = c_i^+ psi and the corresponding equation for c_i psi; the solutions are unique because the elements are Hermitian and z is not real. The density matrix of an eigenstate commutes with h, so the two scalar products add up to G_ii by the anticommutator. C36 identifies the values of getSpectra with these resolvents, restricted or not (room_for_one: the restrictions allow all configurations that differ from those of the states by one electron). That the inverse matrix exists is proved with Gaussian elimination. Boltzmann means of a constant are the constant. For XPS.dat the 2p orbitals are occupied, so that c_i^+ psi = 0 and the photoemission alone is the diagonal element. The crystal-field variant is covered because its h0 has only hoppings (C51). H0 must consist of hoppings (only_hops), as h0 of the program does; XPS.dat for a full 2p shell. Theorems: `C93_hamiltonian`, `C93_matrix`, `C93_green_exists`, `C93_greens_functions`, `C93_photoemission`, `C93_independent`, `C93_program`, `C93_core_level`, `C93_core_program`, `C93_crystal_field`. |
| C94 | partial | **An orbital index outside the system is rejected.** False as stated: C94_rejected_refuted (integer) and C94_agree_refuted (the same call on two representations of the same state, one result is a product state and the other is not). Exact behaviour of each representation: C94_too_high_partial (the exception raised, all but tuples), C94_too_low, C94_wraps, C94_string_last, C94_int_negative, C94_tuple. By the definitions of Python's index and slice rules in M_Prelude. Refuted for negative indices and for tuples; proved for too high an index in the other four representations; the behaviour is given exactly in all other cases. Theorems: `C94_too_high_partial`, `C94_too_low`, `C94_wraps`, `C94_string_last`, `C94_int_negative`, `C94_tuple`, `C94_rejected_refuted`, `C94_agree_refuted`. |
| C95 | proved | **Without interaction XPS.dat has the lines 2p3/2 and 2p1/2.** C93 gives XPS.dat as the diagonal of (w + i delta - h)^-1. The 2p block of h is e + c + xi l.s (the double counting of the 2p level is c without Slater integrals), not coupled to the rest; (l.s)^2 = 1/2 - l.s/2 on the six orbitals by the table of l.s (factors sqrt 2), so (w - xi l.s)^-1 = (w + xi/2 + xi l.s)/((w - xi/2)(w + xi)), whose diagonal elements are split into partial fractions. The crystal-field variant has no 2p orbital in h0 (C51). Stated for slaterWeightMin <= 0 and a full Krylov space, like C93. Theorems: `C95_program`, `C95_green`, `C95_crystal_field`, `C95_determined`. |
| C96 | proved | **Closed and empty shells: files of zeros, no exception.** A blocked operator gives the empty dictionary in applyOp (also with the cache of images), so getGreen takes its first branch and the column is zero; thermal averages of zeros are zeros. Dipole operators create in 3d and remove from 2p, NIXS operators create in and remove from 3d, so a full or empty shell blocks them. For PS one of the two columns is zero and the combined file is the other one, error by error. RIXS is left out: there scipy builds a matrix from empty lists. Total results: no assumption on Lanczos, cut-off or Hamiltonian. Theorems: `C96_no_final_state`, `C96_XAS`, `C96_NIXS`, `C96_PS_closed`, `C96_PS_empty`, `C96_XPS`, `C96_IPS`. |
| C97 | partial | **A mode that does not exist is rejected.** The modes of the model include one for all names that do not exist. By cases on the mode for all arguments; the map of zeros is compared with a computed map of two ranks, which is the same other one in all four modes that exist. The Hamiltonian matrices are C22_other_mode and C29_wrong_refused. Refuted for getRIXSmap (zeros without an exception) and for getGreen with an empty state; proved for the other functions. Theorems: `C97_expand_basis_partial`, `C97_expand_hamiltonian_partial`, `C97_getGreen_partial`, `C97_getSpectra_partial`, `C97_getRIXSmap_zeros_partial`, `C97_getRIXSmap_refuted`, `C97_getGreen_refuted`. |
| C98 | proved | **Six spectra determine x-ray absorption for every linear polarisation.** The dipole operator is linear in the polarisation (C49, C83) and getSpectra returns <y|(z - h)^-1|y> for the excited state y (C36). The solutions for x, y, z give the solution for every combination, which is unique, and the scalar product is expanded. The thermal mean is linear (C73). For RIXS the Kramers-Heisenberg expression (C60) is taken apart: the intermediate state is the unique solution of a linear equation and so linear in the polarisation. The cut-off is taken as not positive as in C83. Full Krylov space and no cut-off, as in C83. Theorems: `C98_response`, `C98_H_build`, `C98_XAS`, `C98_RIXS`. |
| C99 | proved | **A value in a file depends on its own operator and its own mesh point only.** getSpectra returns <y|(z - h)^-1|y> for the excited state y of each operator (C36), with z from the mesh point and the energy of the state; this value is unique, whatever was in the shared dictionary. The columns are thermal means of these values (C73). Lists of operators and meshes of any length on both sides; the cut-off is taken as not positive as in C83. Full Krylov space and cut-off not positive, as in C83; the program uses 1e-12. Not so for RIXS (C39). Theorems: `C99_absorption`, `C99_emission`, `C99_photoemission`. |

## Assumptions per theorem

`Print Assumptions` prints "Closed under the global context" for every theorem of the `P_*.v` files except those of this table.

| theorem | file | uses |
|---|---|---|
| `C50_angles_partial` | `P_Operators.v` | `ClassicalDedekindReals.sig_not_dec`, `ClassicalDedekindReals.sig_forall_dec`, `FunctionalExtensionality.functional_extensionality_dep`, `Classical_Prop.classic` |
| `C50_angles_refuted` | `P_Operators.v` | `ClassicalDedekindReals.sig_not_dec`, `ClassicalDedekindReals.sig_forall_dec`, `FunctionalExtensionality.functional_extensionality_dep`, `Classical_Prop.classic` |
| `C89_incomplete_refuted` | `P_Rotation.v` | `ClassicalDedekindReals.sig_not_dec`, `ClassicalDedekindReals.sig_forall_dec`, `FunctionalExtensionality.functional_extensionality_dep` |

Closed under the global context:

* `P_Average.v`: `C41_no_overflow`, `C41_average`, `C41_weights`, `C41_shift`, `C41_permutation`, `C41_constant`, `C41_bounds`, `C41_errors`
* `P_Basis.v`: `C25_c2i`, `C25_i2c_after_c2i`, `C25_bijection`, `C26_c2i_rejects`, `C26_i2c_rejects_large_partial`, `C26_negative_index_accepted`, `C26_i2c_rejects_refuted`, `C23_basis`, `C23_basis_size`, `C23_accepted_parameters`, `C24_electrons_partial`, `C24_electrons_refuted`
* `P_Closed.v`: `C96_no_final_state`, `C96_XAS`, `C96_NIXS`, `C96_PS_closed`, `C96_PS_empty`, `C96_XPS`, `C96_IPS`
* `P_Column.v`: `C99_absorption`, `C99_emission`, `C99_photoemission`
* `P_Comm.v`: `C32_chunks`, `C32_zero`, `C32_negative`, `C31_zero_partial`, `C31_negative_partial`, `C31_allgather_partial`, `C31_allgather_shared_keys_partial`, `C31_allgather_pinned_numpy_refuted`
* `P_CommandLine.v`: `C80_parse`, `C80_not_a_number`, `C80_files`, `C80_unknown`, `C80_help`, `C80_get_spectra`, `C80_get_spectra_CF`, `C80_hamiltonian`
* `P_Dichroism.v`: `C82_defined`, `C82_response`, `C82_dipole`, `C82_one_electron`, `C82_NIXS`, `C82_hamiltonian`, `C82_CF`, `C82_no_dichroism`
* `P_Dict.v`: `C35_dict`, `C35_dict_closed_set`, `C36_dict`, `C37_dict_value_iff_partial`, `C38_dict`
* `P_Expect.v`: `C42_Lz`, `C42_Sz`, `C42_trace`, `C42_tuple_key`, `C42_no_shell`, `C42_no_shell_zero`, `C43_Lplus`, `C43_Lminus`, `C43_Splus`, `C43_Sminus`, `C43_adjoint_L`, `C43_adjoint_S`, `C43_Lsqr`, `C43_Ssqr`, `C61_commutators`, `C61_L_S_commute`, `C44_entries`, `C44_hermitian`, `C44_positive`, `C44_trace`, `C45_unitary`, `C45_real_p`, `C45_real_d`, `C45_other_l`, `C46_occupations`, `C46_cubic_entries`, `C46_cubic_hermitian`, `C46_cubic_trace`
* `P_Fock.v`: `C08_annihilators_anticommute`, `C08_creators_anticommute`, `C08_mixed_anticommutator`, `C08_vacuum`, `C08_normal_order`, `C09_create_adjoint`, `C09_annihilate_adjoint`, `C10_inner_is_sum`, `C10_linear`, `C10_antilinear`, `C10_conjugate_symmetric`, `C10_nonnegative`, `C10_definite`, `C10_norm2`, `C10_zero_keys`, `C11_add_amplitude`, `C11_keys`, `C11_add_same_as_addToFirst`, `C12_matrix_elements`, `C12_linear_in_state`, `C13_restrictions`, `C14_cutoff`, `C15_cache_coherence`, `C15_same_result`, `C15_empty_cache_coherent`, `C16_cached_equals_uncached_refuted`, `C16_first_call_partial`, `C17_unknown_label_rejected_refuted`, `C17_first_label_partial`, `C18_involution`, `C18_defined`, `C18_unknown_label_raises`, `C18_adjoint`, `C19_value`, `C19_unique_keys`, `C19_apply`, `C19_hermitian`, `C19_assert_hermitian_meaning`, `C21_job_tasks`, `C58_sum_rule`
* `P_Free.v`: `C93_hamiltonian`, `C93_matrix`, `C93_green_exists`, `C93_greens_functions`, `C93_photoemission`, `C93_independent`, `C93_program`, `C93_core_level`, `C93_core_program`, `C93_crystal_field`
* `P_Gaunt.v`: `C81_elements`, `C81_spin`, `C81_exchange`, `C81_table`, `C81_other_ranks`
* `P_Green.v`: `C33_resolvent`, `C33_denominators`, `C34_getGreen`, `C35_serial`, `C35_parallel`, `C36_serial`, `C36_H_build`, `C36_restricted_operator`, `C37_value_iff_partial`, `C37_always_a_value_refuted`, `C38_serial`, `C38_H_build_rank0_partial`, `C38_other_ranks_ignore_H`, `C38_same_on_all_ranks_refuted`
* `P_Ham.v`: `C20_matrix_elements`, `C20_hermitian_matrix`, `C20_needs_distinct_states`, `C22_modes_agree`, `C22_other_mode`, `C27_smallest_closed_basis`, `C28_parallel_equals_serial`, `C29_serial_matrix`, `C29_local_matrices`, `C29_basis_index`, `C29_after_serial_expansion`, `C29_after_parallel_expansion`, `C29_local_serial_refused`, `C29_wrong_refused`, `C30_restricted_matrix_hermitian`, `C30_restricted_matrix_hermitian_parallel`, `C30_needs_allowed_start_states`
* `P_Isotropic.v`: `C83_response`, `C83_eigen_states`, `C83_H_build`
* `P_Levels.v`: `C88_whole`, `C88_operator`, `C88_response`, `C88_kramers_heisenberg`, `C88_absorption`, `C88_emission`, `C88_photoemission`, `C88_RIXS`, `C88_incomplete_refuted`
* `P_Lines.v`: `C95_program`, `C95_green`, `C95_crystal_field`, `C95_determined`
* `P_Main.v`: `C55_full`, `C55_Lanczos`, `C55_weight`, `C55_no_cutoff`, `C55_other_mode`, `C55_empty_basis`, `C53_pairing`, `C53_needs_order`, `C54_meaning`, `C54_defined`, `C54_basis_allowed_partial`, `C54_basis_allowed_refuted`, `C57_round_trip`, `C57_read_errors`, `C57_read`, `C62_thermal`, `C62_sum`, `C62_bounds`
* `P_Modes.v`: `C97_expand_basis_partial`, `C97_expand_hamiltonian_partial`, `C97_getGreen_partial`, `C97_getSpectra_partial`, `C97_getRIXSmap_zeros_partial`, `C97_getRIXSmap_refuted`, `C97_getGreen_refuted`
* `P_Moments.v`: `C72_serial`, `C72_parallel`, `C72_sharp`, `C72_getGreen_serial`, `C72_getGreen_H_build`, `C72_eigen_states`, `C72_H_build_spectra`, `C72_getRIXSmap`
* `P_Npz.v`: `C85_same_files`, `C85_other_radial`, `C85_written`, `C85_operator`, `C86_rerun_partial`, `C86_rerun_refuted`
* `P_Operators.v`: `C47_SOC_hermitian`, `C47_SOC_conserves`, `C47_SOC_is_LS`, `C47_field_hermitian`, `C47_field_conserves`, `C47_field_is_hS`, `C48_elements`, `C48_conserves`, `C48_no_double`, `C48_adjoint`, `C48_2p3d_sum`, `C48_2p3d_hermitian`, `C48_2p3d_conserves`, `C48_sector`, `C49_dipole`, `C49_selection`, `C49_linear`, `C49_all`, `C49_daggered`, `C49_well_formed`, `C49_short_polarisation`, `C49_not_two_shells`, `C50_matrix_elements`, `C50_program_operators`, `C50_mirror`, `C51_CF_hamiltonian`, `C51_in_system`, `C51_other_basis`, `C51_no_3d`, `C52_total`, `C52_total_CF`, `C52_conserves_N`, `C52_nonhermitian_rejected`, `C52_outside_rejected`, `C52_2p_not_full`, `C56_not_integer`, `C56_2p_incomplete`, `C56_3d`, `C56_2p3d`, `C58_operators`, `C58_no_shell`
* `P_Outside.v`: `C94_too_high_partial`, `C94_too_low`, `C94_wraps`, `C94_string_last`, `C94_int_negative`, `C94_tuple`, `C94_rejected_refuted`, `C94_agree_refuted`
* `P_Plot.v`: `C77_plotSpectra`, `C77_pickle`, `C77_CF`, `C77_plotRIXS`, `C77_nearest`, `C78_any_refuted`, `C78_IndexError`
* `P_Print.v`: `C76_rows`, `C76_density`, `C76_main`, `C76_meshes`, `C76_linspace`, `C76_checks`, `C76_checks_CF`, `C76_rejected`
* `P_Program.v`: `C65_order`, `C66_written`, `C67_printed_T`, `C67_at_300K`, `C67_at_T_refuted`, `C68_weights`, `C69_sound_args`, `C69_checks_refuted`
* `P_Program2.v`: `C70_ranks`, `C70_ranks_pickle`, `C70_ranks_CF`
* `P_Program3.v`: `C71_main`, `C71_pickle`, `C71_CF`, `C71_one_rank`, `C71_all_or_none`, `C71_getGreen`, `C71_getSpectra`, `C71_getRIXSmap`, `C71_eigensystem`, `C71_get_hamiltonian_matrix`, `C51_parameters`
* `P_Program4.v`: `C73_main`, `C73_pickle`, `C73_CF`, `C73_columns`
* `P_Program5.v`: `C74_main`, `C74_pickle`, `C74_CF`, `C74_getRIXSmap`, `C74_file`
* `P_RIXS.v`: `C34_getRIXSmap`, `C60_kramers_heisenberg`, `C60_unique`, `C39_only_first_operator_used`, `C39_requested_operator_partial`, `C39_requested_operator_refuted`, `C40_same_on_all_ranks`, `C40_each_block_once`, `C40_independent_of_ranks`, `C38_rixs_same_on_all_ranks_refuted`, `C59_norm_bounds_partial`, `C59_normalised_refuted`
* `P_RIXS2.v`: `C63_rank_count_partial`, `C63_rank_count_refuted`, `C64_insertion_order`
* `P_Rotation.v`: `C89_restrictions`, `C89_restricted`, `C89_whole`, `C89_linear`, `C89_circular`, `C89_hamiltonian`, `C89_absorption`
* `P_Sector.v`: `C84_count`, `C84_closure`, `C84_powers`, `C84_only_sector`, `C84_hamiltonian`, `C84_CF`, `C84_transitions`, `C84_run_CF`, `C84_run_pickle`
* `P_Shift.v`: `C90_levels`, `C90_hamiltonian`, `C90_eigen`, `C90_spectra`, `C90_absorption`, `C90_emission`, `C90_photoemission`, `C90_RIXS`, `C90_program`, `C90_XAS_core`, `C90_XAS_all`
* `P_Spectra.v`: `C34_getSpectra`, `C34_absorption`, `C34_emission`, `C34_photoemission`, `C36_eigen_states`, `C36_H_build_spectra`, `C38_eigen_states`, `C38_spectra_rank0_partial`, `C38_spectra_other_ranks`, `C38_spectra_same_on_all_ranks_refuted`
* `P_States.v`: `C01_round_trip`, `C01_representable`, `C02_routes_commute`, `C03_bytes_canonical`, `C03_bytes_injective`, `C03_bytes_order`, `C03_bytes_produced`, `C04_tuple_out_of_range_dropped`, `C04_empty_system_int_raises`, `C04_int_str_any_width`, `C04_int_too_big`, `C04_int_negative`, `C04_int_negative_bits`, `C04_string_rejected`, `C05_create_correct`, `C05_create_agree`, `C06_remove_correct`, `C06_remove_agree`, `C07_remove_after_create`, `C07_create_after_remove`, `C07_out_of_range`
* `P_SumRule.v`: `C87_holes`, `C87_dichroism`, `C87_linear`, `C87_states_holes`, `C87_states_dichroism`, `C87_sector`
* `P_Symmetry.v`: `C75_coulomb_spin`, `C75_coulomb_L`, `C75_SOC`, `C75_field`, `C75_hamiltonian_spin`, `C75_hamiltonian_L`, `C75_hamiltonian_J`, `C75_one_particle`, `C75_multiplets`
* `P_Tensor.v`: `C98_response`, `C98_H_build`, `C98_XAS`, `C98_RIXS`
* `P_TimeReversal.v`: `C79_antiunitary`, `C79_SOC`, `C79_field`, `C79_coulomb`, `C79_hamiltonian`, `C79_CF`, `C79_kramers`, `C79_CF_kramers`
* `P_Unitary.v`: `C91_inner`, `C91_kept`, `C91_hops`, `C91_eigen`, `C91_levels`, `C91_h0`, `C91_hamiltonian`, `C91_bath_basis`, `C91_transitions`, `C91_absorption`, `C91_emission`, `C91_photoemission`, `C91_RIXS`
* `P_Units.v`: `C92_hamiltonian`, `C92_crystal_field`, `C92_hamiltonian_CF`, `C92_incomplete_file_refuted`, `C92_same`, `C92_eigen`, `C92_selection`, `C92_average`, `C92_printed`, `C92_spectra`, `C92_absorption`, `C92_emission`, `C92_photoemission`, `C92_RIXS`

## Files

| file | content |
|---|---|
| `M_Average.v` | Model of impurityModel/ed/average.py |
| `M_Basis.v` | Model of the spin-orbital indexing and of get_basis (impurityModel/ed/finite.py) |
| `M_Comm.v` | Model of impurityModel/ed/mpi_comm.py |
| `M_CommandLine.v` | The command line of the two programs |
| `M_Expect.v` | Model of the expectation values of impurityModel/ed/finite.py |
| `M_Gaunt.v` | Model of printGaunt of impurityModel/ed/finite.py |
| `M_Hamiltonian.v` | Model of the Hamiltonian-matrix and basis-expansion functions of impurityModel/ed/finite.py |
| `M_Ladder.v` | Model of impurityModel/ed/create.py and impurityModel/ed/remove.py |
| `M_Lanczos.v` | Model of the Lanczos recursion and of the Green's function |
| `M_Main.v` | Model of the remaining steps of main (impurityModel/ed/get_spectra.py) |
| `M_Mpi.v` | MPI collectives |
| `M_Npz.v` | Model of the file data.npz |
| `M_Operators.v` | Model of the operators of impurityModel/ed/finite.py |
| `M_PSR.v` | Model of impurityModel/ed/product_state_representation.py |
| `M_Plot.v` | Model of the plot scripts |
| `M_Prelude.v` | Conventions shared by all model files |
| `M_Program.v` | Model of the whole program |
| `M_RIXS.v` | Model of getRIXSmap (impurityModel/ed/spectra.py:809-1130) |
| `M_Scalar.v` | Scalars of the model |
| `M_Simulate.v` | Model of simulate_spectra (impurityModel/ed/spectra.py:36-299) |
| `M_Spectra.v` | Model of getSpectra (impurityModel/ed/spectra.py:684-806) |
| `M_State.v` | Model of the state algebra and of operator application in impurityModel/ed/finite.py |
| `S_Basis.v` | Specification of spin-orbital indices and of the restricted basis |
| `S_CF.v` | Specification of the file with the crystal-field parameters |
| `S_Closed.v` | Specification of spectra whose operators have no final states |
| `S_CommandLine.v` | Specification of the command line |
| `S_Dichroism.v` | Specification of the response of a state to a transition, and of the transitions with circular polarisation |
| `S_Dict.v` | Specification for getGreen in mode dict, where nothing is cut off |
| `S_Expect.v` | Specification of angular momenta and density matrices of a shell |
| `S_Fock.v` | Specification of fermionic Fock space on n orbitals, independent of the model |
| `S_Free.v` | Specification of electrons without interaction |
| `S_Gaunt.v` | Specification of the spinless Coulomb operator and of the printed table of Gaunt coefficients |
| `S_Green.v` | Specification of resolvents and tridiagonal matrices |
| `S_Ham.v` | Specification of Hamiltonian matrices and of the reachable many-body basis |
| `S_Isotropic.v` | Specification of the spectrum summed over three perpendicular polarisations |
| `S_Ladder.v` | Specification of creating / removing an electron, independent of the representation |
| `S_Levels.v` | Specification of two choices of the states of the same levels |
| `S_Lines.v` | Specification of the photoemission of a core level with spin-orbit coupling |
| `S_Main.v` | Specification for the steps of main |
| `S_Moments.v` | Specification of moments |
| `S_NIXS.v` | Specification of the radial integrals of the scattering operator |
| `S_Npz.v` | Specification |
| `S_Occ.v` | What it means for a Python value to represent an occupation of n spin-orbitals |
| `S_Operators.v` | Specification of the operators |
| `S_Ops.v` | Specification of operators as dictionaries |
| `S_Output.v` | Specification of the quantities printed by the program and of the meshes it uses |
| `S_Plot.v` | Specification of what the plot scripts show, in terms of the files that the program has written |
| `S_Print.v` | Specification of the thermal expectation values printed for the eigenstates |
| `S_Program.v` | Specification of the output of the program |
| `S_RIXS.v` | Specification of resonant inelastic scattering |
| `S_RIXS2.v` | Specification of one row of the map of resonant inelastic scattering when small amplitudes are left out |
| `S_Rotation.v` | Specification of rotations |
| `S_Routes.v` | The five representations under one type, so that "any route through the converters" can be stated |
| `S_Sector.v` | Specification of sectors |
| `S_Shift.v` | Specification of shifted levels |
| `S_Spectra.v` | Hypotheses on the arguments of getSpectra |
| `S_Spectrum.v` | Specification of a written spectrum |
| `S_Spectrum2.v` | Specification of the text files written by the program |
| `S_Spectrum3.v` | Specification of RIXS.bin |
| `S_SumRule.v` | Specification of the sum rules of x-ray absorption |
| `S_Symmetry.v` | Specification of continuous symmetries |
| `S_Tensor.v` | Specification of absorption as a quadratic form of the polarisation |
| `S_Thermal.v` | Specification of the thermal (Boltzmann) average |
| `S_TimeReversal.v` | Specification of time reversal |
| `S_Unitary.v` | Specification of unitary changes of the orbitals |
| `S_Unitary2.v` | Specification of the change of the bath orbitals in the crystal-field program |
| `S_Units.v` | Specification of another unit of energy |
| `L_Angles.v` | The angles of getNIXSOperator over the real numbers |
| `L_ApplyOp.v` | applyOp |
| `L_Average.v` | thermal_average |
| `L_Basis.v` | combinations, product, sorting, get_basis |
| `L_Basis2.v` | get_basis |
| `L_Basis3.v` | get_basis |
| `L_Basis4.v` | get_basis |
| `L_CF.v` | The crystal-field parameters |
| `L_CFrac.v` | The continued fraction |
| `L_Closed.v` | Spectra whose operators have no final states |
| `L_Closed2.v` | Lemmas |
| `L_Column.v` | Lemmas |
| `L_Comm.v` | mpi_comm.py |
| `L_Comm2.v` | Communication of dictionaries |
| `L_CommandLine.v` | Parsing the command line |
| `L_Cubic.v` | The matrix of get_spherical_2_cubic_matrix |
| `L_Dichroism.v` | Spectra of time-reversed states |
| `L_Dict.v` | Facts about insertion-ordered dictionaries |
| `L_Expand.v` | expand_basis, serial mode; the abstract expansion both modes implement |
| `L_ExpandP.v` | expand_basis in H_build mode |
| `L_Expect.v` | Second quantisation on vectors |
| `L_Expect2.v` | The functions apply{S,L}{z,+,-}3d are the textbook one-body operators |
| `L_Expect3.v` | Angular momentum operators |
| `L_Expect4.v` | Diagonal expectation values |
| `L_Expect5.v` | Density matrices |
| `L_Expect6.v` | Cubic harmonics |
| `L_Expect7.v` | The statements about angular momenta and density matrices in their final form |
| `L_Fock.v` | Fock-space facts and the link between the bit-level code and the specification |
| `L_FockP.v` | Statements of C08 - C19 in the form used by P_Fock.v |
| `L_Free.v` | Electrons without interaction |
| `L_Free2.v` | Electrons without interaction |
| `L_Free3.v` | Electrons without interaction |
| `L_Free4.v` | Electrons without interaction |
| `L_FromH.v` | Hamiltonian matrix from h_dict; expand_basis_and_hamiltonian |
| `L_Gaunt.v` | The spinless Coulomb operator, the table of Gaunt coefficients |
| `L_Green.v` | Lemmas about getGreen |
| `L_Green2.v` | getGreen as a whole |
| `L_Green3.v` | From the matrix in the generated basis to the whole Fock space; the theorems on getGreen |
| `L_Green4.v` | The statements of C34-C38 about getGreen |
| `L_Green5.v` | getGreen in mode dict |
| `L_Green6.v` | getGreen in mode dict |
| `L_Ham.v` | Lemmas about get_hamiltonian_matrix |
| `L_HamE.v` | The wrong arguments of the functions constructing the Hamiltonian matrix |
| `L_HamP.v` | Statements about Hamiltonian construction in the form used by P_Ham |
| `L_Hang.v` | Functions without communication raise Python exceptions only |
| `L_Hang2.v` | Collective operations |
| `L_Hang3.v` | Waiting ranks are explained |
| `L_Hang4.v` | Waiting ranks are explained |
| `L_Index.v` | c2i and i2c |
| `L_Isotropic.v` | The isotropic spectrum |
| `L_Ladder.v` | Proofs about create.py and remove.py |
| `L_Ladder2.v` | The create/remove functions against the representation-independent specification |
| `L_Ladder3.v` | create and remove with an orbital index outside the system |
| `L_Lanczos.v` | The Lanczos recursion |
| `L_Lanczos2.v` | Consequences of the Lanczos invariant |
| `L_Lanczos3.v` | Lanczos |
| `L_Length.v` | One result per rank |
| `L_Levels.v` | Two choices of the states of the same levels give the same averages |
| `L_Levels2.v` | The written spectra for two choices of the states of the same levels |
| `L_Levels3.v` | The RIXS map for two choices of the states of the same levels |
| `L_Lines.v` | The 2p core level with spin-orbit coupling |
| `L_Lines2.v` | The 2p core level with spin-orbit coupling |
| `L_Lines3.v` | The 2p core level with spin-orbit coupling |
| `L_Lines4.v` | The 2p core level with spin-orbit coupling |
| `L_Main.v` | Lemmas on the model of main |
| `L_Main2.v` | Lemmas on the model of main |
| `L_Main3.v` | Lemmas on the occupation restrictions of main and on the printed thermal averages |
| `L_Main4.v` | Lemmas on Boltzmann means |
| `L_Modes.v` | Lemmas |
| `L_Moments.v` | Moments of the tridiagonal matrix of the Lanczos recursion |
| `L_Moments2.v` | The moments kept by getGreen and getSpectra |
| `L_NIXS.v` | The radial integrals of the scattering operator |
| `L_NIXS2.v` | The scattering operators of the program |
| `L_Npz.v` | The file data.npz |
| `L_Operators.v` | Dictionaries written by nested loops; spin-orbit coupling and magnetic field operators |
| `L_Operators10.v` | Further statements about the total Hamiltonian |
| `L_Operators2.v` | Magnetic field operator; conserved quantum numbers of configurations |
| `L_Operators3.v` | The Coulomb operator |
| `L_Operators4.v` | Sums of operators, the 2p-3d Coulomb operator, translation to indices, conserved charges |
| `L_Operators5.v` | Double counting and the total Hamiltonian |
| `L_Operators6.v` | The crystal-field Hamiltonian |
| `L_Operators7.v` | Transition operators |
| `L_Operators8.v` | The operator of non-resonant inelastic x-ray scattering |
| `L_Operators9.v` | Combined statements about the operators |
| `L_Ops.v` | daggerOp, assert_hermitian, addOps, get_job_tasks |
| `L_PSR.v` | Proofs about the product-state converters |
| `L_PSR2.v` | Order of byte keys, edge cases, and routes through the converters |
| `L_Perm.v` | The Green's function depends on the state, not on the order in which its product states are stored |
| `L_Plot.v` | The plot scripts on the files of a complete run |
| `L_Plot2.v` | The figures of the plot scripts |
| `L_Plot3.v` | plotSpectra.py and plotRIXS.py after a run |
| `L_Print.v` | Lemmas on the printed quantities, the meshes and the checks of the command line |
| `L_Program.v` | The program |
| `L_Program2.v` | The program |
| `L_Program3.v` | The program |
| `L_Program4.v` | The program |
| `L_Program5.v` | The program |
| `L_Program6.v` | Matrix elements of the outgoing dipole operators and well-formed Hamiltonians, for the independence of the number of ranks |
| `L_Program7.v` | The written spectra |
| `L_Program8.v` | The text files of main |
| `L_Program9.v` | RIXS.bin |
| `L_RIXS.v` | getRIXSmap |
| `L_RIXS2.v` | getRIXSmap |
| `L_RIXS3.v` | getRIXSmap |
| `L_RIXS4.v` | getRIXSmap |
| `L_RIXS5.v` | getRIXSmap |
| `L_RIXS6.v` | getRIXSmap |
| `L_RIXS7.v` | getRIXSmap in the modes wIn and H_build_wIn |
| `L_RixsFile.v` | plotRIXS.py |
| `L_Rotation.v` | Means over closed multiplets are invariant under rotations |
| `L_Rotation2.v` | The dipole operators are vector operators |
| `L_Rotation3.v` | With rotational symmetry, the mean over closed multiplets is the same for all polarisations |
| `L_Rotation4.v` | Spectra with rotational symmetry |
| `L_Rotation5.v` | Restrictions that a generator respects, and the restricted Hamiltonian |
| `L_Scalar.v` | Ordered-field and complex arithmetic facts |
| `L_Sector.v` | Sectors of electron number |
| `L_Sector2.v` | Sectors |
| `L_Sector3.v` | Sectors |
| `L_Sector4.v` | Sectors |
| `L_Shift.v` | Levels that are shifted together |
| `L_Shift2.v` | The operator that shifts levels, alone and as a part of the Hamiltonian |
| `L_Shift3.v` | Levels that are shifted together |
| `L_Shift4.v` | The shift of the levels of the program |
| `L_Sort.v` | Python's sets and sorted() on bytes objects |
| `L_Spectra.v` | getGreen seen from its callers |
| `L_Spectra2.v` | normalisation of transition states and single entries of the spectra |
| `L_Spectra3.v` | getSpectra |
| `L_Spectra4.v` | getSpectra in mode eigen_states |
| `L_Spectra5.v` | getSpectra in mode H_build |
| `L_Spectra6.v` | getSpectra |
| `L_State.v` | a, c, inner, add, norm2, daggerOp, addOps and get_job_tasks |
| `L_Sum.v` | Finite sums of complex numbers |
| `L_SumRule.v` | Sum rules of x-ray absorption |
| `L_SumRule2.v` | Sum rules of x-ray absorption |
| `L_SumRule3.v` | Sum rules of x-ray absorption |
| `L_Symmetry.v` | Commutators of one-particle and two-particle operators on Fock space |
| `L_Symmetry2.v` | Sums of products of two and four ladder operators that commute with a one-particle generator |
| `L_Symmetry3.v` | The parts of the Hamiltonian as sums of products of ladder operators |
| `L_Symmetry4.v` | Rotations of spin and orbital angular momentum |
| `L_Symmetry5.v` | Orbital rotations |
| `L_Symmetry6.v` | Rotations commute with the parts of the Hamiltonian and with the whole |
| `L_Symmetry7.v` | Rotations |
| `L_Tensor.v` | Lemmas |
| `L_Tensor2.v` | Lemmas |
| `L_Tensor3.v` | Lemmas |
| `L_TimeReversal.v` | A permutation of the orbitals with signs acts on Fock space |
| `L_TimeReversal2.v` | Time reversal of operators on spin-orbitals |
| `L_TimeReversal3.v` | Kramers degeneracy; time reversal of the crystal-field Hamiltonian |
| `L_Unitary.v` | A unitary change of the orbitals acts on Fock space |
| `L_Unitary2.v` | Unitary changes of the orbitals |
| `L_Unitary3.v` | Unitary changes of the orbitals do not change the spectra |
| `L_Unitary4.v` | Unitary changes of the bath orbitals |
| `L_Unitary5.v` | The bath basis of the crystal-field program |
| `L_Units.v` | Another unit of energy |
| `L_Units2.v` | Another unit of energy |
| `L_Units3.v` | Another unit of energy |
| `L_Units4.v` | Another unit of energy |
| `L_Vec.v` | Inner products, Hermitian matrices and resolvents |
| `X_Gauss.v` | Gaussian elimination |
| `X_Main.v` | For the examples |
| `X_Ops.v` | Helpers for the examples of the operator properties |
| `X_Program.v` | For the examples of the program properties |
| `X_Reals.v` | The real numbers of the standard library as scalars, with the exponential function and the square root |
| `X_Rotation.v` | Data for the examples on rotations of spectra |
| `X_SumRule.v` | Data for the examples on sum rules |
| `X_Symmetry.v` | Data for the examples on rotations |
| `X_Unitary.v` | For the examples |
| `X_Util.v` | Helpers for the concrete examples |
| `P_Average.v` | Property C41 |
| `P_Basis.v` | Properties C23-C26 |
| `P_Closed.v` | Properties of closed and empty shells |
| `P_Column.v` | Properties of single values in the files |
| `P_Comm.v` | Properties C31 and C32 |
| `P_CommandLine.v` | Properties of the command line |
| `P_Dichroism.v` | Properties of the spectra of time-reversed states |
| `P_Dict.v` | Properties of getGreen in mode dict; for the matrix modes see P_Green |
| `P_Expect.v` | Properties of the expectation values |
| `P_Fock.v` | Properties C08 - C19 |
| `P_Free.v` | Properties of electrons without interaction |
| `P_Gaunt.v` | Properties of the spinless Coulomb operator and of the table of Gaunt coefficients |
| `P_Green.v` | Properties C33 - C38 |
| `P_Ham.v` | Properties C20, C22, C27 - C30 |
| `P_Isotropic.v` | Properties of the spectrum summed over three perpendicular polarisations |
| `P_Levels.v` | Properties of the averages over degenerate levels |
| `P_Lines.v` | Properties of the core-level photoemission |
| `P_Main.v` | Properties C53 - C55, C57, C62 |
| `P_Modes.v` | Properties of unknown names of modes |
| `P_Moments.v` | C72 |
| `P_Npz.v` | Properties of the file data.npz |
| `P_Operators.v` | Properties of the operators |
| `P_Outside.v` | Properties of create and remove with an orbital index outside the system |
| `P_Plot.v` | Properties C77 and C78 |
| `P_Print.v` | Property C76 |
| `P_Program.v` | Properties C65 - C69 |
| `P_Program2.v` | Property C70 |
| `P_Program3.v` | Property C71 |
| `P_Program4.v` | Property C73 |
| `P_Program5.v` | Property C74 |
| `P_RIXS.v` | Properties of getRIXSmap |
| `P_RIXS2.v` | Properties C63 and C64 |
| `P_Rotation.v` | Spectra of rotationally symmetric systems |
| `P_Sector.v` | Properties of the sectors of the calculation |
| `P_Shift.v` | Properties of shifted levels |
| `P_Spectra.v` | Properties C34, C36, C38 for getSpectra and simulate_spectra |
| `P_States.v` | Properties C01 - C07 |
| `P_SumRule.v` | Sum rules of x-ray absorption |
| `P_Symmetry.v` | Properties of the rotations |
| `P_Tensor.v` | Properties of x-ray absorption as a function of the polarisation |
| `P_TimeReversal.v` | Properties of time reversal |
| `P_Unitary.v` | Properties of unitary changes of the bath orbitals |
| `P_Units.v` | Properties of the unit of energy |
