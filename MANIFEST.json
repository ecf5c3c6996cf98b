{
 "claims": [
  {
   "property": "C01",
   "status": "proved",
   "theorems": [
    "C01_round_trip",
    "C01_representable"
   ],
   "note": "strings restricted to the characters 0 and 1"
  },
  {
   "property": "C02",
   "status": "proved",
   "theorems": [
    "C02_routes_commute"
   ],
   "note": "occupation meaning of each representation is rep_* in S_Occ.v"
  },
  {
   "property": "C03",
   "status": "proved",
   "theorems": [
    "C03_bytes_canonical",
    "C03_bytes_injective",
    "C03_bytes_order",
    "C03_bytes_produced"
   ],
   "note": ""
  },
  {
   "property": "C04",
   "status": "proved",
   "theorems": [
    "C04_tuple_out_of_range_dropped",
    "C04_empty_system_int_raises",
    "C04_int_str_any_width",
    "C04_int_too_big",
    "C04_int_negative",
    "C04_int_negative_bits",
    "C04_string_rejected"
   ],
   "note": ""
  },
  {
   "property": "C05",
   "status": "proved",
   "theorems": [
    "C05_create_correct",
    "C05_create_agree"
   ],
   "note": ""
  },
  {
   "property": "C06",
   "status": "proved",
   "theorems": [
    "C06_remove_correct",
    "C06_remove_agree"
   ],
   "note": ""
  },
  {
   "property": "C07",
   "status": "proved",
   "theorems": [
    "C07_remove_after_create",
    "C07_create_after_remove",
    "C07_out_of_range",
    "C05_create_correct",
    "C06_remove_correct"
   ],
   "note": ""
  },
  {
   "property": "C08",
   "status": "proved",
   "theorems": [
    "C08_annihilators_anticommute",
    "C08_creators_anticommute",
    "C08_mixed_anticommutator",
    "C08_vacuum",
    "C08_normal_order"
   ],
   "note": "operators modelled without the print branch"
  },
  {
   "property": "C09",
   "status": "proved",
   "theorems": [
    "C09_create_adjoint",
    "C09_annihilate_adjoint"
   ],
   "note": ""
  },
  {
   "property": "C10",
   "status": "proved",
   "theorems": [
    "C10_inner_is_sum",
    "C10_linear",
    "C10_antilinear",
    "C10_conjugate_symmetric",
    "C10_nonnegative",
    "C10_definite",
    "C10_norm2",
    "C10_zero_keys"
   ],
   "note": ""
  },
  {
   "property": "C11",
   "status": "proved",
   "theorems": [
    "C11_add_amplitude",
    "C11_keys",
    "C11_add_same_as_addToFirst"
   ],
   "note": ""
  },
  {
   "property": "C12",
   "status": "proved",
   "theorems": [
    "C12_matrix_elements",
    "C12_linear_in_state"
   ],
   "note": "cutoff switched off by slaterWeightMin <= 0; C14 treats the cutoff"
  },
  {
   "property": "C13",
   "status": "proved",
   "theorems": [
    "C13_restrictions"
   ],
   "note": ""
  },
  {
   "property": "C14",
   "status": "proved",
   "theorems": [
    "C14_cutoff"
   ],
   "note": ""
  },
  {
   "property": "C15",
   "status": "proved",
   "theorems": [
    "C15_cache_coherence",
    "C15_same_result",
    "C15_empty_cache_coherent"
   ],
   "note": ""
  },
  {
   "property": "C16",
   "status": "partial",
   "theorems": [
    "C16_cached_equals_uncached_refuted",
    "C16_first_call_partial"
   ],
   "note": "refuted: a second call with the same opResult may lose amplitudes because columns were cut at 1e-12; agreement on the first use of a cache is proved"
  },
  {
   "property": "C17",
   "status": "partial",
   "theorems": [
    "C17_unknown_label_rejected_refuted",
    "C17_first_label_partial"
   ],
   "note": "refuted: an unknown label after a valid one reuses the stale sign; proved for a label that acts first"
  },
  {
   "property": "C18",
   "status": "proved",
   "theorems": [
    "C18_involution",
    "C18_defined",
    "C18_unknown_label_raises",
    "C18_adjoint"
   ],
   "note": ""
  },
  {
   "property": "C19",
   "status": "proved",
   "theorems": [
    "C19_value",
    "C19_unique_keys",
    "C19_apply",
    "C19_hermitian",
    "C19_assert_hermitian_meaning"
   ],
   "note": ""
  },
  {
   "property": "C20",
   "status": "proved",
   "theorems": [
    "C20_matrix_elements",
    "C20_hermitian_matrix",
    "C20_needs_distinct_states"
   ],
   "note": "basis without repetitions; C20_needs_distinct_states shows that this is needed"
  },
  {
   "property": "C21",
   "status": "proved",
   "theorems": [
    "C21_job_tasks"
   ],
   "note": ""
  },
  {
   "property": "C22",
   "status": "proved",
   "theorems": [
    "C22_modes_agree",
    "C22_other_mode"
   ],
   "note": "well-formed operator and basis; results compared entrywise"
  },
  {
   "property": "C23",
   "status": "proved",
   "theorems": [
    "C23_basis",
    "C23_basis_size",
    "C23_accepted_parameters"
   ],
   "note": "Spec: counts of occupied orbitals in the index interval of each shell. Also the exact set of accepted parameters, the kinds of error, and the size. Parameter dictionaries have integer keys."
  },
  {
   "property": "C24",
   "status": "partial",
   "theorems": [
    "C24_electrons_partial",
    "C24_electrons_refuted"
   ],
   "note": "Proved when no shell has an empty valence bath with dnValBaths>0; refuted without that condition (electrons are created)."
  },
  {
   "property": "C25",
   "status": "proved",
   "theorems": [
    "C25_c2i",
    "C25_i2c_after_c2i",
    "C25_bijection"
   ],
   "note": "Plain and tuple keys. The distinctness condition is shown to be needed."
  },
  {
   "property": "C26",
   "status": "partial",
   "theorems": [
    "C26_c2i_rejects",
    "C26_i2c_rejects_large_partial",
    "C26_negative_index_accepted",
    "C26_i2c_rejects_refuted"
   ],
   "note": "c2i, and i2c for too large indices, proved. Refuted for negative indices: i2c returns a bath state with negative number."
  },
  {
   "property": "C27",
   "status": "proved",
   "theorems": [
    "C27_smallest_closed_basis"
   ],
   "note": "termination: every fuel above 2^n gives the result; the call on an applyOp error is not part of the statement"
  },
  {
   "property": "C28",
   "status": "proved",
   "theorems": [
    "C28_parallel_equals_serial"
   ],
   "note": "set iteration order is an arbitrary permutation per rank; disjoint keys over ranks are an assumption and are preserved"
  },
  {
   "property": "C29",
   "status": "proved",
   "theorems": [
    "C29_serial_matrix",
    "C29_local_matrices",
    "C29_basis_index",
    "C29_after_serial_expansion",
    "C29_after_parallel_expansion",
    "C29_local_serial_refused",
    "C29_wrong_refused"
   ],
   "note": ""
  },
  {
   "property": "C30",
   "status": "proved",
   "theorems": [
    "C30_restricted_matrix_hermitian",
    "C30_restricted_matrix_hermitian_parallel",
    "C30_needs_allowed_start_states"
   ],
   "note": "C30_needs_allowed_start_states shows that the start states have to obey the restrictions"
  },
  {
   "property": "C31",
   "status": "partial",
   "theorems": [
    "C31_allgather_partial",
    "C31_allgather_shared_keys_partial",
    "C31_allgather_pinned_numpy_refuted",
    "C31_zero_partial",
    "C31_negative_partial"
   ],
   "note": "Proved for a numpy that has np.int. Refuted for the pinned numpy 2.0.0: np.int (mpi_comm.py:73) does not exist, so the function raises AttributeError on every rank. Chunk sizes outside the property: with 0 rank 0 stops and the others wait for ever, with a negative size all data are lost silently."
  },
  {
   "property": "C32",
   "status": "proved",
   "theorems": [
    "C32_chunks",
    "C32_zero",
    "C32_negative"
   ],
   "note": "len/chunk_maxsize taken as exact division. Also the chunk sizes below 1, where nothing is sent."
  },
  {
   "property": "C33",
   "status": "proved",
   "theorems": [
    "C33_resolvent",
    "C33_denominators"
   ],
   "note": "cont_frac (spectra.py:677-680) is the unique (0,0) resolvent element of the tridiagonal matrix; all denominators are non-zero for delta <> 0"
  },
  {
   "property": "C34",
   "status": "proved",
   "theorems": [
    "C34_getGreen",
    "C34_getRIXSmap",
    "C34_getSpectra",
    "C34_absorption",
    "C34_emission",
    "C34_photoemission"
   ],
   "note": "getGreen, getSpectra and getRIXSmap in every mode, on every rank, for every returned value and all arguments; the written PS, XPS, NIXS and XAS columns after thermal averaging"
  },
  {
   "property": "C35",
   "status": "proved",
   "theorems": [
    "C35_dict",
    "C35_dict_closed_set",
    "C35_serial",
    "C35_parallel"
   ],
   "note": "serial, H_build and dict recursion of get_tridiagonal_krylov_vectors; square root as function with the law sqrt(x)^2 = x (met by the reals); dict mode with slaterWeightMin <= 0"
  },
  {
   "property": "C36",
   "status": "proved",
   "theorems": [
    "C36_dict",
    "C36_serial",
    "C36_H_build",
    "C36_restricted_operator",
    "C36_eigen_states",
    "C36_H_build_spectra"
   ],
   "note": "on the whole Fock space for the restricted operator (for the operator itself without restrictions and without elements of modulus < 1e-6): getGreen in serial mode and on rank 0 of H_build, getSpectra in mode eigen_states on every rank and in mode H_build on rank 0 (transition operator without elements below the cache cut-off). Mode dict: for the projected operator without cut-off, slaterWeightMin <= 0"
  },
  {
   "property": "C37",
   "status": "partial",
   "theorems": [
    "C37_dict_value_iff_partial",
    "C37_value_iff_partial",
    "C37_always_a_value_refuted"
   ],
   "note": "false: an eigenstate spread over two configurations raises ValueError (AttributeError in dict mode, other ranks hang in H_build). Positive part: exact condition under which the matrix modes and the dict mode return a value, and the exception otherwise"
  },
  {
   "property": "C38",
   "status": "partial",
   "theorems": [
    "C38_dict",
    "C38_serial",
    "C38_H_build_rank0_partial",
    "C38_other_ranks_ignore_H",
    "C38_same_on_all_ranks_refuted",
    "C38_rixs_same_on_all_ranks_refuted",
    "C38_eigen_states",
    "C38_spectra_rank0_partial",
    "C38_spectra_other_ranks",
    "C38_spectra_same_on_all_ranks_refuted"
   ],
   "note": "false for H_build: ranks other than 0 return <psi|psi>/(omega+i delta+e) whatever the Hamiltonian (getGreen and getSpectra). Positive part: serial and eigen_states equal on all ranks and for every number of ranks; rank 0 of H_build does not depend on the number of ranks; mode dict on every rank equals the matrix modes for krylovSize up to the basis size and fails above"
  },
  {
   "property": "C39",
   "status": "partial",
   "theorems": [
    "C39_only_first_operator_used",
    "C39_requested_operator_partial",
    "C39_requested_operator_refuted"
   ],
   "note": "Refuted: tOut_big = [{}]*len(tOpsOut) is one shared dictionary, so that all outgoing operators after the first are ignored (C39_only_first_operator_used, for all inputs); a concrete map that is wrong in every mode on every rank (C39_requested_operator_refuted). True for one outgoing operator (C39_requested_operator_partial)."
  },
  {
   "property": "C40",
   "status": "proved",
   "theorems": [
    "C40_same_on_all_ranks",
    "C40_each_block_once",
    "C40_independent_of_ranks"
   ],
   "note": "Same array on all ranks or failure on all of them (all inputs); every incoming energy on exactly one rank; the map does not depend on rank count, mode, set order."
  },
  {
   "property": "C41",
   "status": "proved",
   "theorems": [
    "C41_average",
    "C41_weights",
    "C41_shift",
    "C41_permutation",
    "C41_constant",
    "C41_bounds",
    "C41_errors",
    "C41_no_overflow"
   ],
   "note": "np.exp is a function argument with the laws exp>0 and exp(x+y)=exp x exp y; Example with the exponential function of the reals. Exact arithmetic. T<>0."
  },
  {
   "property": "C42",
   "status": "proved",
   "theorems": [
    "C42_Lz",
    "C42_Sz",
    "C42_trace",
    "C42_tuple_key",
    "C42_no_shell",
    "C42_no_shell_zero"
   ],
   "note": "getLz3d/getSz3d/getTraceDensityMatrix against applyLz3d/applySz3d and the textbook one-particle operators in Fock space. Error branches: tuple keys, missing 3d shell."
  },
  {
   "property": "C43",
   "status": "proved",
   "theorems": [
    "C43_Lplus",
    "C43_Lminus",
    "C43_Splus",
    "C43_Sminus",
    "C43_adjoint_L",
    "C43_adjoint_S",
    "C43_Lsqr",
    "C43_Ssqr"
   ],
   "note": "apply* are the textbook ladder operators; adjointness; L^2 and S^2 as sums of squares, non-negative."
  },
  {
   "property": "C44",
   "status": "proved",
   "theorems": [
    "C44_entries",
    "C44_hermitian",
    "C44_positive",
    "C44_trace"
   ],
   "note": "Entries exactly the non-zero <c_y^+ c_x>, Hermitian, 0 <= rho <= norm as a matrix, trace."
  },
  {
   "property": "C45",
   "status": "proved",
   "theorems": [
    "C45_unitary",
    "C45_real_p",
    "C45_real_d",
    "C45_other_l"
   ],
   "note": "u u^+ = u^+ u = 1 for l=1,2 with and without spin; real harmonics; any other l leaves u unbound."
  },
  {
   "property": "C46",
   "status": "proved",
   "theorems": [
    "C46_occupations",
    "C46_cubic_entries",
    "C46_cubic_hermitian",
    "C46_cubic_trace"
   ],
   "note": "Exact arithmetic: the imaginary part is exactly 0, so all four numbers are real; bounds; sums; cubic matrix entries, Hermiticity, trace."
  },
  {
   "property": "C47",
   "status": "proved",
   "theorems": [
    "C47_SOC_hermitian",
    "C47_SOC_conserves",
    "C47_SOC_is_LS",
    "C47_field_hermitian",
    "C47_field_conserves",
    "C47_field_is_hS"
   ],
   "note": "SOC equals xi L.S and the field operator h.S as one-particle matrices for every l; both pass assert_hermitian; sqrt is an arbitrary function."
  },
  {
   "property": "C48",
   "status": "proved",
   "theorems": [
    "C48_elements",
    "C48_conserves",
    "C48_no_double",
    "C48_adjoint",
    "C48_2p3d_sum",
    "C48_2p3d_hermitian",
    "C48_2p3d_conserves",
    "C48_sector"
   ],
   "note": "Exact list of processes and coefficients of getUop (Slater-Condon formula over gauntC), conservation laws, absence of double creation/annihilation; Hermiticity from two symmetries of the Gaunt coefficients (library function, hypotheses gaunt_laws)."
  },
  {
   "property": "C49",
   "status": "proved",
   "theorems": [
    "C49_dipole",
    "C49_selection",
    "C49_linear",
    "C49_all",
    "C49_daggered",
    "C49_well_formed",
    "C49_short_polarisation",
    "C49_not_two_shells"
   ],
   "note": "The operator is n.r between the shells in terms of gauntC; selection rules, linearity in the polarisation, adjoints, error cases. sqrt 2 assumed non-zero."
  },
  {
   "property": "C50",
   "status": "partial",
   "theorems": [
    "C50_matrix_elements",
    "C50_program_operators",
    "C50_angles_partial",
    "C50_angles_refuted",
    "C50_mirror"
   ],
   "note": "The statement is false for q_y < 0: arccos loses the sign, so the angles belong to (qx, |qy|, qz). Proved: refutation, the corrected statement over the reals, the mirror symmetry, and the matrix elements of the operator for given angles."
  },
  {
   "property": "C51",
   "status": "proved",
   "theorems": [
    "C51_CF_hamiltonian",
    "C51_in_system",
    "C51_other_basis",
    "C51_no_3d",
    "C51_parameters"
   ],
   "note": "Matrix elements of all blocks, Hermiticity, spin conservation, bath indices inside nBaths for the command-line case (10 valence, 10 or 20 bath states); error branches."
  },
  {
   "property": "C52",
   "status": "proved",
   "theorems": [
    "C52_total",
    "C52_total_CF",
    "C52_conserves_N",
    "C52_nonhermitian_rejected",
    "C52_outside_rejected",
    "C52_2p_not_full"
   ],
   "note": "Sum of the parts with c2i indices, Hermitian, well formed; non-Hermitian h0, orbitals outside the system and an open 2p shell raise. Uses gaunt_laws and int(float(z)) = z."
  },
  {
   "property": "C53",
   "status": "proved",
   "theorems": [
    "C53_pairing",
    "C53_needs_order"
   ],
   "note": "For ascending energies the kept energies and states are the same prefix, and exactly those below the cut; a counterexample shows that the order is needed. eigensystem returns ascending energies (C55)."
  },
  {
   "property": "C54",
   "status": "partial",
   "theorems": [
    "C54_meaning",
    "C54_defined",
    "C54_basis_allowed_partial",
    "C54_basis_allowed_refuted"
   ],
   "note": "The statement is false for dnTol >= 2 and dnConBaths >= 2: the basis then has states with n0-2 impurity electrons, the restrictions start at n0-1. Proved: refutation, the exact meaning of the restrictions, and the property if dnTol <= 1 or dnConBaths <= 1."
  },
  {
   "property": "C55",
   "status": "proved",
   "theorems": [
    "C55_full",
    "C55_Lanczos",
    "C55_weight",
    "C55_no_cutoff",
    "C55_other_mode",
    "C55_empty_basis"
   ],
   "note": "For every decomposition delivered by eigh/eigsh (eigen-equation, orthonormality; hypotheses eigh_works, eigsh_works, argsort_works): truncation, energies ascending, pairing of energies and states, bounds on the lost weight, exact orthonormal eigenstates without cutoff; unknown mode and empty basis raise."
  },
  {
   "property": "C56",
   "status": "proved",
   "theorems": [
    "C56_not_integer",
    "C56_2p_incomplete",
    "C56_3d",
    "C56_2p3d"
   ],
   "note": "All branches; occupations are integers iff int(x) == x."
  },
  {
   "property": "C57",
   "status": "proved",
   "theorems": [
    "C57_round_trip",
    "C57_read_errors",
    "C57_read"
   ],
   "note": "Up to rounding to float32; the number of columns must be representable (hypothesis). The reader is characterised for every file."
  },
  {
   "property": "C58",
   "status": "proved",
   "theorems": [
    "C58_sum_rule",
    "C58_operators",
    "C58_no_shell"
   ],
   "note": "The sum rule is stated for the functions a and c; getPhotoEmissionOperators / getInversePhotoEmissionOperators are shown to return exactly the single ladder operators of the shell."
  },
  {
   "property": "C59",
   "status": "partial",
   "theorems": [
    "C59_norm_bounds_partial",
    "C59_normalised_refuted"
   ],
   "note": "Refuted: amplitudes below slaterWeightMin are dropped after the normalisation. Proved: norm between 1 - N*slaterWeightMin and 1, and 1 without cut-off."
  },
  {
   "property": "C60",
   "status": "proved",
   "theorems": [
    "C60_kramers_heisenberg",
    "C60_unique"
   ],
   "note": "Exact linear solver (bicgstab) and square root are hypotheses; complete Krylov space, no cut-off; modes serial, wIn, H_build_wIn on all ranks, H_build on rank 0."
  },
  {
   "property": "C61",
   "status": "proved",
   "theorems": [
    "C61_commutators",
    "C61_L_S_commute"
   ],
   "note": "Commutators applied to every state."
  },
  {
   "property": "C62",
   "status": "proved",
   "theorems": [
    "C62_thermal",
    "C62_sum",
    "C62_bounds"
   ],
   "note": "All ten printed numbers, from the functions of C41-C46; exp and sqrt enter by their laws."
  },
  {
   "property": "C63",
   "status": "partial",
   "theorems": [
    "C63_rank_count_partial",
    "C63_rank_count_refuted"
   ],
   "note": "refuted: with slaterWeightMin > 0 the columns stored for the outgoing operator are cut, so one rank and two ranks differ; equality is proved if the first outgoing operator has no element below the cut-off, for any solver and krylovSize"
  },
  {
   "property": "C64",
   "status": "proved",
   "theorems": [
    "C64_insertion_order"
   ],
   "note": "All inputs; modes serial and H_build, dense and sparse."
  },
  {
   "property": "C65",
   "status": "proved",
   "theorems": [
    "C65_order"
   ],
   "note": ""
  },
  {
   "property": "C66",
   "status": "proved",
   "theorems": [
    "C66_written"
   ],
   "note": "The meshes are arbitrary lists; the code uses fixed ones."
  },
  {
   "property": "C67",
   "status": "partial",
   "theorems": [
    "C67_printed_T",
    "C67_at_300K",
    "C67_at_T_refuted"
   ],
   "note": "False for the code: main calls printThermalExpValues without T, so 300 K is used (C67_at_T_refuted); C67_printed_T and C67_at_300K say what is printed."
  },
  {
   "property": "C68",
   "status": "proved",
   "theorems": [
    "C68_weights"
   ],
   "note": ""
  },
  {
   "property": "C69",
   "status": "partial",
   "theorems": [
    "C69_sound_args",
    "C69_checks_refuted"
   ],
   "note": "False for the code: the lengths of dnTols, dnValBaths and dnConBaths are not checked, and the occupation may become negative (C69_checks_refuted).  C69_sound_args gives a sufficient condition."
  },
  {
   "property": "C70",
   "status": "proved",
   "theorems": [
    "C70_ranks",
    "C70_ranks_pickle",
    "C70_ranks_CF"
   ],
   "note": "eigsh is assumed to depend on the matrix entries only; without the condition on the first outgoing operator the map does depend on the ranks (C63)"
  },
  {
   "property": "C71",
   "status": "proved",
   "theorems": [
    "C71_main",
    "C71_pickle",
    "C71_CF",
    "C71_one_rank",
    "C71_all_or_none",
    "C71_getGreen",
    "C71_getSpectra",
    "C71_getRIXSmap",
    "C71_eigensystem",
    "C71_get_hamiltonian_matrix"
   ],
   "note": "The explaining exception may be OutOfFuel; a single expansion of a basis never is out of fuel if 2^n < fuel (C27). External calls (eigh, eigsh, Hamiltonian file) are assumed not to wait themselves."
  },
  {
   "property": "C72",
   "status": "proved",
   "theorems": [
    "C72_serial",
    "C72_parallel",
    "C72_sharp",
    "C72_getGreen_serial",
    "C72_getGreen_H_build",
    "C72_eigen_states",
    "C72_H_build_spectra",
    "C72_getRIXSmap"
   ],
   "note": ""
  },
  {
   "property": "C73",
   "status": "proved",
   "theorems": [
    "C73_main",
    "C73_pickle",
    "C73_CF",
    "C73_columns"
   ],
   "note": ""
  },
  {
   "property": "C74",
   "status": "proved",
   "theorems": [
    "C74_main",
    "C74_pickle",
    "C74_CF",
    "C74_getRIXSmap",
    "C74_file"
   ],
   "note": "Formula holds inside a row where psi3 has no product state of small relative weight (C59 refutes it otherwise); the linear solver is an oracle assumed exact; recorded in the row."
  },
  {
   "property": "C75",
   "status": "proved",
   "theorems": [
    "C75_coulomb_spin",
    "C75_coulomb_L",
    "C75_SOC",
    "C75_field",
    "C75_hamiltonian_spin",
    "C75_hamiltonian_L",
    "C75_hamiltonian_J",
    "C75_one_particle",
    "C75_multiplets"
   ],
   "note": "For L and J the Gaunt coefficients are assumed to obey the tensor law for the multipoles in use; the spin statement has no such hypothesis."
  },
  {
   "property": "C76",
   "status": "proved",
   "theorems": [
    "C76_rows",
    "C76_density",
    "C76_main",
    "C76_meshes",
    "C76_linspace",
    "C76_checks",
    "C76_checks_CF",
    "C76_rejected"
   ],
   "note": "Rows, density matrix elements and averages are tied to S_Expect/S_Print operators on Fock space; sqrt, exp and argsort are oracles with laws; eigensystem is the one of the run; formats and rounding of the printed numbers are not modelled."
  },
  {
   "property": "C77",
   "status": "proved",
   "theorems": [
    "C77_plotSpectra",
    "C77_pickle",
    "C77_CF",
    "C77_plotRIXS",
    "C77_nearest"
   ],
   "note": "For runs with positive widths; plotRIXS.py additionally needs int(float32(n)) = n for the number n of incoming energies."
  },
  {
   "property": "C78",
   "status": "partial",
   "theorems": [
    "C78_any_refuted",
    "C78_IndexError"
   ],
   "note": "Refuted for one incoming and two outgoing polarisations; C78_IndexError gives all numbers of polarisations that fail, C77_plotSpectra the others."
  },
  {
   "property": "C79",
   "status": "proved",
   "theorems": [
    "C79_antiunitary",
    "C79_SOC",
    "C79_field",
    "C79_coulomb",
    "C79_hamiltonian",
    "C79_CF",
    "C79_kramers",
    "C79_CF_kramers"
   ],
   "note": "Assumes of the Gaunt coefficients only that they do not change when all m change sign, of sqrt that it is a square root. Bath of the crystal-field program: 10 or 20 states; other shells with a multiple of ten."
  },
  {
   "property": "C80",
   "status": "proved",
   "theorems": [
    "C80_parse",
    "C80_not_a_number",
    "C80_files",
    "C80_unknown",
    "C80_help",
    "C80_get_spectra",
    "C80_get_spectra_CF",
    "C80_hamiltonian"
   ],
   "note": "Accepted command lines and their arguments, rejected command lines, calls of main in both programs, parameters of the Hamiltonian. argparse is modelled as far as these programs use it."
  },
  {
   "property": "C81",
   "status": "proved",
   "theorems": [
    "C81_elements",
    "C81_spin",
    "C81_exchange",
    "C81_table",
    "C81_other_ranks"
   ],
   "note": "Coefficients and spin structure relative to getUop, exchange of the electrons, the printed table, other ranks."
  },
  {
   "property": "C82",
   "status": "proved",
   "theorems": [
    "C82_defined",
    "C82_response",
    "C82_dipole",
    "C82_one_electron",
    "C82_NIXS",
    "C82_hamiltonian",
    "C82_CF",
    "C82_no_dichroism"
   ],
   "note": "Exact statements on the full Fock space; the crystal-field Hamiltonians need no hypothesis about h0. Existence of the response needs only a solution when z is not real (C82_defined)."
  },
  {
   "property": "C83",
   "status": "proved",
   "theorems": [
    "C83_response",
    "C83_eigen_states",
    "C83_H_build"
   ],
   "note": "Exact response; getSpectra in modes eigen_states (all ranks) and H_build (rank 0) for krylovSize at least the dimension of the Fock space and slaterWeightMin <= 0. The program uses krylovSize 150 and a positive cut-off, for which only C72 and C73 hold."
  },
  {
   "property": "C84",
   "status": "proved",
   "theorems": [
    "C84_count",
    "C84_closure",
    "C84_powers",
    "C84_only_sector",
    "C84_hamiltonian",
    "C84_CF",
    "C84_transitions",
    "C84_run_CF",
    "C84_run_pickle"
   ],
   "note": "transition_ops (S_Sector) names the six operator constructors of the program; the final states are all powers of the restricted Hamiltonian and the solution of (z - h) x = T psi, with the cut-offs of the program. The unpickled h0 must conserve both numbers."
  },
  {
   "property": "C85",
   "status": "proved",
   "theorems": [
    "C85_same_files",
    "C85_other_radial",
    "C85_written",
    "C85_operator"
   ],
   "note": "All runs. The meshes are compared as given: w, wIn, wLoss and qsNIXS are in spectra.h5, not in data.npz."
  },
  {
   "property": "C86",
   "status": "partial",
   "theorems": [
    "C86_rerun_partial",
    "C86_rerun_refuted"
   ],
   "note": "C86_rerun_refuted: the energy cut is saved in eV but read in units of k_B*T. C86_rerun_partial: after division by k_B*T the arguments are those of the first run; missing for the full statement is only that division."
  },
  {
   "property": "C87",
   "status": "proved",
   "theorems": [
    "C87_holes",
    "C87_dichroism",
    "C87_linear",
    "C87_states_holes",
    "C87_states_dichroism",
    "C87_sector"
   ],
   "note": "Integrated spectrum = squared norm of the final state (times -pi); cut-off swm <= 0. Assumes the commutators of C^1 with L+- for the Gaunt coefficients (met by the true ones in the example)."
  },
  {
   "property": "C88",
   "status": "partial",
   "theorems": [
    "C88_whole",
    "C88_operator",
    "C88_response",
    "C88_kramers_heisenberg",
    "C88_absorption",
    "C88_emission",
    "C88_photoemission",
    "C88_RIXS",
    "C88_incomplete_refuted"
   ],
   "note": "Proved for complete levels (full Krylov space, no cut-off); false for levels that nPsiMax cuts (C88_incomplete_refuted)."
  },
  {
   "property": "C89",
   "status": "proved",
   "theorems": [
    "C89_restrictions",
    "C89_restricted",
    "C89_whole",
    "C89_linear",
    "C89_circular",
    "C89_hamiltonian",
    "C89_absorption",
    "C89_incomplete_refuted"
   ],
   "note": "L and J rotations of both shells; full Krylov space and no cut-off for the written columns; C89_incomplete_refuted shows that complete multiplets are needed"
  },
  {
   "property": "C90",
   "status": "proved",
   "theorems": [
    "C90_levels",
    "C90_hamiltonian",
    "C90_eigen",
    "C90_spectra",
    "C90_absorption",
    "C90_emission",
    "C90_photoemission",
    "C90_RIXS",
    "C90_program",
    "C90_XAS_core",
    "C90_XAS_all"
   ],
   "note": "Full Krylov space and no cut-off on amplitudes (swm <= 0), as in C88 and C89; columns for states with one common charge, getSpectra and getRIXSmap for a charge of each state."
  },
  {
   "property": "C91",
   "status": "proved",
   "theorems": [
    "C91_inner",
    "C91_kept",
    "C91_hops",
    "C91_eigen",
    "C91_levels",
    "C91_h0",
    "C91_hamiltonian",
    "C91_bath_basis",
    "C91_transitions",
    "C91_absorption",
    "C91_emission",
    "C91_photoemission",
    "C91_RIXS"
   ],
   "note": ""
  },
  {
   "property": "C92",
   "status": "proved",
   "theorems": [
    "C92_hamiltonian",
    "C92_crystal_field",
    "C92_hamiltonian_CF",
    "C92_incomplete_file_refuted",
    "C92_same",
    "C92_eigen",
    "C92_selection",
    "C92_average",
    "C92_printed",
    "C92_spectra",
    "C92_absorption",
    "C92_emission",
    "C92_photoemission",
    "C92_RIXS"
   ],
   "note": "The statement is restricted to complete crystal-field files; C92_incomplete_file_refuted shows that this restriction is needed (the defaults are numbers of electron volts)."
  },
  {
   "property": "C93",
   "status": "proved",
   "theorems": [
    "C93_hamiltonian",
    "C93_matrix",
    "C93_green_exists",
    "C93_greens_functions",
    "C93_photoemission",
    "C93_independent",
    "C93_program",
    "C93_core_level",
    "C93_core_program",
    "C93_crystal_field"
   ],
   "note": "h0 must consist of hoppings (only_hops), as h0 of the program does; XPS.dat for a full 2p shell"
  },
  {
   "property": "C94",
   "status": "partial",
   "theorems": [
    "C94_too_high_partial",
    "C94_too_low",
    "C94_wraps",
    "C94_string_last",
    "C94_int_negative",
    "C94_tuple",
    "C94_rejected_refuted",
    "C94_agree_refuted"
   ],
   "note": "Refuted for negative indices and for tuples; proved for too high an index in the other four representations; the behaviour is given exactly in all other cases"
  },
  {
   "property": "C95",
   "status": "proved",
   "theorems": [
    "C95_program",
    "C95_green",
    "C95_crystal_field",
    "C95_determined"
   ],
   "note": "Stated for slaterWeightMin <= 0 and a full Krylov space, like C93."
  },
  {
   "property": "C96",
   "status": "proved",
   "theorems": [
    "C96_no_final_state",
    "C96_XAS",
    "C96_NIXS",
    "C96_PS_closed",
    "C96_PS_empty",
    "C96_XPS",
    "C96_IPS"
   ],
   "note": "total results: no assumption on Lanczos, cut-off or Hamiltonian"
  },
  {
   "property": "C97",
   "status": "partial",
   "theorems": [
    "C97_expand_basis_partial",
    "C97_expand_hamiltonian_partial",
    "C97_getGreen_partial",
    "C97_getSpectra_partial",
    "C97_getRIXSmap_zeros_partial",
    "C97_getRIXSmap_refuted",
    "C97_getGreen_refuted"
   ],
   "note": "refuted for getRIXSmap (zeros without an exception) and for getGreen with an empty state; proved for the other functions"
  },
  {
   "property": "C98",
   "status": "proved",
   "theorems": [
    "C98_response",
    "C98_H_build",
    "C98_XAS",
    "C98_RIXS"
   ],
   "note": "full Krylov space and no cut-off, as in C83"
  },
  {
   "property": "C99",
   "status": "proved",
   "theorems": [
    "C99_absorption",
    "C99_emission",
    "C99_photoemission"
   ],
   "note": "Full Krylov space and cut-off not positive, as in C83; the program uses 1e-12. Not so for RIXS (C39)."
  }
 ]
}