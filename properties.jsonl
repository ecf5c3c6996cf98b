{"id": "C01", "title": "Product-state representations round-trip", "statement": "For a system with n>=1 spin-orbitals, converting any product state between the tuple, str, int, bitarray and bytes representations and back (any ordered pair of representations offered by the API) returns the original value; in particular no information is lost by the bytes form used as dictionary key.", "quantifier": "every n >= 1 (including n not a multiple of 8), every one of the 2^n product states, every ordered pair of representations with a converter", "why_tests_cant": "2^n states for unbounded n; the existing tests check one 7-orbital state", "anchors": ["impurityModel/ed/product_state_representation.py:str2int,int2str,str2tuple,tuple2str,tuple2int,int2tuple,bitarray2bytes,bytes2bitarray,int2bitarray,bitarray2int,bitarray2str,str2bitarray,tuple2bitarray,bitarray2tuple,tuple2bytes,bytes2tuple,str2bytes,bytes2str,int2bytes,bytes2int"]}
{"id": "C02", "title": "All conversion routes denote the same occupation", "statement": "Two routes through the converters from one representation to another always give the same value, and for every orbital k<n the k-th character/bit, membership of k in the tuple, bit n-1-k of the int and bit 7-(k mod 8) of byte k/8 all say whether orbital k is occupied.", "quantifier": "every n >= 1, every product state, every orbital index k < n", "why_tests_cant": "needs all states and sizes; tests cover a single literal", "anchors": ["impurityModel/ed/product_state_representation.py"]}
{"id": "C03", "title": "bytes keys are canonical and collision free", "statement": "For fixed n the bytes representation has exactly ceil(n/8) bytes, its padding bits are zero, different product states have different bytes, and byte-wise lexicographic order of keys equals numeric order of the int representation (so sorted() of basis states is the same on all ranks).", "quantifier": "every n, every pair of product states", "why_tests_cant": "a collision or order mismatch can hide in any of 2^n states", "anchors": ["impurityModel/ed/product_state_representation.py:tuple2bytes,bitarray2bytes", "impurityModel/ed/finite.py:expand_basis"]}
{"id": "C04", "title": "Boundary behaviour of the converters", "statement": "Converters reject or ignore malformed input exactly as follows: for n=0 the integer converters raise (empty binary literal) or return a one-character string, orbital indices outside 0..n-1 in a tuple are silently dropped, order and multiplicity in the tuple are ignored, and an integer >= 2^n yields a string longer than n. A negative integer is rejected on the way back from the string, except for one width (floor(log2 |i|) + 3), where the string reads 0b... and the sign is lost silently; the bitarray converters reject all negative integers and all strings with other characters.", "quantifier": "every n (including 0), every tuple of integers, every integer", "why_tests_cant": "unit tests only exercise well-formed input", "anchors": ["impurityModel/ed/product_state_representation.py:str2int,int2str,tuple2str,tuple2int"]}
{"id": "C05", "title": "The five create implementations agree", "statement": "create.utuple, create.uint, create.ustr, create.ubitarray and create.ubytes give the same amplitude and, when the amplitude is non-zero, the same new product state, for every state and orbital of an n-orbital system.", "quantifier": "every n >= 1, every product state, every orbital i in 0..n-1", "why_tests_cant": "exhaustive over states of unbounded size; bit-twiddling (uint) vs bisect (tuple) vs slicing", "anchors": ["impurityModel/ed/create.py:utuple,uint,ustr,ubitarray,ubytes,binary_search_bigger"]}
{"id": "C06", "title": "The five remove implementations agree", "statement": "remove.utuple, remove.uint, remove.ustr, remove.ubitarray and remove.ubytes give the same amplitude and, when the amplitude is non-zero, the same new product state.", "quantifier": "every n >= 1, every product state, every orbital i in 0..n-1", "why_tests_cant": "exhaustive over states of unbounded size", "anchors": ["impurityModel/ed/remove.py:utuple,uint,ustr,ubitarray,ubytes,binary_search"]}
{"id": "C07", "title": "Fermionic sign and Pauli principle of create/remove", "statement": "Creating (removing) an electron at orbital i succeeds exactly if i is empty (occupied); the new state differs from the old one at i only; the amplitude is +1 (-1) if an even (odd) number of electrons occupy orbitals below i, and 0 on failure. Remove after create (and vice versa) restores the state with total sign +1.", "quantifier": "every n, every product state, every orbital", "why_tests_cant": "sign errors appear only for specific occupation parities", "anchors": ["impurityModel/ed/create.py", "impurityModel/ed/remove.py"]}
{"id": "C08", "title": "Canonical anticommutation relations", "statement": "Acting on any multi-configurational state, the functions a (annihilate) and c (create) satisfy {c_i,c_j}=0, {c_i^+,c_j^+}=0 and {c_i,c_j^+}=delta_ij; annihilation kills the vacuum, and creating the orbitals of a product state in its documented normal order from the vacuum gives that state with amplitude +1.", "quantifier": "every n, all orbitals i,j, every multi-configurational state (any dict of product states with complex amplitudes)", "why_tests_cant": "an operator identity over an exponentially large space", "anchors": ["impurityModel/ed/finite.py:a,c", "impurityModel/ed/create.py", "impurityModel/ed/remove.py"]}
{"id": "C09", "title": "a and c are adjoint", "statement": "<phi| c_i^+ psi> = <c_i phi | psi> for the functions inner, a and c.", "quantifier": "every pair of multi-configurational states, every orbital, every n", "why_tests_cant": "sesquilinear identity over all states", "anchors": ["impurityModel/ed/finite.py:a,c,inner"]}
{"id": "C10", "title": "inner / norm2 form a Hermitian inner product", "statement": "inner is linear in its second and conjugate-linear in its first argument, conjugate-symmetric, non-negative on the diagonal and zero only for the zero state; norm2(psi) = inner(psi,psi); keys with zero amplitude never matter.", "quantifier": "all multi-configurational states and complex scalars", "why_tests_cant": "algebraic law over all dictionaries", "anchors": ["impurityModel/ed/finite.py:inner,norm2"]}
{"id": "C11", "title": "add and addToFirst compute psi1 + mul*psi2", "statement": "For every product state the amplitude in the result is amp1 + mul*amp2; add leaves psi1 unchanged and both functions never drop or duplicate keys; add and addToFirst give the same dictionary including key order.", "quantifier": "all states psi1, psi2 and scalars mul", "why_tests_cant": "all key-overlap patterns", "anchors": ["impurityModel/ed/finite.py:add,addToFirst"]}
{"id": "C12", "title": "applyOp applies the second-quantised operator", "statement": "Without restrictions, cache or cutoff, the amplitude of product state t in applyOp(op, psi) is the sum over processes (p,h) of op and states (s,a) of psi of h*a*<t|p|s>, where p acts right-to-left with fermionic signs; hence applyOp is linear in psi and in op.", "quantifier": "every n, every operator made of processes of any length with in-range orbitals, every psi", "why_tests_cant": "infinitely many operators/states; tests check up to two ladder operators on 6 orbitals", "anchors": ["impurityModel/ed/finite.py:applyOp"]}
{"id": "C13", "title": "applyOp restrictions remove exactly the forbidden product states", "statement": "With restrictions, the result is the unrestricted result minus exactly those product states whose occupation of some restricted orbital set lies outside its [min,max]; amplitudes of allowed states are unchanged, independent of the order in which contributions arrive.", "quantifier": "every operator, psi and restriction dictionary", "why_tests_cant": "code checks restrictions only on first arrival of a state; interleavings of contributions are unbounded", "anchors": ["impurityModel/ed/finite.py:applyOp"]}
{"id": "C14", "title": "applyOp weight cutoff", "statement": "A product state is kept in the result of applyOp exactly if the squared modulus of its fully accumulated amplitude is at least slaterWeightMin (never because of the size of individual contributions), and kept amplitudes are exact.", "quantifier": "every operator, psi, restriction and cutoff", "why_tests_cant": "cancellation/accumulation patterns are unbounded", "anchors": ["impurityModel/ed/finite.py:applyOp"]}
{"id": "C15", "title": "applyOp cache coherence", "statement": "If every entry of opResult equals the (restricted, cut) action of the operator on its key, it still does after applyOp; entries are never changed once present; and every state of psi gets an entry. Using such a cache gives the same result as no cache whenever no column entry fell below the cutoff.", "quantifier": "every sequence of applyOp calls with the same operator, n, restrictions and cutoff; every psi", "why_tests_cant": "property of arbitrary call histories", "anchors": ["impurityModel/ed/finite.py:applyOp"]}
{"id": "C16", "title": "Cached and uncached applyOp agree for every history", "statement": "Calling applyOp with an opResult cache always returns the same state as calling it without, whatever was computed before with that cache.", "quantifier": "every call history, operator, psi and cutoff", "why_tests_cant": "depends on the history of the cache", "anchors": ["impurityModel/ed/finite.py:applyOp"]}
{"id": "C17", "title": "Unknown ladder labels are rejected", "statement": "applyOp raises for an operator containing a ladder label other than 'a' or 'c'.", "quantifier": "every operator and psi", "why_tests_cant": "depends on which process ran before (stale loop variable)", "anchors": ["impurityModel/ed/finite.py:applyOp"]}
{"id": "C18", "title": "daggerOp is the Hermitian adjoint", "statement": "daggerOp is an involution, raises exactly if some ladder label is neither 'a' nor 'c', and <phi|op psi> = <daggerOp(op) phi|psi> for all states.", "quantifier": "every operator and all pairs of states", "why_tests_cant": "operator identity over all states", "anchors": ["impurityModel/ed/finite.py:daggerOp,applyOp,inner"]}
{"id": "C19", "title": "addOps adds operators", "statement": "For every process the value in addOps(ops) is the sum of its values in ops; applying the sum equals summing the applied operators; the sum of operators each passing assert_hermitian passes assert_hermitian.", "quantifier": "every list of operators", "why_tests_cant": "unbounded lists and key overlaps", "anchors": ["impurityModel/ed/finite.py:addOps,assert_hermitian"]}
{"id": "C20", "title": "Hermitian operator gives Hermitian Hamiltonian matrix", "statement": "If assert_hermitian(hOp) passes then get_hamiltonian_matrix(n,hOp,basis) is a Hermitian matrix for every basis, including the effect of the default weight cutoff, and its (i,j) element is <basis_i|hOp|basis_j> (zero if below the cutoff).", "quantifier": "every Hermitian operator, every duplicate-free basis", "why_tests_cant": "all operators and bases", "anchors": ["impurityModel/ed/finite.py:assert_hermitian,get_hamiltonian_matrix"]}
{"id": "C21", "title": "get_job_tasks partitions the work", "statement": "Over all ranks, get_job_tasks hands out every task exactly once, keeps each rank's tasks in list order, and the loads of two ranks differ by at most one.", "quantifier": "every number of ranks >= 1 and every task list, including fewer tasks than ranks", "why_tests_cant": "all (ranks, tasks) combinations", "anchors": ["impurityModel/ed/finite.py:get_job_tasks"]}
{"id": "C22", "title": "Hamiltonian matrix is independent of mode and rank count", "statement": "get_hamiltonian_matrix returns the same matrix in all four modes (dense/sparse, serial/MPI), on every rank, for every number of MPI ranks.", "quantifier": "every operator, basis, number of ranks >= 1, rank", "why_tests_cant": "needs arbitrary rank counts", "anchors": ["impurityModel/ed/finite.py:get_hamiltonian_matrix,get_job_tasks"]}
{"id": "C23", "title": "get_basis enumerates exactly the restricted configurations", "statement": "get_basis returns, without repetition, exactly the product states whose occupation of each shell (impurity, valence bath, conduction bath) is one of the admitted (n0+dnVal-dnCon, nVal-dnVal, dnCon) combinations with |dnVal-dnCon|<=dnTol.", "quantifier": "every set of shells, bath sizes and occupation parameters with at least one valence bath orbital wherever dnValBaths>0", "why_tests_cant": "combinatorial enumeration over all parameters", "anchors": ["impurityModel/ed/finite.py:get_basis,c2i"]}
{"id": "C24", "title": "get_basis conserves the electron number", "statement": "All product states returned by get_basis have the same number of electrons.", "quantifier": "every parameter set accepted by get_basis", "why_tests_cant": "parameter corner cases (no valence bath orbitals)", "anchors": ["impurityModel/ed/finite.py:get_basis"]}
{"id": "C25", "title": "c2i and i2c are inverse bijections", "statement": "c2i maps the impurity spin-orbitals and bath states of nBaths one-to-one onto 0..N-1 (impurity first, in key order; then baths), i2c inverts it, for plain and shared-bath (tuple) keys.", "quantifier": "every nBaths dictionary in which no angular momentum occurs twice", "why_tests_cant": "every shell/bath layout", "anchors": ["impurityModel/ed/finite.py:c2i,i2c"]}
{"id": "C26", "title": "c2i and i2c reject invalid coordinates", "statement": "c2i raises for a spin-orbital not in the system and i2c raises for an index outside 0..N-1.", "quantifier": "every nBaths, every coordinate, every integer index", "why_tests_cant": "all integers", "anchors": ["impurityModel/ed/finite.py:c2i,i2c"]}
{"id": "C27", "title": "expand_basis returns the smallest closed basis", "statement": "expand_basis terminates and returns basis0 followed by new states, without repetition, such that the result is the smallest set containing basis0 and closed under the restricted operator; every state of it has an entry in h_dict afterwards and old entries are unchanged.", "quantifier": "every operator, start basis, restrictions and coherent h_dict", "why_tests_cant": "fix-point over an exponential space, any cache history", "anchors": ["impurityModel/ed/finite.py:expand_basis"]}
{"id": "C28", "title": "Parallel expand_basis equals the serial one on every rank", "statement": "In H_build mode every rank returns the same basis, equal to the serial result, whatever order Python iterates over sets; each product state of the basis is a key of h_dict on exactly one rank.", "quantifier": "every number of ranks, every distribution of h_dict over ranks with disjoint keys, every set iteration order", "why_tests_cant": "hash-order and rank-count dependent", "anchors": ["impurityModel/ed/finite.py:expand_basis,get_job_tasks"]}
{"id": "C29", "title": "Hamiltonian from h_dict", "statement": "After expand_basis, get_hamiltonian_matrix_from_h_dict never raises KeyError and its (i,j) entry is h_dict[basis_j][basis_i]; dense and sparse serial results agree; in H_build mode the local matrices of the ranks sum to the serial matrix.", "quantifier": "every operator, basis, cache distribution and rank count", "why_tests_cant": "closedness of arbitrary bases", "anchors": ["impurityModel/ed/finite.py:get_hamiltonian_matrix_from_h_dict,expand_basis_and_hamiltonian"]}
{"id": "C30", "title": "Restricted Hamiltonian used for spectra is Hermitian", "statement": "If hOp passes assert_hermitian and all start states satisfy the restrictions, the matrix returned by expand_basis_and_hamiltonian is Hermitian.", "quantifier": "every Hermitian operator, start basis satisfying the restrictions, and coherent cache", "why_tests_cant": "all operators/restrictions; fails if a start state violates the restrictions", "anchors": ["impurityModel/ed/finite.py:expand_basis_and_hamiltonian"]}
{"id": "C31", "title": "allgather_dict distributes all data", "statement": "After allgather_dict every rank's total contains exactly the old total plus the union of all ranks' data, for any chunk size, chunked or not.", "quantifier": "every number of ranks, every per-rank dictionary with globally unique keys, every chunk_maxsize >= 1", "why_tests_cant": "rank count, chunk boundaries", "anchors": ["impurityModel/ed/mpi_comm.py:allgather_dict"]}
{"id": "C32", "title": "dict_chunks_from_one_MPI_rank chunks losslessly", "statement": "The root yields ceil(len/chunk) non-empty chunks of at most chunk_maxsize items, whose concatenation is the data in order; all ranks yield the same number of chunks.", "quantifier": "every dictionary, chunk size >= 1, root and rank count", "why_tests_cant": "chunk boundary arithmetic", "anchors": ["impurityModel/ed/mpi_comm.py:dict_chunks_from_one_MPI_rank"]}
{"id": "C33", "title": "Continued fraction equals the tridiagonal resolvent", "statement": "The Green's function evaluated from (alpha,beta) is the (0,0) element of (z-T)^{-1} for the real symmetric tridiagonal T, and no denominator vanishes when delta != 0.", "quantifier": "every Krylov size, all real alpha, beta, every energy mesh point and delta != 0", "why_tests_cant": "recursion of arbitrary depth over real parameters", "anchors": ["impurityModel/ed/spectra.py:getGreen"]}
{"id": "C34", "title": "Spectral functions have the right sign and are bounded", "statement": "For delta>0, every value returned by getGreen satisfies Im g <= 0 and |g| <= 1/delta; hence the intensities -Im written for IPS, XAS, NIXS, RIXS and (with the sign-flipped mesh and prefactor) PS, XPS are non-negative, also after thermal averaging.", "quantifier": "every operator, state, mesh, cutoff, restriction, Krylov size", "why_tests_cant": "all inputs", "anchors": ["impurityModel/ed/spectra.py:getGreen,getSpectra,getRIXSmap,simulate_spectra", "impurityModel/ed/average.py:thermal_average"]}
{"id": "C35", "title": "Lanczos recursion is an orthonormal tridiagonalisation", "statement": "For a Hermitian matrix and normalised start vector, if get_tridiagonal_krylov_vectors returns (alpha,beta) then there are orthonormal vectors v_0=psi0,...,v_{k-1} with <v_i|H|v_j> equal to the tridiagonal matrix of alpha, beta, and all beta>0.", "quantifier": "every dimension, Hermitian matrix, start vector and Krylov size (exact arithmetic)", "why_tests_cant": "numerical linear algebra statement over all matrices", "anchors": ["impurityModel/ed/finite.py:get_tridiagonal_krylov_vectors"]}
{"id": "C36", "title": "Full Krylov space gives the exact Green's function", "statement": "If the Krylov size equals the basis size (and the recursion does not stop), getGreen returns <psi|((omega+i delta+e) - H)^{-1}|psi> exactly.", "quantifier": "every Hermitian matrix, normalised start vector, mesh point, delta != 0", "why_tests_cant": "all matrices", "anchors": ["impurityModel/ed/spectra.py:getGreen", "impurityModel/ed/finite.py:get_tridiagonal_krylov_vectors"]}
{"id": "C37", "title": "getGreen always returns a Green's function", "statement": "getGreen returns a value (does not raise) for every normalised state and Hermitian operator.", "quantifier": "every operator and state", "why_tests_cant": "exact invariant subspaces are measure-zero for random tests", "anchors": ["impurityModel/ed/spectra.py:getGreen", "impurityModel/ed/finite.py:get_tridiagonal_krylov_vectors"]}
{"id": "C38", "title": "Green's function is the same on every MPI rank", "statement": "getGreen/getSpectra return the same array on every rank for every number of ranks and every parallelization_mode.", "quantifier": "every number of ranks and rank", "why_tests_cant": "needs multi-rank runs for all sizes", "anchors": ["impurityModel/ed/spectra.py:getGreen,getSpectra", "impurityModel/ed/finite.py:get_tridiagonal_krylov_vectors"]}
{"id": "C39", "title": "RIXS uses the requested outgoing operator", "statement": "In getRIXSmap the state psi3 for outgoing operator number tOut is tOpsOut[tOut] applied to psi2.", "quantifier": "every list of outgoing operators and every intermediate state", "why_tests_cant": "a shared cache makes the result depend on the order of earlier calls", "anchors": ["impurityModel/ed/spectra.py:getRIXSmap (tOut_big)"]}
{"id": "C40", "title": "RIXS map is the same on every rank and for every rank count", "statement": "In modes wIn and H_build_wIn every rank ends with the same gs array, each (eigenstate, tIn, iwIn) block computed by exactly one rank.", "quantifier": "every rank count and mesh size", "why_tests_cant": "distribution over arbitrary ranks", "anchors": ["impurityModel/ed/spectra.py:getRIXSmap", "impurityModel/ed/finite.py:get_job_tasks"]}
{"id": "C41", "title": "thermal_average is a Boltzmann average", "statement": "thermal_average raises ValueError on length mismatch; otherwise it returns a convex combination of the observables with weights proportional to exp(-E_i/(k_B T)); it never divides by zero, is invariant under a common energy shift and under permutation of the states, and equals the common value of equal observables.", "quantifier": "every non-empty list of energies and observables, T>0", "why_tests_cant": "real-valued law over all inputs", "anchors": ["impurityModel/ed/average.py:thermal_average"]}
{"id": "C42", "title": "Angular-momentum expectation values agree with operators", "statement": "getLz3d(psi) = <psi|applyLz3d(psi)>, getSz3d(psi) = <psi|applySz3d(psi)>, and getTraceDensityMatrix(psi) = sum_i <psi|c_i^+ c_i|psi> over the shell.", "quantifier": "every system containing a 3d shell, every psi", "why_tests_cant": "two independent code paths on all states", "anchors": ["impurityModel/ed/finite.py:getLz3d,getSz3d,applyLz3d,applySz3d,getTraceDensityMatrix"]}
{"id": "C43", "title": "Ladder operators are mutually adjoint and L^2,S^2 are non-negative", "statement": "<phi|L+ psi> = <L- phi|psi>, <phi|S+ psi> = <S- phi|psi>; getLsqr3d and getSsqr3d return <psi|Lz^2+(L+L- + L-L+)/2|psi> >= 0 (same for S).", "quantifier": "every system, all states", "why_tests_cant": "operator identities", "anchors": ["impurityModel/ed/finite.py:applyLplus3d,applyLminus3d,applySplus3d,applySminus3d,getLsqr3d,getSsqr3d"]}
{"id": "C44", "title": "Density matrix is Hermitian with the right trace", "statement": "getDensityMatrix(psi) stores exactly the non-zero <psi|c_j^+ c_i|psi>, is Hermitian, its diagonal lies in [0,<psi|psi>], and its trace equals getTraceDensityMatrix(psi).", "quantifier": "every system, l and psi", "why_tests_cant": "all states", "anchors": ["impurityModel/ed/finite.py:getDensityMatrix,getTraceDensityMatrix"]}
{"id": "C45", "title": "Spherical-to-cubic matrix is unitary", "statement": "get_spherical_2_cubic_matrix(spinpol,l) is unitary for l=1,2 with and without spin, and raises for every other l.", "quantifier": "every l and spinpol", "why_tests_cant": "irrational entries: float tests are approximate; all l", "anchors": ["impurityModel/ed/finite.py:get_spherical_2_cubic_matrix"]}
{"id": "C46", "title": "eg/t2g occupations are real and sum to the shell occupation", "statement": "The four numbers of getEgT2gOccupation are real, non-negative and sum to getTraceDensityMatrix(psi); the cubic density matrix has the same trace as the spherical one.", "quantifier": "every system and psi", "why_tests_cant": "all states", "anchors": ["impurityModel/ed/finite.py:getEgT2gOccupation,getDensityMatrixCubic"]}
{"id": "C47", "title": "One-particle Hamiltonian terms are Hermitian", "statement": "getSOCop(xi,l) and gethHfieldop(hx,hy,hz,l) pass assert_hermitian for all real parameters, conserve the electron number, and SOC conserves Jz.", "quantifier": "every l >= 0 and all real parameters", "why_tests_cant": "all parameters", "anchors": ["impurityModel/ed/finite.py:getSOCop,gethHfieldop"]}
{"id": "C48", "title": "Coulomb operator conserves N, Sz, Lz and is Hermitian", "statement": "Every process of getUop conserves electron number, spin projection and orbital projection and never annihilates or creates the same spin-orbital twice; get2p3dSlaterCondonUop passes assert_hermitian for all real Slater integrals.", "quantifier": "all angular momenta and Slater integrals", "why_tests_cant": "all parameters; relies on Gaunt-coefficient symmetries", "anchors": ["impurityModel/ed/finite.py:getU,getUop,get2p3dSlaterCondonUop,gauntC"]}
{"id": "C49", "title": "Dipole operators move one electron between shells", "statement": "Each process of getDipoleOperator removes an electron from the first shell and adds one with the same spin and |dm|<=1 to the second; the operator is linear in the polarisation vector; the daggered operators are its adjoints.", "quantifier": "every pair of shells and every polarisation vector", "why_tests_cant": "all polarisations and layouts", "anchors": ["impurityModel/ed/spectra.py:getDipoleOperator,getDipoleOperators,getDaggeredDipoleOperators"]}
{"id": "C50", "title": "NIXS operator depends on the full scattering vector", "statement": "The polar angles used by getNIXSOperator are those of q, i.e. q = |q|(sin th cos ph, sin th sin ph, cos th).", "quantifier": "every scattering vector not parallel to z", "why_tests_cant": "sign of one component over all directions", "anchors": ["impurityModel/ed/spectra.py:getNIXSOperator"]}
{"id": "C51", "title": "Crystal-field Hamiltonian is Hermitian and stays in the system", "statement": "get_CF_hamiltonian returns a Hermitian, spin-conserving one-particle operator whose bath indices lie inside nBaths and whose valence/conduction couplings refer to valence/conduction bath states.", "quantifier": "all real CF parameters, both bath bases, every nBaths/nValBaths accepted by the command line", "why_tests_cant": "all parameters", "anchors": ["impurityModel/ed/get_spectra_using_CF.py:get_CF_hamiltonian"]}
{"id": "C52", "title": "Total Hamiltonian passes its own Hermiticity assertion", "statement": "get_hamiltonian_operator and get_hamiltonian_operator_using_CF return (instead of raising) whenever h0 is Hermitian and only mentions spin-orbitals of the system; the result is the sum of U, field, SOC, double counting and h0 with indices translated by c2i.", "quantifier": "all physical parameters and Hermitian h0 files", "why_tests_cant": "all parameters", "anchors": ["impurityModel/ed/get_spectra.py:get_hamiltonian_operator", "impurityModel/ed/get_spectra_using_CF.py:get_hamiltonian_operator_using_CF"]}
{"id": "C53", "title": "Low-energy selection keeps energies and states paired", "statement": "After the energy cut in main, the i-th kept state is the eigenstate of the i-th kept energy and exactly the eigenstates with e-e0<energy_cut are kept.", "quantifier": "every ascending list of energies with its states, every cut", "why_tests_cant": "any degeneracy/cut pattern", "anchors": ["impurityModel/ed/get_spectra.py:main", "impurityModel/ed/finite.py:eigensystem"]}
{"id": "C54", "title": "Ground-state configurations respect the excited-state restrictions", "statement": "Every product state of the ground-state basis satisfies the occupation restrictions that main imposes on the excited states.", "quantifier": "every command line accepted by main", "why_tests_cant": "parameter corner cases", "anchors": ["impurityModel/ed/get_spectra.py:main", "impurityModel/ed/finite.py:get_basis"]}
{"id": "C55", "title": "eigensystem returns truncated eigenvectors", "statement": "Each returned state contains exactly the basis states whose squared amplitude is at least slaterWeightMin, with unchanged amplitude; its norm is at most that of the eigenvector; energies are ascending in both modes.", "quantifier": "every eigen-decomposition delivered by the linear-algebra library, every cutoff", "why_tests_cant": "all matrices", "anchors": ["impurityModel/ed/finite.py:eigensystem"]}
{"id": "C56", "title": "dc_MLFT decision logic", "statement": "dc_MLFT raises unless occupations are integers and the 2p arguments are either all absent or complete with n2p=6; otherwise it returns U_dd*n3d-c, respectively [U_dd*n3d+6*U_pd-c, U_pd*(n3d+1)-c].", "quantifier": "all argument combinations", "why_tests_cant": "all branch combinations and values", "anchors": ["impurityModel/ed/finite.py:dc_MLFT"]}
{"id": "C57", "title": "RIXS.bin round-trips through the plot script", "statement": "Reading RIXS.bin as plotRIXS.py does recovers wIn, wLoss and the summed intensity matrix written by simulate_spectra.", "quantifier": "all mesh sizes and intensities", "why_tests_cant": "all shapes", "anchors": ["impurityModel/ed/spectra.py:simulate_spectra", "impurityModel/plotScripts/plotRIXS.py"]}
{"id": "C58", "title": "Photoemission sum rule", "statement": "For every orbital i and state psi, |c_i psi|^2 + |c_i^+ psi|^2 = |psi|^2; so PS+IPS total weight per orbital equals the norm of the state.", "quantifier": "every orbital and state", "why_tests_cant": "all states", "anchors": ["impurityModel/ed/finite.py:a,c,norm2", "impurityModel/ed/spectra.py:getPhotoEmissionOperators,getInversePhotoEmissionOperators"]}
{"id": "C59", "title": "RIXS hands normalised states to getGreen", "statement": "In getRIXSmap the vector psi3 passed to getGreen has norm one, as the Lanczos recursion there requires.", "quantifier": "every intermediate state, outgoing operator and slaterWeightMin", "why_tests_cant": "small amplitudes are dropped after the normalisation, which is invisible for the cut-offs used in examples", "anchors": ["impurityModel/ed/spectra.py:getRIXSmap", "impurityModel/ed/spectra.py:getGreen"]}
{"id": "C60", "title": "RIXS map is the Kramers-Heisenberg expression", "statement": "With an exact linear solver, an exact square root, a complete Krylov space and no cut-off, gs[iE,tIn,tOut,iwIn,k] = <psi3|(wLoss_k+e+i delta2-H)^-1|psi3> with psi3 = tOut (wIn+e+i delta1-H)^-1 tIn |psi>, for the first outgoing operator.", "quantifier": "every Hermitian operator, restrictions, states, meshes, rank count and mode", "why_tests_cant": "all operators and meshes; the exact value is not available to a test", "anchors": ["impurityModel/ed/spectra.py:getRIXSmap"]}
{"id": "C61", "title": "Angular momentum algebra of the 3d operators", "statement": "[L+,L-]=2Lz, [Lz,L+-]=+-L+-, the same for S, and every component of L commutes with every component of S, when the functions applyLz3d, applyLplus3d, ... are applied one after the other.", "quantifier": "every system with a 3d shell, every state", "why_tests_cant": "operator identities on all states; a wrong ladder coefficient for one m is invisible for most states", "anchors": ["impurityModel/ed/finite.py:applyLz3d,applyLplus3d,applyLminus3d,applySz3d,applySplus3d,applySminus3d"]}
{"id": "C62", "title": "Printed thermal averages are Boltzmann means of expectation values", "statement": "printThermalExpValues prints, for E-E0, N, the eg and t2g occupations, Lz, Sz, L^2 and S^2 of the 3d shell, the Boltzmann mean of the quantum-mechanical expectation values over exactly the eigenstates with E-E0 < cutOff*k_B*T; the four occupations add up to N and 0 <= N <= 10.", "quantifier": "every system with a 3d shell, all energies and states, T and cutOff with cutOff*k_B*T > 0", "why_tests_cant": "all states and energies; several observables are averaged by separate calls and could be exchanged unnoticed", "anchors": ["impurityModel/ed/finite.py:printThermalExpValues", "impurityModel/ed/average.py:thermal_average"]}
{"id": "C63", "title": "RIXS map does not depend on the number of ranks", "statement": "getRIXSmap returns the same map for every number of MPI ranks, every parallelization mode and every iteration order of Python sets.", "quantifier": "every operator, state, mesh, linear solver, krylovSize and slaterWeightMin", "why_tests_cant": "two runs with different rank counts are rarely compared; the caches of the outgoing operators are filled differently on every rank", "anchors": ["impurityModel/ed/spectra.py:getRIXSmap", "impurityModel/ed/finite.py:applyOp"]}
{"id": "C64", "title": "Green's function does not depend on the storage order of psi", "statement": "getGreen returns the same value or exception on rank 0 for two dictionaries psi with the same items inserted in different orders, whatever the number of ranks, the order of sets and the stored h_dict.", "quantifier": "every operator, psi, permutation of psi, mesh and krylovSize", "why_tests_cant": "all permutations; the basis and all matrices are built in insertion order", "anchors": ["impurityModel/ed/spectra.py:getGreen", "impurityModel/ed/finite.py:expand_basis_and_hamiltonian", "impurityModel/ed/greens_function.py"]}
{"id": "C65", "title": "Every run writes an initial part of a fixed list of outputs", "statement": "The outputs of get_spectra.main on rank 0 (printed tables, hdf5 datasets, text files, RIXS.bin) are an initial part of one fixed list of 23 outputs in a fixed order; the list is complete exactly if rank 0 ends without exception.", "quantifier": "every Hamiltonian function, argument list, mesh, number of ranks >= 1, set order and result of the eigen- and linear solvers", "why_tests_cant": "the order must hold also for runs that stop with an exception anywhere on any rank", "anchors": ["impurityModel/ed/get_spectra.py:main", "impurityModel/ed/spectra.py:simulate_spectra"]}
{"id": "C66", "title": "Format and sign of everything that is written", "statement": "Every text file has the mesh, the total and exactly one column per transition operator (10 for PS, 6 for XPS, one per q for NIXS, one per polarization for XAS), all of the length of the mesh; the total is the sum of the columns and every intensity is >= 0.  The datasets are real and >= 0, and RIXS.bin consists of the header and one row of len(wIn)+1 numbers per energy loss, intensities >= 0.", "quantifier": "every Hamiltonian function, arguments with positive widths, mesh, number of ranks, set order and result of the eigen- and linear solvers", "why_tests_cant": "a sign or shape error in one of five spectra would need a full run per spectrum, and tests compare single cases", "anchors": ["impurityModel/ed/get_spectra.py:main", "impurityModel/ed/spectra.py:simulate_spectra", "impurityModel/ed/spectra.py:getSpectra", "impurityModel/ed/spectra.py:getRIXSmap"]}
{"id": "C67", "title": "Printed thermal averages are those at the temperature T", "statement": "get_spectra.main prints the thermal averages at the temperature given by the argument T.", "quantifier": "every Hamiltonian and argument list", "why_tests_cant": "the default T of printThermalExpValues equals the default of the command line, so runs with default arguments look right", "anchors": ["impurityModel/ed/get_spectra.py:main", "impurityModel/ed/finite.py:printThermalExpValues"]}
{"id": "C68", "title": "Printed product states are those of largest weight", "statement": "For every eigenstate the nPrintSlaterWeights largest weights are printed in descending order, each with its own product state (without trailing zero bytes).", "quantifier": "every list of states, every nPrintSlaterWeights and every sorting permutation", "why_tests_cant": "all ties and orders; the weights and the states are permuted separately", "anchors": ["impurityModel/ed/get_spectra.py:main"]}
{"id": "C69", "title": "Arguments that pass the checks give a Hamiltonian basis", "statement": "Arguments accepted by the assertions of the command line lead to a basis and restrictions without exception.", "quantifier": "every argument list", "why_tests_cant": "the space of argument lists is large", "anchors": ["impurityModel/ed/get_spectra.py:main", "impurityModel/ed/get_spectra.py:get_hamiltonian_operator", "impurityModel/ed/finite.py:get_basis"]}
{"id": "C70", "title": "The whole program does not depend on the number of MPI ranks", "statement": "Two runs of get_spectra.main (or get_spectra_using_CF.main) with the same arguments but different numbers of ranks and different orders of the sets write exactly the same output; either both complete or both stop, and in a complete run every rank completes.", "quantifier": "all numbers of ranks >= 1, all set orders, every Hamiltonian file, every sound argument list with non-zero widths for which the first outgoing dipole operator has no element below slaterWeightMin", "why_tests_cant": "tests run on one or a few ranks; the order of a set depends on hashes and on the distribution over the ranks", "anchors": ["impurityModel/ed/get_spectra.py:main", "impurityModel/ed/spectra.py:simulate_spectra", "impurityModel/ed/spectra.py:getSpectra", "impurityModel/ed/spectra.py:getRIXSmap", "impurityModel/ed/finite.py:eigensystem"]}
{"id": "C71", "title": "A rank waits for ever only if another rank has raised", "statement": "If in a run of the program (or of getGreen, getSpectra, getRIXSmap, eigensystem, get_hamiltonian_matrix, in any mode) some rank waits for ever in a collective operation, then another rank has ended with an exception; the ranks never disagree about which collective operation comes next. On one rank nothing waits. All ranks complete or none does.", "quantifier": "every input, every number of ranks, every set order; no hypothesis on the operators", "why_tests_cant": "needs every interleaving and every failing input on every number of ranks; a hang has no output to compare", "anchors": ["impurityModel/ed/get_spectra.py:main", "impurityModel/ed/spectra.py:getGreen", "impurityModel/ed/spectra.py:getSpectra", "impurityModel/ed/spectra.py:getRIXSmap", "impurityModel/ed/finite.py:eigensystem", "impurityModel/ed/finite.py:get_tridiagonal_krylov_vectors", "impurityModel/ed/finite.py:expand_basis_and_hamiltonian"]}
{"id": "C72", "title": "A truncated Lanczos run keeps the first 2k moments of the spectrum", "statement": "For every krylovSize, also one far smaller than the Hilbert space (the program uses 150), the computed Green's function is <psi|psi> <0|(z-T)^-1|0> with one k x k tridiagonal matrix T, k = min(krylovSize, number of reachable product states), whose first 2k moments <psi|psi><0|T^p|0> equal <psi|H^p|psi>: total weight, mean energy, width and so on are exact. It is the exact resolvent once krylovSize reaches the number of reachable product states. The bound 2k is sharp.", "quantifier": "every Hermitian operator, restrictions, start state, mesh, krylovSize; serial and distributed Lanczos; getGreen, getSpectra (both modes), getRIXSmap (all modes)", "why_tests_cant": "the exact spectrum is not available when krylovSize is too small, so a test has nothing to compare with", "anchors": ["impurityModel/ed/finite.py:get_tridiagonal_krylov_vectors", "impurityModel/ed/spectra.py:getGreen", "impurityModel/ed/spectra.py:getSpectra", "impurityModel/ed/spectra.py:getRIXSmap"]}
{"id": "C73", "title": "Every written spectrum is the thermal mean of Green's functions of the program's own states", "statement": "Each text file of a run (PS.dat, XPS.dat, NIXS.dat, XAS.dat) has the mesh, one column per transition operator and their sum; the column of operator T is the Boltzmann mean at the given temperature, over the states kept by the energy cut, of -Im <psi|T+ (w + i delta + e - H)^-1 T|psi> (XAS, NIXS), of Im <psi|T+ (-w - i delta + e - H)^-1 T|psi> (XPS), or of the sum for removal and addition (PS), where H is the restricted Hamiltonian. The approximations are only these: matrix elements and amplitudes of weight below slaterWeightMin may be left out of T|psi>, and at most 150 Lanczos vectors are used (the first moments are kept; the value is exact if at most 150 product states can be reached).", "quantifier": "every Hamiltonian file, sound argument list, mesh, number of ranks, order of the sets, and every result of the diagonalisation", "why_tests_cant": "a test compares with one stored spectrum; the values depend on all inputs", "anchors": ["impurityModel/ed/get_spectra.py:main", "impurityModel/ed/spectra.py:simulate_spectra", "impurityModel/ed/spectra.py:getSpectra", "impurityModel/ed/spectra.py:getGreen", "impurityModel/ed/average.py:thermal_average"]}
{"id": "C74", "title": "RIXS.bin has thermal means of the Kramers-Heisenberg expression", "statement": "If getRIXSmap is reached, RIXS.bin holds the incoming mesh, the energy-loss mesh and one value per pair; each value is, rounded to single precision, the sum over the incoming and outgoing polarisations of the Boltzmann mean, over the states kept by the energy cut, of -Im <psi3|(w_loss + i delta2 + e - H)^-1|psi3> with psi3 = T_out (w_in + i delta1 + e - H)^-1 T_in|psi>. The approximations are these: elements of weight below slaterWeightMin may be left out when T_in and T_out are applied, the first outgoing operator is used for all (the shared cache), the linear system is solved as well as the solver does, and at most 150 Lanczos vectors are used. The formula holds where psi3 has no product state of relative weight below slaterWeightMin.", "quantifier": "every Hamiltonian file, sound argument list, mesh, number of ranks, order of the sets, result of the diagonalisation and every sound linear solver", "why_tests_cant": "a test compares with one stored map; the values depend on all inputs", "anchors": ["impurityModel/ed/get_spectra.py:main", "impurityModel/ed/spectra.py:simulate_spectra", "impurityModel/ed/spectra.py:getRIXSmap", "impurityModel/ed/spectra.py:getGreen", "impurityModel/ed/average.py:thermal_average"]}
{"id": "C75", "title": "The Hamiltonian has the rotational symmetries it should have", "statement": "The Coulomb interaction commutes with every rotation of the spin, whatever the Gaunt coefficients are, and with L+, L- and Lz if the coefficients c^k are tensor operators; the spin-orbit coupling commutes with J+, J- and Jz; the field commutes with the rotations about its axis. The total Hamiltonian (with double counting and h0) therefore commutes with the total spin without spin-orbit coupling and field, with L without spin-orbit coupling, with J without field, whenever h0 does; its eigenstates form multiplets.", "quantifier": "all Slater-Condon parameters, couplings, fields, all shells, all h0 with that symmetry, all Fock states, any matrix of the rotation on the bath", "why_tests_cant": "a commutator has to vanish on the whole Fock space and for every value of the parameters", "anchors": ["impurityModel/ed/finite.py:getUop", "impurityModel/ed/finite.py:getU", "impurityModel/ed/finite.py:gauntC", "impurityModel/ed/finite.py:getSOCop", "impurityModel/ed/finite.py:gethHfieldop", "impurityModel/ed/get_spectra.py:get_hamiltonian_operator"]}
{"id": "C76", "title": "The printed quantities, the meshes and the accepted command lines are the documented ones", "statement": "Before the spectra a run prints: the Boltzmann means at 300 K, for every eigenstate one row E-E0, N, the occupations of e_g and t_2g with spin down and up, Lz, Sz, L^2, S^2 which are the expectation values of these operators in the state, its product states with the largest weights, and exactly those elements of its density matrix in cubic harmonics that are larger than tolPrintOccupation in absolute value; it stores the energies and the three meshes. The meshes have 3000, 4000 and 50 equally spaced points from -25 to 25, -2 to 12 and -10 to 20, the polarisations are the unit vectors, and the momentum transfers have lengths 2 and 7 along (1,1,1). The checks of get_spectra.py accept exactly the arguments with the documented lengths and ranges; those of get_spectra_using_CF.py also demand the shells 1, 2 with 10 or 20 bath states, 10 of them in the valence bath.", "quantifier": "for all eigenstates, Hamiltonians, tolerances, arguments and numbers of ranks; for all meshes np.linspace(a, b, n) with n > 1", "why_tests_cant": "A test compares printed numbers of one calculation with stored ones; a swapped column or a threshold on the square instead of the absolute value is only seen for states that distinguish them.", "anchors": ["impurityModel/ed/finite.py:121-174", "impurityModel/ed/get_spectra.py:93-113", "impurityModel/ed/get_spectra.py:205-262", "impurityModel/ed/get_spectra.py:578-590", "impurityModel/ed/get_spectra_using_CF.py:795-798"]}
{"id": "C77", "title": "The figures of the plot scripts show the numbers of the files of the run", "statement": "After a complete run with one or with at least three incoming and two outgoing polarisations, plotSpectra.py raises nothing and shows: the total spectra of PS.dat, XPS.dat and XAS.dat on the stored mesh; together with the latter the fluorescence yield and the yield at losses below 0.2, which are the integrals of the RIXS intensity over the energy loss divided by pi and the number of incoming polarisations; the NIXS curve of every momentum transfer, labelled with its length; RIXS curves at the incoming energies of the mesh nearest to -7...1 and 11...15, shifted upwards in order of the energy; the RIXS map summed over the polarisations, which is the table in RIXS.bin, and the maps of all pairs of polarisations, with pixels of one step around the mesh points and no colour below 1e-6. plotRIXS.py reads RIXS.bin and shows that table.", "quantifier": "for all runs (Hamiltonian, arguments, meshes of at least two points, ranks, numerical libraries); unconditionally for the runs of the two programs", "why_tests_cant": "Figures are looked at and not compared by tests; a transposed axis, a sum over the wrong axis or a wrong label still gives a plausible picture.", "anchors": ["impurityModel/plotScripts/plotSpectra.py:15-219", "impurityModel/plotScripts/plotRIXS.py:25-52"]}
{"id": "C78", "title": "plotSpectra.py can plot the file of any complete run", "statement": "For every complete run with at least one incoming and one outgoing polarisation plotSpectra.py shows all its figures without an exception.", "quantifier": "for all meshes of at least two points and all numbers of polarisations", "why_tests_cant": "The programs always use three polarisations, so no test plots another number.", "anchors": ["impurityModel/plotScripts/plotSpectra.py:165-219"]}
{"id": "C79", "title": "The Hamiltonian is time-reversal symmetric up to the field, and its levels with an odd number of electrons are Kramers pairs", "statement": "Time reversal on the Fock space (impurity state l, s, m goes to l, 1-s, -m with the phase (-1)^m times +1 for spin up and -1 for spin down, bath states to their partners, amplitudes to their conjugates) is antiunitary with square (-1)^N. It leaves the spin-orbit coupling and the Coulomb interaction unchanged and reverses the magnetic field, so the Hamiltonian becomes the one in the opposite field if h0 does. The crystal-field Hamiltonian does so for every value of its parameters, with spherical or cubic bath. Hence in zero field each of its eigenvectors with an odd number of electrons has an orthogonal partner with the same energy and norm.", "quantifier": "for all Slater integrals, spin-orbit couplings, fields, crystal-field parameters, bath sizes 10 and 20, eigenvectors and energies", "why_tests_cant": "A degeneracy of computed energies is only seen up to the tolerance of the diagonalisation and for the parameters tried; a wrong phase in the hopping to the bath splits pairs by amounts that look like numerical noise.", "anchors": ["impurityModel/ed/finite.py:getUop", "impurityModel/ed/finite.py:gauntC", "impurityModel/ed/finite.py:getSOCop", "impurityModel/ed/finite.py:gethHfieldop", "impurityModel/ed/get_spectra.py:get_hamiltonian_operator", "impurityModel/ed/get_spectra_using_CF.py:get_hamiltonian_operator_using_CF", "impurityModel/ed/get_spectra_using_CF.py:get_CF_hamiltonian"]}
{"id": "C80", "title": "The numbers on the command line reach the calculation unchanged", "statement": "A command line with two file names followed by documented options with values is accepted if and only if every value is a number of the documented kind, and then every argument of main is the value given last for that option, or the documented default. A missing or third file name, an unknown option, and -h end the program before anything is computed. If the arguments pass the checks, main is called with them and the contents of the two files; otherwise every process ends with an exception and nothing is written. The Hamiltonian is built from exactly these Slater integrals, spin-orbit parameters, charge-transfer correction, field components and occupations.", "quantifier": "for all file names, all sequences of options and values, all results of int() and float(), both programs", "why_tests_cant": "The tests of the repository call main with fixed arguments and never parse a command line; an option passed on to the wrong parameter (xi_2p for xi_3d) gives a plausible spectrum.", "anchors": ["impurityModel/ed/get_spectra.py:426-618", "impurityModel/ed/get_spectra_using_CF.py:630-826"]}
{"id": "C81", "title": "The Coulomb interaction without spin and the printed Gaunt table agree with the interaction used", "statement": "getNoSpinUop gives c_m1^+ c_m2^+ c_m3 c_m4 the same coefficient, with the factor 1/2, as getUop gives the same orbitals with any pair of spins that is conserved, and the same orbitals occur; exchanging the two electrons does not change it. printGaunt prints on rank 0 one line for each pair of orbitals, with the coefficients c^k of exactly the multipoles 0..l+l', and nothing on other ranks.", "quantifier": "for all angular momenta, lists of Slater integrals, Gaunt coefficients, ranks", "why_tests_cant": "getNoSpinUop and printGaunt are not called by any test; a lost factor 1/2 is only visible in a comparison with getUop.", "anchors": ["impurityModel/ed/finite.py:537-626"]}
{"id": "C82", "title": "Time-reversed states have the same spectra, and there is no circular dichroism without a field", "statement": "Time reversal takes the dipole transition with D1 + c D2 to that with D1 + conj(c) D2, removal or addition of an electron to the same with opposite spin and momentum, and each NIXS operator to itself up to a sign. So the spectrum of a state in a field equals the spectrum of the reversed state in the opposite field, with the circular polarisations exchanged. Without field the two states of a Kramers pair together absorb both circular polarisations alike.", "quantifier": "for all Slater integrals, spin-orbit couplings, fields, crystal-field parameters, polarisation vectors, momenta q, complex frequencies z and state vectors", "why_tests_cant": "Dichroism that should vanish appears in a computed spectrum only as a small difference mixed with noise from the truncated basis, and no test computes circular polarisations.", "anchors": ["impurityModel/ed/spectra.py:341-382", "impurityModel/ed/spectra.py:437-548", "impurityModel/ed/finite.py:getUop", "impurityModel/ed/finite.py:getSOCop", "impurityModel/ed/finite.py:gethHfieldop", "impurityModel/ed/get_spectra.py:get_hamiltonian_operator", "impurityModel/ed/get_spectra_using_CF.py:get_hamiltonian_operator_using_CF"]}
{"id": "C83", "title": "The spectrum summed over three perpendicular polarisations does not depend on the axes", "statement": "The dipole operator is linear in the polarisation vector, so the sum of the Green's functions of three perpendicular polarisations of length one is the same for every choice of the three. This holds for the exact response of any state and any operator, and for the values returned by getSpectra with a full Krylov space and no cut-off, with or without restrictions of the occupations.", "quantifier": "for all pairs of orthonormal triads over an ordered field, Gaunt coefficients, Hermitian operators, states, frequencies, numbers of ranks and set orders", "why_tests_cant": "The tests use the three axes only; an operator that is wrong for oblique polarisations (for example |n_y| instead of n_y) passes them.", "anchors": ["impurityModel/ed/spectra.py:302-382", "impurityModel/ed/spectra.py:551-806"]}
{"id": "C84", "title": "Every spectrum probes one electron number and one number of core holes", "statement": "The configurations reached by expand_basis, the Krylov space and the Green's function stay in the sector of the start vector for every quantum number the Hamiltonian conserves, and depend only on the matrix elements within it. The Hamiltonian of the program conserves the number of electrons and the number of 2p electrons, always with the crystal field and for an unpickled h0 that conserves them. So with [1, 2] shells and no tolerance for 2p, all eigenstates have n0(2p) + n0(3d) + sum of nValBaths electrons with n0(2p) in 2p, and the final states differ by (0, -1) for XAS, (0, +1) for the outgoing RIXS operators, (-1, 0) and (+1, 0) for PS, (-1, -1) for XPS and (0, 0) for NIXS.", "quantifier": "for all parameters, crystal fields, shells, baths, eigensolvers, frequencies, restrictions and cut-offs", "why_tests_cant": "A term that leaks electrons between sectors gives only small amplitudes of wrong configurations, which no test looks for; the tests compare spectra with reference data for one system.", "anchors": ["impurityModel/ed/spectra.py:302-548", "impurityModel/ed/spectra.py:684-806", "impurityModel/ed/finite.py:expand_basis", "impurityModel/ed/get_spectra.py:get_hamiltonian_operator", "impurityModel/ed/get_spectra_using_CF.py:get_hamiltonian_operator_using_CF", "impurityModel/ed/get_spectra_using_CF.py:get_CF_hamiltonian"]}
{"id": "C85", "title": "The file data.npz determines the spectra of the run", "statement": "data.npz is written if and only if spectra.h5 is opened and gets its first dataset. Two runs with the same meshes, the same data.npz and the same radial function write the same files and end in the same way on every rank, whatever their arguments, their Hamiltonian file and their printing options were; with another radial function all files but those of NIXS are the same. The saved operator is over the saved number of spin-orbitals, which belongs to the saved bath sizes.", "quantifier": "for all arguments, Hamiltonians, meshes, radial functions, eigensolvers, numbers of ranks and set orders", "why_tests_cant": "No test opens data.npz; an array that is missing from the file (or saved before it is changed) is noticed only when someone tries to reproduce a calculation.", "anchors": ["impurityModel/ed/get_spectra.py:254-289", "impurityModel/ed/get_spectra_using_CF.py:254-289"]}
{"id": "C86", "title": "A new run with the arguments saved in data.npz gives the same spectra", "statement": "Calling main with the numbers stored in data.npz repeats the calculation. False: energy_cut is saved after it has been multiplied by k_B*T, so the new run cuts at another energy and may keep fewer states. True after division of the saved value by k_B*T: the arguments are then exactly those of the first run.", "quantifier": "for all sound arguments, temperatures with k_B*T not zero, Hamiltonians, eigensolvers", "why_tests_cant": "No test reads data.npz back; the second run completes without any message and gives plausible spectra of fewer states.", "anchors": ["impurityModel/ed/get_spectra.py:94", "impurityModel/ed/get_spectra.py:254-289", "impurityModel/ed/get_spectra_using_CF.py:254-289"]}
{"id": "C87", "title": "The dipole operators obey the sum rules of x-ray absorption", "statement": "For a state with a full 2p shell, the integrated absorption summed over three perpendicular polarisations is A^2 times the number of holes in 3d, the difference of the integrated absorption of the two circular polarisations about z is -A^2 times <L_z> of 3d, and six times that for linear polarisation along z is A^2 times (20 - <sum (4-m^2) n_m>); A is the coefficient <2 2|C^1_1|1 1>. The same holds for the squared norms of the states that applyOp returns without cut-off, with the hole count of getTraceDensityMatrix and the value of getLz3d.", "quantifier": "for all states with full 2p shell (any 3d and bath occupations, any superposition), orthonormal triads, bath sizes, and restrictions that allow the final states", "why_tests_cant": "The tests compare spectra with stored numbers for one material; a wrong relative sign or weight of two components of the dipole operator keeps the shape of the isotropic spectrum and is seen only in the dichroism, which no test computes.", "anchors": ["impurityModel/ed/spectra.py:341-382", "impurityModel/ed/finite.py:gauntC", "impurityModel/ed/finite.py:getTraceDensityMatrix", "impurityModel/ed/finite.py:getLz3d", "impurityModel/ed/finite.py:applyOp"]}
{"id": "C88", "title": "The averaged spectra do not depend on the choice of the eigenstates of a degenerate level", "statement": "If two orthonormal sets of states with the same energies span, for each energy, the same space (as two complete sets of eigenstates do), then the Boltzmann means of every operator, of every response and of the Kramers-Heisenberg expression agree, and simulate_spectra writes the same XAS, NIXS, XPS, PS and RIXS files for both (full Krylov space, no cut-off, with restrictions, for different numbers of ranks and orders). Refuted for incomplete levels: with fewer states than the level has (small nPsiMax) the written spectrum depends on the choice.", "quantifier": "for all levels and degeneracies, unitary changes of the states within levels, Hermitian operators, transition operators, meshes, temperatures with k_B*T not zero, ranks and set orders", "why_tests_cant": "eigsh returns an arbitrary basis of each degenerate level (random start vector); tests with one machine and one stored result see one choice.", "anchors": ["impurityModel/ed/spectra.py:36-299", "impurityModel/ed/average.py:27-60", "impurityModel/ed/finite.py:62-118", "impurityModel/ed/get_spectra.py:94"]}
{"id": "C89", "title": "Without symmetry-breaking terms x-ray absorption does not depend on the polarisation", "statement": "If the Hamiltonian commutes with the rotations (J = L + S, or L, of the shells together with any matching rotation of the baths) and the averaged states are complete multiplets, the averaged XAS is the same for all linear polarisations of the same length and for both circular polarisations; simulate_spectra then writes equal columns for them. Complete levels of a symmetric Hamiltonian are complete multiplets, occupation restrictions on sets of orbitals that the rotations do not leave keep the symmetry, and the Hamiltonian of the program without field has it if h0 has. Refuted for incomplete multiplets: one state of p6 d9 alone absorbs the circular polarisations differently.", "quantifier": "for all symmetric Hamiltonians, multiplets, weights that depend on the energy, polarisation vectors, bath sizes, restrictions that respect the rotations, meshes, ranks and set orders", "why_tests_cant": "The tests use one material with a crystal field and stored numbers; a wrong component of the dipole operator or of the Coulomb interaction that breaks rotational symmetry gives plausible spectra.", "anchors": ["impurityModel/ed/spectra.py:341-382", "impurityModel/ed/spectra.py:36-144", "impurityModel/ed/get_spectra.py:get_hamiltonian_operator", "impurityModel/ed/finite.py:gauntC", "impurityModel/ed/finite.py:getUop", "impurityModel/ed/finite.py:getSOCop"]}
{"id": "C90", "title": "Levels that are shifted together shift the spectra rigidly", "statement": "Adding c times the electron number of a conserved group of orbitals (all orbitals, or the 2p shell) to h0 adds exactly this operator to the Hamiltonian of the program. Eigenstates stay eigenstates, a state with charge q gains the energy q c, and every spectrum is the old one on a shifted energy axis: transitions that change the charge by d are shifted by d c (absorption), -d c (emission), both photoemission branches by d c, RIXS by d_in c in the incoming energy and by (d_in + d_out) c in the energy loss; the written intensities are equal. In particular raising the 2p levels by c moves XAS.dat by -c, and raising all levels by c leaves XAS.dat as it is.", "quantifier": "for all Hermitian operators that conserve the charge, shifts c, states with definite charge, transition operators with definite change of the charge, restrictions, meshes, temperatures with k_B*T not zero, ranks and set orders; no matrix elements below the cut-off 1e-12", "why_tests_cant": "The tests have one Hamiltonian each; a wrong sign of the energy of the initial state or of the axis in one of the spectra shifts a spectrum by an amount that looks like another choice of the energy zero.", "anchors": ["impurityModel/ed/spectra.py:36-299", "impurityModel/ed/get_spectra.py:get_hamiltonian_operator", "impurityModel/ed/get_spectra.py:366-418", "impurityModel/ed/finite.py:addOps", "impurityModel/ed/average.py:27-60"]}
{"id": "C91", "title": "The spectra do not depend on the choice of the bath orbitals", "statement": "A unitary change u of the orbitals induces a map of the many-electron states that keeps inner products, leaves operators of the unturned orbitals as they are and takes a one-particle operator h to u h u^+. If only bath orbitals are turned, and the sets of the occupation restrictions are not mixed, the Hamiltonian built from the turned h0 has the same levels, with turned eigenstates, and simulate_spectra writes the same XAS, NIXS, XPS, PS and RIXS files for both. In particular the crystal-field program gives the same spectra with bath_state_basis 'cubic' and 'spherical': its two Hamiltonians differ by turning each group of five bath orbitals by get_spherical_2_cubic_matrix, the restrictions of main do not mix the orbitals, and all transition operators act on the impurity only.", "quantifier": "for all unitary matrices that keep the impurity orbitals, Hamiltonians of the program, crystal-field parameters, 10 or 20 bath states, restrictions, complete sets of eigenstates, meshes, temperatures with k_B*T not zero, ranks and set orders; full Krylov space, no matrix elements below the cut-off 1e-12", "why_tests_cant": "The option bath_state_basis is never tested, and no test compares two equivalent sets of bath orbitals; a missing conjugation or transposition in the hybridisation changes the physics but gives a Hermitian operator and plausible spectra.", "anchors": ["impurityModel/ed/get_spectra_using_CF.py:433-560", "impurityModel/ed/get_spectra_using_CF.py:get_hamiltonian_operator_using_CF", "impurityModel/ed/finite.py:get_spherical_2_cubic_matrix", "impurityModel/ed/spectra.py:36-299", "impurityModel/ed/spectra.py:302-548"]}
{"id": "C92", "title": "Energies in another unit give the same spectra", "statement": "If all energies of the input (Slater-Condon parameters, spin-orbit couplings, charge-transfer correction, field, h0 or a complete file of crystal-field parameters, meshes, broadenings, k_B*T) are multiplied by x, the program builds x times the Hamiltonian (or raises the same error), with the same eigenstates and x times the energies; it keeps the same states, prints the same thermal averages (the energy times x), and writes the same files on the multiplied energy axis with intensities divided by x (XAS, NIXS, XPS, PS) or x^3 (RIXS map). An entry that is missing in the file of crystal-field parameters is an exception (refuted): its default is a number of electron volts.", "quantifier": "for all parameters, bath sizes, h0, factors x not zero (positive for selection and averages), Hermitian operators, states, transition operators, restrictions, meshes, temperatures with k_B*T not zero, ranks and set orders; full Krylov space, no matrix elements below the cut-off 1e-12", "why_tests_cant": "A test has one set of parameters; a term of the Hamiltonian, of the double counting or of the Green's functions with wrong physical dimension (an energy added to a number, a forgotten factor) shows only when two scales are compared.", "anchors": ["impurityModel/ed/get_spectra.py:get_hamiltonian_operator", "impurityModel/ed/get_spectra_using_CF.py:get_hamiltonian_operator_using_CF", "impurityModel/ed/get_spectra_using_CF.py:get_CF_hamiltonian", "impurityModel/ed/get_spectra_using_CF.py:read_h0_CF_file", "impurityModel/ed/finite.py:getUop", "impurityModel/ed/finite.py:getSOCop", "impurityModel/ed/finite.py:dc_MLFT", "impurityModel/ed/finite.py:printThermalExpValues", "impurityModel/ed/spectra.py:36-299", "impurityModel/ed/average.py:27-60"]}
{"id": "C93", "title": "Without interaction PS.dat is the one-particle spectral function", "statement": "If all Slater integrals vanish, the Hamiltonian of the program is sum_ij h_ij c_i^+ c_j. For every eigenstate, whatever its number of electrons, inverse photoemission minus photoemission of an orbital is the diagonal element of the inverse of the Hermitian matrix w + i delta - h, which exists. So each column of PS.dat is -Im of this element, for every set of eigenstates, temperature, restriction that leaves room for one electron more and less, number of ranks and set order, and two runs with different ones of these write the same file. When the 2p shell is full in all states, XPS.dat is likewise -Im of the diagonal elements of the 2p orbitals. The same holds for the crystal-field variant of the Hamiltonian.", "quantifier": "for all one-particle matrices, numbers of orbitals, normalised eigenstates, restrictions, meshes, broadenings not zero, temperatures with k_B*T not zero, ranks and set orders; full Krylov space, no matrix elements below the cut-off 1e-12", "why_tests_cant": "It ties the many-electron code (bit strings, signs of ladder operators, applyOp, Lanczos, two Green's functions on two axes with two signs of delta) to the inverse of a small matrix; a fermionic sign error or a wrong sign of an axis cancels in tests that compare with stored output of the same code.", "anchors": ["impurityModel/ed/spectra.py:126-163", "impurityModel/ed/spectra.py:511-548", "impurityModel/ed/get_spectra.py:get_hamiltonian_operator", "impurityModel/ed/finite.py:getUop", "impurityModel/ed/finite.py:applyOp", "impurityModel/ed/spectra.py:684-760", "impurityModel/ed/average.py:27-60"]}
{"id": "C94", "title": "An orbital index outside the system is rejected", "statement": "Creating or removing an electron in an orbital that does not exist, with an index below 0 or not below the number n of orbitals, raises an exception in each of the five representations, and never gives something that is not a product state of the system. (False: too high an index is rejected by all but the functions for tuples; a negative index counts from the end for strings, bit arrays and bytes, gives a string of twice the length for -1, a bit beyond the system for integers, and a negative entry for tuples.)", "quantifier": "for all n, product states, representations and integer indices outside 0..n-1", "why_tests_cant": "The code does not check the index; what happens follows from Python's negative indices and slices and differs between the representations, while tests use valid indices only.", "anchors": ["impurityModel/ed/create.py", "impurityModel/ed/remove.py"]}
{"id": "C95", "title": "Without interaction XPS.dat has the lines 2p3/2 and 2p1/2", "statement": "If all Slater integrals vanish, the 2p orbitals have the same energy e in h0 and no hopping, and the 2p shell is full in all states, every column of XPS.dat is a sum of two Lorentzians of half width delta: at e + c + xi_2p/2 with the share of the orbital in j = 3/2, and at e + c - xi_2p with its share in j = 1/2, where c is the charge-transfer correction. The shares are (2 + m)/3 and (1 - m)/3 for spin up, (2 - m)/3 and (1 + m)/3 for spin down. The sum column has four times the first and twice the second line, whatever the 3d shell, the bath, the states and the temperature are. In the crystal-field variant e = 0.", "quantifier": "for all h0, bath sizes, couplings, fields, normalised eigenstates with full 2p shell, restrictions with room for one electron more and less, meshes, broadenings not zero, temperatures with k_B*T not zero, ranks and set orders; full Krylov space, no matrix elements below the cut-off 1e-12", "why_tests_cant": "The position, the order and the intensities of the two lines follow from spin-orbit factors, the sign of the energy axis, the double counting and the sign of delta together; tests of the stored output cannot tell whether they are right.", "anchors": ["impurityModel/ed/get_spectra.py:366-418", "impurityModel/ed/finite.py:getSOCop", "impurityModel/ed/finite.py:dc_MLFT", "impurityModel/ed/finite.py:eDCop", "impurityModel/ed/spectra.py:126-142", "impurityModel/ed/spectra.py:511-548", "impurityModel/ed/average.py:27-60"]}
{"id": "C96", "title": "Closed and empty shells: files of zeros, no exception", "statement": "If no product of ladder operators of the transition operators leads anywhere from the product states of the given states, every rank writes the mesh and columns of zeros, and nothing is divided by the norm of the empty state. This is so for XAS.dat if the 3d shell is full or the 2p shell is empty in all states, for NIXS.dat if the 3d shell is empty, and for XPS.dat if the 2p shell is empty. PS.dat is the removal part alone (with its errors, if any) if the 3d shell is full, and the addition part alone if it is empty.", "quantifier": "for all Hamiltonians, broadenings (not zero for PS), sizes of the Krylov space, cut-offs, restrictions, states, energies, meshes, polarisations or momentum transfers, temperatures with k_B*T not zero, ranks and set orders; no condition on the Lanczos iteration", "why_tests_cant": "d10 and d0 compounds are the exceptional case for which getGreen has a branch of its own; the tests have none, and a division by the norm of an empty state or a missing branch would show only there.", "anchors": ["impurityModel/ed/spectra.py:684-760", "impurityModel/ed/spectra.py:609-612", "impurityModel/ed/spectra.py:302-548", "impurityModel/ed/spectra.py:126-299", "impurityModel/ed/finite.py:applyOp"]}
{"id": "C97", "title": "A mode that does not exist is rejected", "statement": "Every function with an argument mode or parallelization_mode raises an exception on every rank, and leaves h_dict unchanged, if the value is not one of those in its description. (False: getRIXSmap has no else branch and returns a map of zeros on every rank, while the four modes that exist give another map; getGreen returns zeros for an empty state before it looks at the mode. True for expand_basis, expand_basis_and_hamiltonian, getSpectra and for getGreen with a state that is not empty.)", "quantifier": "for all other arguments, dictionaries, states, numbers of ranks and set orders", "why_tests_cant": "A misspelt name of a mode in getRIXSmap gives a spectrum of zeros that looks like a forbidden transition; the tests use the modes that exist only.", "anchors": ["impurityModel/ed/spectra.py:809-1130", "impurityModel/ed/spectra.py:551-681", "impurityModel/ed/spectra.py:684-806", "impurityModel/ed/finite.py:1696-1803", "impurityModel/ed/finite.py:expand_basis_and_hamiltonian"]}
{"id": "C98", "title": "Six spectra determine x-ray absorption for every linear polarisation", "statement": "X-ray absorption is a quadratic form of the polarisation e: its value for e is e_x^2 s_x + e_y^2 s_y + e_z^2 s_z + e_x e_y (s_{x+y} - s_x - s_y) + e_x e_z (s_{x+z} - s_x - s_z) + e_y e_z (s_{y+z} - s_y - s_z), where s_x to s_{y+z} are the values of a run with the polarisations x, y, z, x+y, x+z, y+z. So the absorption for -e is that for e, and for c*e it is c^2 times that for e. This holds for every value that getSpectra returns on rank 0 for every column of XAS.dat, and for the RIXS map as a function of the incoming polarisation in all four modes, and the two runs may differ in the number of ranks and the set orders.", "quantifier": "for all lists of polarisations (of any length), bath sizes, Hermitian operators, states, energies, restrictions, meshes, broadenings not zero, temperatures with k_B*T not zero, ranks and set orders; full Krylov space, no cut-off", "why_tests_cant": "A test has one or three polarisations; normalisation of the excited state, its square in the intensity and the caches must fit together for the form to be quadratic, and a lost factor or a cache that mixes operators breaks it only for other polarisations.", "anchors": ["impurityModel/ed/spectra.py:302-382", "impurityModel/ed/spectra.py:684-806", "impurityModel/ed/spectra.py:220-248", "impurityModel/ed/spectra.py:809-1130", "impurityModel/ed/average.py:27-60"]}
{"id": "C99", "title": "A value in a file depends on its own operator and its own mesh point only", "statement": "Take two runs with the same Hamiltonian, states, energies, temperature and broadening whose lists of transition operators, meshes, numbers of ranks and set orders may all differ. If column t of the first run and column t' of the second belong to the same operator, and points k and k' of the meshes are the same energy, the two values in XAS.dat or NIXS.dat, in XPS.dat or in PS.dat are the same. The number, the order and the other members of the operators and the mesh have no effect. (For RIXS this is false: see the property on the outgoing operators, C39.)", "quantifier": "for all Hermitian operators, states, energies, restrictions, pairs of operator lists, pairs of meshes, broadenings not zero, temperatures with k_B*T not zero, numbers of ranks and set orders; full Krylov space, cut-off not positive", "why_tests_cant": "The Hamiltonian dictionary that earlier operators filled is used by the later ones, and the ranks share out operators and states; a value that leaks from one column to another shows only for certain lists.", "anchors": ["impurityModel/ed/spectra.py:684-806", "impurityModel/ed/spectra.py:126-299", "impurityModel/ed/spectra.py:302-548", "impurityModel/ed/average.py:27-60"]}
