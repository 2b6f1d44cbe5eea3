{"id": "C01", "title": "Creation and annihilation succeed exactly on empty / occupied sites", "statement": "cdg(s,pos,n) succeeds iff orbital pos of the 32-bit Fock state s is empty, and then returns s with exactly that orbital filled and every other orbital unchanged; otherwise it raises AssertionError. c(s,pos,n) succeeds iff the orbital is occupied and then returns s with exactly that orbital emptied; otherwise it raises AssertionError. A position that does not fit in the 32-bit word always raises.", "quantifier": "every 32-bit state s, every non-negative position, every n", "why_tests_cant": "the tests try one 7-bit state and two positions; the statement ranges over 2^32 states times positions, including the word boundary", "anchors": ["edpyt/operators.py:flip", "edpyt/operators.py:cdg", "edpyt/operators.py:c"]}
{"id": "C02", "title": "Fermionic sign counts the occupied orbitals above the position", "statement": "The sign returned by cdg and c is (-1)^m, where m is the number of occupied orbitals k with pos<k<n in the input state; it is always +1 or -1.", "quantifier": "every 32-bit state, position and orbital count n", "why_tests_cant": "tests check two literal signs", "anchors": ["edpyt/operators.py:fsgn", "edpyt/operators.py:cdg", "edpyt/operators.py:c"]}
{"id": "C03", "title": "Canonical anticommutation relations", "statement": "Reading a raised AssertionError as the zero vector, the operators implemented by c and cdg satisfy {c_i,c_j^+}=delta_ij, {c_i,c_j}=0 and {c_i^+,c_j^+}=0 on every Fock state of n<=32 orbitals, signs included.", "quantifier": "all n<=32, all orbitals i,j<n, all n-orbital Fock states", "why_tests_cant": "an algebraic law over all pairs of sites and all states; tests check isolated applications", "anchors": ["edpyt/operators.py:c", "edpyt/operators.py:cdg", "edpyt/operators.py:fsgn"]}
{"id": "C04", "title": "One-step hop equals annihilate-then-create", "statement": "Whenever orbital j is occupied and orbital i is empty (so i differs from j), cdgc(s,i,j) returns the same state and the same sign as applying c at j and then cdg at i and multiplying the two signs, for every n covering the state's orbitals.", "quantifier": "all 32-bit states, all i,j<n with j occupied and i empty, all n<=32", "why_tests_cant": "the shortcut computes the sign by a different route (bits strictly between i and j); agreement must hold for every pair and state", "anchors": ["edpyt/operators.py:cdgc", "edpyt/operators.py:get_parity"]}
{"id": "C05", "title": "Creation and annihilation are adjoint", "statement": "cdg(s,i,n) returns (sign,t) if and only if c(t,i,n) returns (sign,s): the matrix of cdg is the transpose of the matrix of c.", "quantifier": "all 32-bit states s and t, all positions i<n<=32", "why_tests_cant": "a relation between two functions over all pairs of states", "anchors": ["edpyt/operators.py:c", "edpyt/operators.py:cdg"]}
{"id": "C06", "title": "check_full/check_empty are the number operator and its complement", "statement": "check_full(s,i) is 1 when cdg(c(s,i),i) succeeds and 0 otherwise; when it is 1 that composition returns s itself with total sign +1; check_empty is always 1-check_full.", "quantifier": "all 32-bit states and positions", "why_tests_cant": "needs every state and position", "anchors": ["edpyt/operators.py:check_full", "edpyt/operators.py:check_empty"]}
{"id": "C07", "title": "Binary search finds exactly the members", "statement": "On every strictly increasing array, binsearch(a,s) returns the unique index k with a[k]==s if s occurs and -1 otherwise; it terminates and never reads outside the array, the empty array included.", "quantifier": "all strictly increasing arrays of any length, all keys", "why_tests_cant": "a loop invariant over arrays of unbounded length", "anchors": ["edpyt/lookup.py:binsearch"]}
{"id": "C08", "title": "Many-body index and spin indices are mutually inverse", "statement": "get_spin_indices and get_state_index are mutually inverse bijections between 0..dup*dwn-1 and pairs (iup<dup, idw<dwn).", "quantifier": "all dup>=1, dwn, all indices in range", "why_tests_cant": "bijection over all dimensions", "anchors": ["edpyt/lookup.py:get_spin_indices", "edpyt/lookup.py:get_state_index"]}
{"id": "C09", "title": "Sector numbers and quantum numbers are mutually inverse, out-of-range ones rejected", "statement": "get_sector_index and get_num_spins are mutually inverse between {0..n}x{0..n} and 0..(n+1)^2-1, and each raises ValueError outside its range.", "quantifier": "all n and all integer arguments (negative included)", "why_tests_cant": "range over all n and all out-of-range values", "anchors": ["edpyt/lookup.py:get_sector_index", "edpyt/lookup.py:get_num_spins"]}
{"id": "C10", "title": "intrep is documented as the inverse of binrep", "statement": "For every i<2^n: intrep(binrep(i,n)) == i (both for the array and the string format). [False of the code: intrep reads the most significant digit first, binrep writes the least significant first, so the composition is bit reversal.]", "quantifier": "all n and all i<2^n", "why_tests_cant": "holds on palindromic inputs, so example tests can pass", "anchors": ["edpyt/lookup.py:binrep", "edpyt/lookup.py:intrep"]}
{"id": "C11", "title": "count_bits is the population count", "statement": "count_bits(s,n) equals the number of occupied orbitals below n; for s<2^n it is the total particle number and equals the number of ones in binrep(s,n).", "quantifier": "all states and all n<=32", "why_tests_cant": "all states", "anchors": ["edpyt/lookup.py:count_bits"]}
{"id": "C12", "title": "generate_states enumerates the whole sector in increasing order", "statement": "For 0<=p<=n<=32 generate_states(n,p) contains every n-bit integer with exactly p bits set, nothing else, each once, in strictly increasing order; its length is binomial(n,p).", "quantifier": "all n<=32, all p<=n, i.e. every sector of every lattice the 32-bit representation allows", "why_tests_cant": "the one test checks n=4,p=2; correctness of the bit-twiddling successor for every sector needs induction", "anchors": ["edpyt/sector.py:generate_states", "edpyt/sector.py:permutations"]}
{"id": "C13", "title": "The sectors partition the Fock space", "statement": "For every n, summing get_sector_dim over all (nup,ndw) gives 4^n, summing the N-symmetry dimensions gives 4^n as well, every pair (sup,sdw) of n-bit states belongs to exactly one sector (nup,ndw), and sector dimension is the product of the two list lengths.", "quantifier": "all n<=32 (dimension identities: all n)", "why_tests_cant": "a combinatorial identity for all n", "anchors": ["edpyt/sector.py:get_sector_dim", "edpyt/espace.py:get_espace_dim", "edpyt/espace.py:build_empty_sector"]}
{"id": "C14", "title": "Ladder moves between sectors are inverse and reject leaving the Hilbert space", "statement": "get_cdg_sector adds exactly one particle of the requested spin and raises OutOfHilbertError iff that spin is full; get_c_sector removes one and raises iff that spin is absent; each undoes the other; any spin index other than 0/1 raises RuntimeError.", "quantifier": "all n, all quantum numbers in range, all spin indices", "why_tests_cant": "all boundary cases for all n", "anchors": ["edpyt/sector.py:get_cdg_sector", "edpyt/sector.py:get_c_sector"]}
{"id": "C15", "title": "Diagonal Hamiltonian equals the documented energy formula", "statement": "For every sector, entry iup+idw*dup of the local Hamiltonian is sum_i (e_up,i+mu) nup_i + (e_dw,i+mu) ndw_i + sum_i V_ii nup_i ndw_i + 1/2 sum_{i!=j} V_ij (n_i-z_i)(n_j-z_j), with (nup_i-1/2)(ndw_i-1/2) replacing nup_i ndw_i in hfmode, and z defaulting to 0 (1 in hfmode). Every entry is written exactly once whatever the order of the parallel loop.", "quantifier": "all n, all H,V,mu,z, all sectors, all schedules of the parallel loop", "why_tests_cant": "tests compare a handful of small matrices", "anchors": ["edpyt/ham_local.py:_build_ham_local", "edpyt/ham_local.py:build_ham_local"]}
{"id": "C16", "title": "N-symmetric and Sz-symmetric diagonal energies agree", "statement": "For the same Fock state, the local energy built with N symmetry equals that built with Sz symmetry whenever the two spin blocks of H have the same diagonal; in particular for a spin-independent H. [Without that hypothesis it is false of the code: the N builder charges the down-spin on-site energy to up electrons too.]", "quantifier": "all n<=16, all states, all H,V,mu,z", "why_tests_cant": "needs a relation between two builders over all inputs; the failing case needs a spin-dependent H", "anchors": ["edpyt/ham_local.py:_N_build_ham_local", "edpyt/ham_local.py:_build_ham_local"]}
{"id": "C17", "title": "Hopping matrix allocation is exact and every column index valid", "statement": "Building the hopping matrix of any sector writes exactly the number of nonzeros that was allocated (neither beyond the buffers nor leaving an uninitialised tail), produces a well-formed CSR matrix (row pointers non-decreasing from 0 to nnz) and every column index is a valid state index, never -1.", "quantifier": "all n>=2 up to 32, all particle numbers, all one-body matrices", "why_tests_cant": "requires the counting identity nnz*binomial(n-2,p-1) for every matrix pattern and sector", "anchors": ["edpyt/ham_hopping.py:build_ham_hopping", "edpyt/ham_hopping.py:add_hoppings", "edpyt/ham_hopping.py:nnz_offdiag_csrmat", "edpyt/ham_hopping.py:count_nnz_offdiag"]}
{"id": "C18", "title": "Hopping matrix is the second-quantised one-body operator", "statement": "Entry (a,b) of the hopping matrix equals the sum over i!=j of T_ij <b|c_i^+ c_j|a>, where T is H's off-diagonal part with entries |.|<=1e-7 dropped. For symmetric H this is the operator sum_ij T_ij c_i^+ c_j itself; for a non-symmetric H the stored matrix is its transpose.", "quantifier": "all n<=32, all sectors, all H, all pairs of states", "why_tests_cant": "all pairs of basis states and all matrices, signs included", "anchors": ["edpyt/ham_hopping.py:add_hoppings", "edpyt/ham_hopping.py:build_ham_hopping"]}
{"id": "C19", "title": "Exchange and pair-hopping: exact allocation and exact matrix elements", "statement": "With Sz symmetry and Jx given, the non-local builder fills exactly the allocated (nnz_x+nnz_p)*C(n-2,nup-1)*C(n-2,ndw-1) entries (its 'lower than calculated' warning can never fire), all column indices are valid, and every entry is known: the diagonal changes by the equal-spin part of 1/2 sum_ij sum_ss' Jx_ij c+_is c+_js' c_is' c_js, and the off-diagonal matrix is (transposed) the documented pair hopping 1/2 sum_ij sum_s Jp_ij c+_is c+_i,-s c_j,-s c_js MINUS the opposite-spin exchange. [Refuted: the documented operator has a plus sign there. Refuted: Jp without Jx raises AttributeError.]", "quantifier": "all n, all sectors, all Jx and Jp, all pairs of states", "why_tests_cant": "four-operator signs over all states and all coupling matrices; the existing two-site test has the symmetric spectrum +-J and cannot see the sign", "anchors": ["edpyt/ham_non_local.py:_build_ham_non_local"]}
{"id": "C20", "title": "The N-symmetric non-local builder is second quantisation literally; distance to the Sz builder", "statement": "For every N sector the matrix built for Jx/Jp is the (transposed) matrix of the documented four-operator sums in the 2n-orbital Fock space. Between two states of equal nup and ndw it differs from the Sz builder (off-diagonal entries plus diagonal correction) by exactly twice the opposite-spin exchange matrix element, so the two agree iff that vanishes.", "quantifier": "all n<=16, all states, all coupling matrices", "why_tests_cant": "relates two independent implementations for all inputs", "anchors": ["edpyt/ham_non_local.py:_N_build_ham_non_local", "edpyt/ham_non_local.py:_build_ham_non_local"]}
{"id": "C21", "title": "The many-body Hamiltonian is symmetric when its inputs are", "statement": "If the one-body matrices, Jx and Jp are symmetric then the dense many-body matrix of every sector is symmetric (so a symmetric eigensolver that reads one triangle sees the whole operator).", "quantifier": "all n, all sectors, all symmetric inputs", "why_tests_cant": "all inputs and sectors", "anchors": ["edpyt/build_mb_ham.py:build_mb_ham", "edpyt/matvec_product.py:todense"]}
{"id": "C22", "title": "Which operators build_mb_ham assembles, and when it fails", "statement": "build_mb_ham returns the local operator first, then the two hopping operators iff Sz symmetry and more than one site, then the non-local operator iff Jx or Jp is given; the caller's H is writeable again when it returns. [Refuted corners: with only Jp it raises in Sz mode; when it raises, a caller-owned (2,n,n) H is left read-only.]", "quantifier": "all interaction inputs (array, dict with any subset of keys), symmetries, sizes; every point at which a step can raise", "why_tests_cant": "crash points and missing-key combinations", "anchors": ["edpyt/build_mb_ham.py:build_mb_ham", "edpyt/ham_non_local.py:build_ham_non_local"]}
{"id": "C23", "title": "Matrix-free product equals the dense Hamiltonian times the vector", "statement": "For any list of operators starting with the diagonal one, matvec_operator(*ops)(v) equals todense(*ops) times v; the result does not depend on the previous contents of the freshly allocated output.", "quantifier": "all dimensions, all CSR matrices, all vectors", "why_tests_cant": "tests use random small instances", "anchors": ["edpyt/matvec_product.py:_matvec_operator", "edpyt/matvec_product.py:todense", "edpyt/psparse.pyx:UPmultiply", "edpyt/psparse.pyx:DWmultiply", "edpyt/psparse.pyx:Multiply", "edpyt/cs_gaxpy.c"]}
{"id": "C24", "title": "Parallel sparse products are schedule independent, bit for bit", "statement": "Whatever the assignment of loop iterations to threads and whatever the interleaving of their individual updates, UPmultiply, DWmultiply and Multiply leave the same bits in the result as the sequential loop, for arbitrary (non-associative) floating-point addition and multiplication.", "quantifier": "all interleavings of the parallel loop's atomic updates, all matrices and vectors, any arithmetic", "why_tests_cant": "schedules cannot be enumerated by tests", "anchors": ["edpyt/psparse.pyx:UPmultiply", "edpyt/psparse.pyx:DWmultiply", "edpyt/psparse.pyx:Multiply"]}
{"id": "C25", "title": "The distributed transposes are mutually inverse and implement the global block transpose", "statement": "collect_dw turns the row-block distribution of the n x n global matrix into its column-block distribution, collect_up turns it back; composing them on all ranks is the identity, in particular the caller's buffer holds its original contents afterwards; both raise AssertionError unless the local shape matches the number of ranks.", "quantifier": "all numbers of ranks, all local block sizes, all contents", "why_tests_cant": "needs all process counts and sizes; tests run one layout", "anchors": ["edpyt/vector_transpose.py:collect_dw", "edpyt/vector_transpose.py:collect_up"]}
{"id": "C26", "title": "The distributed product equals the serial product", "statement": "Concatenating the per-rank results of the MPI matvec gives the serial H*v for every number of ranks dividing the down dimension when dup==dwn; each rank's input slice is intact afterwards; otherwise NotImplementedError or ValueError is raised before any communication.", "quantifier": "all rank counts, all sectors with dup==dwn, all vectors", "why_tests_cant": "process counts cannot be exhausted by tests", "anchors": ["edpyt/matvec_product.py:_matvec_operator_mpi"]}
{"id": "C27", "title": "Dense assembly works for every operator list build_mb_ham can return", "statement": "todense(*build_mb_ham(H,V,sector)) succeeds for every valid model. [False: with a single site and no Jx/Jp, and for N symmetry without Jx/Jp, only the diagonal operator is returned and todense raises IndexError; also the matvec's optional output argument is unusable for vectors longer than one.]", "quantifier": "all models (n>=1), both symmetries", "why_tests_cant": "boundary size n=1 and the optional argument are not exercised", "anchors": ["edpyt/matvec_product.py:todense", "edpyt/matvec_product.py:_matvec_operator", "edpyt/build_mb_ham.py:build_mb_ham"]}
{"id": "C28", "title": "build_espace covers exactly the requested sectors and reports the global minimum", "statement": "build_espace visits the sectors in lexicographic order of quantum numbers, stores exactly those with non-zero requested eigenvalue count (and a non-empty solver answer), each with the eigenpairs its solver returned, and egs is a lower bound of all stored eigenvalues attained by one of them (infinite if none is stored); unknown symmetry names raise.", "quantifier": "all n, all request arrays, all solver behaviours", "why_tests_cant": "all request arrays and solver outcomes", "anchors": ["edpyt/espace.py:build_espace", "edpyt/espace.py:_sz_iter_sectors", "edpyt/espace.py:_N_iter_sectors"]}
{"id": "C29", "title": "solve_sector returns the number of eigenpairs asked for", "statement": "For a solver that returns all d eigenpairs in ascending order, solve_sector with k<=d (d<=512, or k==d) returns exactly the k lowest, each still paired with its vector; with k omitted it returns all d.", "quantifier": "all sector sizes and all k", "why_tests_cant": "two code paths with slicing over all sizes", "anchors": ["edpyt/espace.py:solve_sector"]}
{"id": "C30", "title": "get_espace_dim clips requests to the maximum", "statement": "Every entry of get_espace_dim(n,neig_max,symmetry) is min(dimension of that sector, neig_max) for positive neig_max, the full dimension when neig_max is None (or 0); the array has (n+1)^2 resp. 2n+1 entries indexed like get_sector_index; an unknown symmetry raises NotImplementedError.", "quantifier": "all n, all neig_max, both symmetries", "why_tests_cant": "all n and clip values", "anchors": ["edpyt/espace.py:get_espace_dim"]}
{"id": "C31", "title": "Screening keeps exactly the thermally relevant eigenstates", "statement": "After screen_espace(espace,egs,beta,cutoff) an eigenpair survives iff its Boltzmann factor exceeds the cutoff, survivors keep order and stay paired with their vectors, sectors left without eigenpairs are removed, and nothing else changes; it is idempotent; for beta>=0 the ground state survives whenever cutoff<1; a larger cutoff keeps a subset.", "quantifier": "all spaces, beta, cutoff", "why_tests_cant": "all spectra and thresholds", "anchors": ["edpyt/espace.py:screen_espace"]}
{"id": "C32", "title": "adjust_neigsector applies its documented rules to every sector", "statement": "For a space whose keys are in increasing order, adjust_neigsector changes sector (nup,ndw) exactly as documented: +1 capped by the dimension if the number of eigenstates equals the request, -1 but at least 1 if fewer or absent, unchanged otherwise; requests between 1 and the dimension stay in that range under any number of repetitions. [Corners: a request of 0 is raised to 1; unsorted keys raise StopIteration.]", "quantifier": "all n, all sorted spaces, all request arrays, any number of repetitions", "why_tests_cant": "one pass merges two sorted iterations; all subsets of sectors must be covered", "anchors": ["edpyt/espace.py:adjust_neigsector"]}
{"id": "C33", "title": "Non-interacting spectrum is the sum of the occupied level energies", "statement": "build_non_interacting_espace(ek) assigns to every sector the sorted list of sums of occupied level energies of its basis states. [True for up to 8 levels; from 9 levels on the tiled energy array is longer than the 64-bit shift range.]", "quantifier": "all level energies, all numbers of levels", "why_tests_cant": "the failure needs n>=9", "anchors": ["edpyt/espace.py:build_non_interacting_espace", "edpyt/build_mb_ham.py:add_onsites", "edpyt/build_mb_ham.py:sum_diags_contrib"]}
{"id": "C34", "title": "Lanczos driver terminates within maxn steps with consistent output", "statement": "For every product, start vector, thresholds and ND>=1, build_sl_tridiag performs at most maxn steps and never writes outside its buffers. It raises IndexError for maxn=0, ZeroNormInitialVector if the first norm is below delta or maxn=1, and otherwise returns two arrays of one common length between 1 and maxn-1 holding the coefficients of the first steps in order, none of them with a norm below delta; at most one further step was made, whose norm was below delta or which exhausted maxn.", "quantifier": "all products, start vectors, maxn, delta, tol, ND, all behaviours of the eigenvalue check", "why_tests_cant": "termination for all inputs and oracle answers", "anchors": ["edpyt/lanczos.py:build_sl_tridiag", "edpyt/lanczos.py:_sl_step"]}
{"id": "C35", "title": "Lanczos vectors are orthonormal and tridiagonalise the operator (exact arithmetic)", "statement": "For a symmetric operator, as long as no norm vanished, the vectors produced by successive Lanczos steps are orthonormal, H v_k = b_{k+1} v_{k+1} + a_k v_k + b_k v_{k-1}, hence V^T H V is the tridiagonal matrix with the returned coefficients.", "quantifier": "all dimensions, all symmetric real operators, all start vectors, any number of steps", "why_tests_cant": "an inductive numerical-analysis theorem", "anchors": ["edpyt/lanczos.py:_sl_step", "edpyt/lanczos.py:build_sl_tridiag"]}
{"id": "C36", "title": "Continued fraction equals the resolvent of the tridiagonal matrix", "statement": "continued_fraction(z,a,b^2) equals b_0^2 times the (0,0) element of (z-T)^{-1} for the symmetric tridiagonal T with diagonal a and off-diagonal b_1.., for every z off the real axis; all denominators are then non-zero, and Im G has the opposite sign of Im z (causality).", "quantifier": "all lengths, all real coefficients, all complex z with non-zero imaginary part", "why_tests_cant": "arbitrary depth of the fraction and all complex arguments", "anchors": ["edpyt/continued_fraction.pyx:calc", "edpyt/gf_lanczos.py:continued_fraction", "edpyt/gf_lanczos.py:build_gf_coeff_cf"]}
{"id": "C37", "title": "Continued-fraction and spectral representations agree", "statement": "For the same Lanczos coefficients, initial energy, weight and sign, the 'cf' and 'sp' representations of the Green's function return the same value at every z off the real axis (given that the tridiagonal eigensolver returns an orthonormal eigenbasis).", "quantifier": "all lengths, coefficients, energies, weights, both signs, all z off the axis", "why_tests_cant": "all coefficient sequences", "anchors": ["edpyt/gf_lanczos.py:build_gf_coeff_cf", "edpyt/gf_lanczos.py:build_gf_coeff_sp", "edpyt/gf_lanczos.py:spectral"]}
{"id": "C38", "title": "Projection of states onto neighbouring sectors is the operator's matrix", "statement": "project_exact_up/dw(pos,n,op,I,J) returns <J_j|op_pos|I_i> in the eigenbases of the two sectors for matching sectors (for up electrons without the overall sign (-1)^Ndw of the 2n-orbital ordering), project_up/dw return the components of op_pos|I_i>, and the matrix for c from J to I is the transpose of the matrix for cdg from I to J; the looked-up index is never -1.", "quantifier": "all n, all sectors, all eigenvector matrices", "why_tests_cant": "strided slices over all sizes", "anchors": ["edpyt/gf_exact.py:project_exact_up", "edpyt/gf_exact.py:project_exact_dw", "edpyt/gf_lanczos.py:project_up", "edpyt/gf_lanczos.py:project_dw"]}
{"id": "C39", "title": "Spectral weight of the exact Green's function sums to one", "statement": "With the complete spectrum, the weights of build_gf_exact (ispin=0) are non-negative and sum to the partition function, so the Green's function has unit spectral weight (|z G(z) - 1| <= bandwidth/|Im z|); it equals the Lehmann sum over all pairs of eigenstates and has negative imaginary part in the upper half plane.", "quantifier": "all models and temperatures, given orthonormal complete eigenvectors in every sector", "why_tests_cant": "an operator identity summed over the whole Fock space", "anchors": ["edpyt/gf_exact.py:build_gf_exact"]}
{"id": "C40", "title": "build_gf_exact honours the requested spin", "statement": "build_gf_exact(...,ispin=1) raises ValueError for every complete set of sectors, because it raises the up count and then looks up down states that are not in the target sector. [Refuted: it is the down-spin Green's function.]", "quantifier": "all models", "why_tests_cant": "only ispin=0 is tested", "anchors": ["edpyt/gf_exact.py:build_gf_exact"]}
{"id": "C41", "title": "Occupations are expectation values: bounded and summing to the particle number", "statement": "For eigenvectors of unit norm in sector (nup,ndw), the returned up occupations are sum over basis states of |v|^2 n_k, lie in [0,1] and sum over sites to nup (likewise down); with weights they scale linearly; the two memory layouts give the same numbers; the thermal averages lie in [0,1].", "quantifier": "all sectors, all vectors, both layouts", "why_tests_cant": "all vectors and sizes", "anchors": ["edpyt/observs.py:_get_evecs_occupation", "edpyt/observs.py:get_occupation"]}
{"id": "C42", "title": "Distributed occupations equal the serial ones", "statement": "Summing over ranks the occupations computed from each rank's slice of down states gives the serial result for every number of ranks dividing the down dimension; otherwise the remaining down states are left out.", "quantifier": "all rank counts and vectors", "why_tests_cant": "process counts", "anchors": ["edpyt/observs.py:_get_evecs_occupation_mpi"]}
{"id": "C43", "title": "Rate matrices conserve probability", "statement": "Every rate matrix built from any dictionary of transition elements with non-negative rates has columns summing to zero, non-negative off-diagonal and non-positive diagonal entries; missing or failing elements contribute nothing; the parity assertion on the dictionary size can never fail.", "quantifier": "all dictionaries, all rate functions, temperatures, couplings", "why_tests_cant": "all dictionaries", "anchors": ["edpyt/sqtunneling.py:build_rate_matrix", "edpyt/sqtnl.py:build_rate_and_transition_matrices", "edpyt/cotunneling.py:build_rate_matrix"]}
{"id": "C44", "title": "The stationary solution really is stationary", "statement": "For every matrix with zero column sums, non-negative off-diagonals and a complete eigensolver answer, the eigenvalue closest to 1 is 0, so stationary_solution returns a vector p with W p = 0 whose entries sum to one (when the selected eigenvector does not sum to zero); if all stationary vectors are proportional, p is the only stationary probability distribution. Every rate matrix has a stationary probability distribution.", "quantifier": "all rate matrices of all sizes, all eigensolver answers", "why_tests_cant": "a Gershgorin-type statement on all complex spectra; the code looks wrong (it searches near 1, not 0)", "anchors": ["edpyt/rates.py:stationary_solution"]}
{"id": "C45", "title": "Tunnelling rates obey detailed balance and particle-hole symmetry", "statement": "nF(-E)=1-nF(E); rates are non-negative and bounded by the coupling; the electron rate I->F divided by the hole rate F->I is exp(-beta(E-mu)) for the same matrix element.", "quantifier": "all energies, couplings, temperatures", "why_tests_cant": "real-analytic identity", "anchors": ["edpyt/sqtunneling.py:Gfe", "edpyt/sqtunneling.py:Gfh", "edpyt/sqtunneling.py:_Gf.nF"]}
{"id": "C46", "title": "Active sectors are the ground sectors and their legal neighbours", "statement": "find_active_sectors (sequential tunnelling) returns exactly the ground-state sectors and those reachable by adding or removing one electron within 0..n; getdns and getdud invert each other; get_active_neig never raises and requests states in exactly these sectors. The cotunnelling variant asks for the ground sectors, their spin flips and one electron more or less. [It does not filter, so its get_active_neig raises ValueError whenever a ground sector has an empty or full spin.]", "quantifier": "all n and all lists of ground sectors", "why_tests_cant": "edge sectors for all n", "anchors": ["edpyt/sqtunneling.py:find_active_sectors", "edpyt/sqtunneling.py:get_active_neig", "edpyt/cotunneling.py:find_active_sectors"]}
{"id": "C47", "title": "The self-consistency driver stops", "statement": "Driving DMFT.__call__ from any mixing scheme, there are at most max(1, max_iter+1-it) evaluations: Converged is raised at the first one with error below tol, FailedToConverge after exactly that many with no error below tol, or the scheme stops by itself; the counter `it` counts the evaluations that did not converge and is never reset, so a second solve after a failure gets one evaluation.", "quantifier": "all error sequences, tol, max_iter", "why_tests_cant": "all histories", "anchors": ["edpyt/dmft.py:DMFT"]}
{"id": "C48", "title": "Weiss field, hybridisation and self-energy are algebraically consistent", "statement": "For every local Green's function with non-vanishing denominators: Delta(z)=z+mu-Weiss(z); for a hybridisation-defined lattice Delta equals the given hybridisation for any self-energy; for the impurity, G=1/(z+mu-Delta-Sigma) with Sigma from the Dyson equation returns the interacting Green's function itself.", "quantifier": "all z, functions and parameters with non-zero denominators", "why_tests_cant": "functional identities", "anchors": ["edpyt/dmft.py:Gfloc", "edpyt/dmft.py:Gfhybrid", "edpyt/dmft.py:Gfimp"]}
{"id": "C49", "title": "The impurity Hamiltonian written by the fit reproduces the fitted hybridisation", "statement": "After Gfimp.fit and update, H is the symmetric arrowhead matrix with the bath couplings on row/column 0 and bath energies on the diagonal, and the (0,0) element of (z-H)^{-1} is 1/(z+mu-Delta(z)) for every z that is not a bath energy.", "quantifier": "all bath sizes and parameters, all such z", "why_tests_cant": "linear algebra for all sizes", "anchors": ["edpyt/dmft.py:Gfimp.fit", "edpyt/dmft.py:Gfimp.update", "edpyt/dmft.py:Gfimp.free", "edpyt/fit_cg.py:_delta"]}
{"id": "C50", "title": "Initial bath is fully initialised and particle-hole symmetric", "statement": "get_initial_bath writes every one of its 2*nbath entries; for nbath>=2 energies satisfy e_k=-e_{nbath-1-k} with extremes -/+ bandwidth; couplings are equal and at least 0.1. [Corners: nbath=1 gives a single level at +bandwidth; the C twin leaves the middle level of nbath=3 unset; for even nbath >= 2+20*bandwidth the energies are not sorted.]", "quantifier": "all nbath>=1, all bandwidths", "why_tests_cant": "index arithmetic for all sizes", "anchors": ["edpyt/fit_cg.py:get_initial_bath", "edpyt_backend/bath.c:init_bath"]}
{"id": "C51", "title": "The fit gradient is the gradient of the fit objective", "statement": "dChi2 returns the exact partial derivatives of Chi2 with respect to every bath energy and coupling, at every parameter point where no Matsubara point hits a bath energy.", "quantifier": "all bath sizes, all parameters, all target data, all complex grids", "why_tests_cant": "derivative identity for all points", "anchors": ["edpyt/fit_cg.py:_ddelta", "edpyt/fit_cg.py:dChi2", "edpyt_backend/bath.c:eval_dchi2"]}
{"id": "C52", "title": "Polarisation recovers off-diagonal Green's functions", "statement": "build_gf2_lanczos returns a Gf2 whose matrix, separated or not, holds at (i,j) and (j,i) the thermal resolvent element between the excitations at the two sites (0.5*(G_{i+j}-G_ii-G_jj) is the bilinear form), so it is symmetric; gf[i,j] gives the same function for i<=j and cannot be called for i>j (TypeError). [Refuted in general: if a stored state is annihilated by c_i+c_j or by c_i^+ + c_j^+, as for one electron in the antisymmetric state of two sites, building raises.]", "quantifier": "all resolvents and vectors", "why_tests_cant": "bilinear identity for all sizes", "anchors": ["edpyt/gf2_lanczos.py:_Gf2", "edpyt/gf2_lanczos.py:build_gf_offdiag"]}
{"id": "C53", "title": "Cotunnelling integrals combine symmetrically", "statement": "Gamma4(A,B,C,D) equals the sum of the four direct terms and of the six pairwise interference terms, each with weight one, Sigma.exact returns this sum of direct and pairwise terms for one, two or four poles of different energies (|bias|*beta >= 1e-15) and raises NotImplementedError for other numbers, and it gives the same outcome, value or exception, for every order of its poles.", "quantifier": "all amplitudes, energies, potentials and temperatures, any functions in place of polygamma", "why_tests_cant": "cancellation of signed terms for all arguments", "anchors": ["edpyt/integrals.py:Gamma4", "edpyt/integrals.py:Gamma2", "edpyt/cotnl.py:Sigma"]}
{"id": "C54", "title": "The C optimiser never goes up and reports values it has reached", "statement": "In the C optimiser used by fit_hybrid: when mnbrak returns, the three stored values are values of the function, the middle one is no larger than either end nor than at either starting point, and the middle point lies strictly between the ends; dbrent returns a value of the function no larger than at its start or exits after 2000 rounds; dlinmin moves along the given direction only and never up; frprmn reports the value at the point it returns, no larger than at the start, after between 1 and 2000 iterations; so fit returns a bath whose misfit is the one reported and no worse than the bath given. [Refuted: that mnbrak always returns (it runs for ever on a decreasing function); that dbrent finds the minimum inside its bracket (dbrent.c:83 discards the half that holds it: on x*x with -10 < 1 < 2 the answer is 1); that dbrent's answer lies inside the bracket.]", "quantifier": "all objective functions and gradients, all starting points, all bracket and run histories, any contents of uninitialised variables", "why_tests_cant": "all functions and histories", "anchors": ["edpyt_backend/mnbrak.c", "edpyt_backend/dbrent.c", "edpyt_backend/dlinmin.c", "edpyt_backend/f1dim.c", "edpyt_backend/df1dim.c", "edpyt_backend/frprmn.c", "edpyt_backend/fit.c"]}
{"id": "C55", "title": "Rendering of Fock states is faithful", "statement": "Two different Fock states of the same number of sites are printed by the Fock-string helper as different strings, one character group per site.", "quantifier": "all n and all pairs of states", "why_tests_cant": "injectivity over all states", "anchors": ["edpyt/eshow.py"]}
{"id": "C56", "title": "The assembled many-body matrix is the second-quantised Hamiltonian", "statement": "For Sz symmetry the dense matrix assembled from build_mb_ham's operators and the matrix-free product with any vector both equal, entry by entry and sign by sign, the Hamiltonian written with anticommuting creation and annihilation operators: on-site energies plus mu, Hubbard and density-density terms (or their particle-hole symmetric form), hopping, exchange and pair hopping. The one deviation is that the opposite-spin exchange has the opposite sign to the documented one. For N symmetry the sign is the documented one, hopping is absent and the down-spin on-site energies are used for both spins.", "quantifier": "all site numbers, fillings, one-body matrices, interactions, chemical potentials and vectors", "why_tests_cant": "needs all sites, fillings and couplings at once; a wrong fermionic sign shows only for particular orbital pairs with particular orbitals occupied between them", "anchors": ["edpyt/build_mb_ham.py:build_mb_ham", "edpyt/ham_local.py", "edpyt/ham_hopping.py", "edpyt/ham_non_local.py", "edpyt/matvec_product.py:matvec_operator", "edpyt/matvec_product.py:todense"]}
{"id": "C57", "title": "Stored eigenpairs are eigenpairs of the physical Hamiltonian", "statement": "Every eigenvalue and eigenvector that build_espace stores for an Sz sector satisfies H v = e v with H the second-quantised Hamiltonian of that sector (with the exchange sign of the code), whether the sector was solved densely or iteratively, provided the library eigensolver returns eigenpairs of the matrix or product it was handed.", "quantifier": "all site numbers above one, symmetric one-body matrices and interactions, request arrays and sound solvers", "why_tests_cant": "the path from arguments through operators, dense assembly or matrix-free product, slicing and storing must be right for every sector at once", "anchors": ["edpyt/espace.py:build_espace", "edpyt/espace.py:solve_sector", "edpyt/build_mb_ham.py:build_mb_ham"]}
{"id": "C58", "title": "Distributed Lanczos gives the coefficients of serial Lanczos", "statement": "If the collective product acts on the pieces of a vector as the serial product acts on the whole, build_sl_tridiag with the distributed step returns the same coefficients after the same number of steps, or raises the same exception, as with the serial step on the concatenated vector.", "quantifier": "all numbers of ranks, all (also unequal or empty) pieces, all products, thresholds and convergence checks", "why_tests_cant": "needs several processes and every distribution of the vector", "anchors": ["edpyt/lanczos.py:_sl_step_mpi", "edpyt/lanczos.py:build_sl_tridiag"]}
{"id": "C59", "title": "The second Lanczos pass returns Ritz vectors", "statement": "Given the coefficients of the first pass and an orthonormal eigenbasis of the tridiagonal matrix, sl_solve started from the same vector (as passed in, or as left normalised by the first pass) returns orthonormal vectors x_i with <x_j|H|x_i> = w_i delta_ij and H x_i = w_i x_i + u_i r, where u_i is the last component of the tridiagonal eigenvector and r the Lanczos residual.", "quantifier": "all dimensions, symmetric operators, start vectors, stopping points and numbers of requested pairs", "why_tests_cant": "an identity for every operator; tests compare a few eigenvalues", "anchors": ["edpyt/lanczos.py:sl_solve", "edpyt/lanczos.py:_kron", "edpyt/lanczos.py:_sl_step"]}
{"id": "C60", "title": "The Lanczos Green's function is exact once the Krylov space is exhausted", "statement": "If the Lanczos residual vanishes, in particular if as many coefficients are returned as the space has dimensions, the continued fraction of the coefficients equals <phi|(z-H)^-1|phi> of the full matrix for every z off the real axis; there are never more coefficients than dimensions.", "quantifier": "all dimensions, symmetric matrices, start vectors, complex z off the axis (exact arithmetic)", "why_tests_cant": "equality of functions of a complex variable for all matrices", "anchors": ["edpyt/lanczos.py:build_sl_tridiag", "edpyt/continued_fraction.pyx:calc"]}
{"id": "C61", "title": "Asking twice for the occupations of the same vectors", "statement": "Computing occupations leaves a column-major array of eigenvectors unchanged; a row-major array is left with shape (down dimension, up dimension, number of vectors). [Refuted for row-major arrays: a second call on the same eigenvectors raises ValueError unless the number of vectors equals the number of up states.]", "quantifier": "all sectors, vectors, weights, both layouts", "why_tests_cant": "the effect is on the caller's array and shows only in a second call, for all shapes", "anchors": ["edpyt/observs.py:_get_evecs_occupation", "edpyt/observs.py:get_occupation"]}
{"id": "C62", "title": "A converged self-consistency means equal Green's functions", "statement": "If after a self-consistency step the hybridisation of the local function equals the fitted one, then 1/G_imp = 1/G_loc - ed, so the two functions agree exactly when the on-site energy ed is zero; with the nano_dmft hybridisation (which subtracts ed) they agree for every ed. [Refuted for the classes Gfhybrid and Gfhilbert as they are: they never define ed, so DMFT.initialize, dmft_step and DMFT.step raise AttributeError on every input unless the caller sets the attribute.]", "quantifier": "all fitters, impurity solvers, lattices, energies and potentials", "why_tests_cant": "an identity between functions at a fixed point; the missing attribute shows on every input but depends on the caller", "anchors": ["edpyt/dmft.py:dmft_step", "edpyt/dmft.py:DMFT.initialize", "edpyt/dmft.py:Gfloc.Delta", "edpyt/nano_dmft.py:Gfloc.Delta"]}
{"id": "C63", "title": "The causality safeguard of the DMFT driver", "statement": "DMFT.__call__ makes the imaginary part of the incoming hybridisation negative where it is positive. [Refuted: boolean indexing makes a copy, the assignment is lost, the array is unchanged for every input.]", "quantifier": "all arrays and memory states", "why_tests_cant": "aliasing: the statement runs without error on all inputs", "anchors": ["edpyt/dmft.py:DMFT.__call__"]}
{"id": "C64", "title": "The analytical Bethe lattice", "statement": "Above the real axis the Hilbert transform ht satisfies h(z)=1/(z-h(z)/4), it always has negative imaginary part, and the hybridisation of the corresponding local function is a quarter of that function. [On and below the real axis ht returns the value just above it, so it is not the analytic continuation.]", "quantifier": "all complex arguments, self-energies and potentials; any principal complex square root", "why_tests_cant": "identity and branch choice for all complex numbers", "anchors": ["edpyt/dmft.py:ht", "edpyt/dmft.py:Gfhilbert"]}
{"id": "C65", "title": "Magnetic step: one bath, opposite shifts", "statement": "Before solving, dmft_step_magnetic leaves both spins with the bath fitted for spin up and Hamiltonians equal except for the impurity energies -(mu+sign*field-ed) and -(mu-sign*field-ed), whatever the two spins held before.", "quantifier": "all sizes, fitters, previous states, fields and signs", "why_tests_cant": "for all earlier states", "anchors": ["edpyt/dmft.py:dmft_step_magnetic", "edpyt/dmft.py:SpinGfimp.spin_symmetrize"]}
{"id": "C66", "title": "Restarting the loop from the impurity self-energy", "statement": "DMFT.initialize given gfimp.Sigma starts from the self-energy the impurity had. [Refuted: the bath parameters and potential are reset first, so the self-energy used differs from the one passed by the change of potential plus the difference of the old and the reset hybridisation.]", "quantifier": "all impurity states, potentials and z", "why_tests_cant": "aliasing of a bound method with state that is changed before it is called", "anchors": ["edpyt/dmft.py:DMFT.initialize", "edpyt/dmft.py:Gfimp.Sigma"]}
{"id": "C67", "title": "The Lanczos Green's function is the thermal sum of resolvent elements", "statement": "build_gf_lanczos(H, V, espace, beta, egs, pos, repr, ispin, separate) returns functions whose value at every complex energy off the real axis is 1/Z times the Boltzmann-weighted sum, over the stored states m and the operators c^+ and c (one of them each when separate), of <O m| (z -+ (H - E_m))^-1 |O m> in the neighbouring sector; the same for repr 'cf' and 'sp', for small (diagonalised) and large (Lanczos) neighbouring sectors, for both spins, whether or not the neighbouring sector is in the dictionary.", "quantifier": "all n <= 32, all dictionaries of sectors with any number of states, all Hamiltonians, all temperatures, sites, spins and energies off the real axis; Lanczos runs that exhaust their Krylov space", "why_tests_cant": "all Hamiltonians and temperatures; the value is defined through a linear system of any dimension", "anchors": ["edpyt/gf_lanczos.py:build_gf_lanczos", "edpyt/gf_lanczos.py:Gf", "edpyt/gf_lanczos.py:build_gf_coeff_sp", "edpyt/gf_lanczos.py:build_gf_coeff_cf"]}
{"id": "C68", "title": "Building a Lanczos Green's function and the eigenspace", "statement": "build_gf_lanczos keeps the keys of the dictionary; an entry that differs afterwards has dimension at most 10 and holds the full solution of its sector; the partition function used is that of the dictionary afterwards. If the stored small sectors are already full solutions the dictionary is unchanged. [Refuted: that the average is over the states passed in. With one of two states of a sector kept, building solves that sector again, and Z goes from 2 to 3 at beta=0.]", "quantifier": "all dictionaries, all solvers and operators, all runs", "why_tests_cant": "depends on which sectors are reached in which order; needs an invariant over the loop", "anchors": ["edpyt/gf_lanczos.py:build_gf_lanczos"]}
{"id": "C69", "title": "Coinciding poles in the cotunnelling integrals", "statement": "As the energy of the second pole approaches that of the first, Gamma2(A,B,e,e') tends to (A*A+A*B+B*B) times the integral of a unit pole at e. [Refuted: that it tends to Gamma1(A+B,e), as for the square of the summed amplitudes used by Sigma.__call__: the interference term I2 lacks its factor two, so two opposite amplitudes do not cancel.]", "quantifier": "all amplitudes, energies, potentials with |bias| >= 1e-15, and any functions in place of polygamma that are related like polygamma of order 0 and 1", "why_tests_cant": "limit over a continuum; the formula is never evaluated at equal energies", "anchors": ["edpyt/integrals.py:I1", "edpyt/integrals.py:I2", "edpyt/integrals.py:Gamma2"]}
{"id": "C70", "title": "Cotunnelling integrals at and near equal potentials", "statement": "Sigma.exact returns 0 for one, two or four poles at equal shifted potentials, whatever the amplitudes. With one pole and 1e-16 <= |bias|*beta < 1e-15 it returns the integral with the Bose function replaced by its series 1/x - 1/2 + x/12 - x^3/720. [Refuted: that it is defined for all biases; with two or four poles and 1e-16 <= |bias|*beta < 1e-15 it raises TypeError, because I2 calls Taylor without its order.]", "quantifier": "all amplitudes, energies, temperatures and potentials", "why_tests_cant": "the failing interval is too narrow to be hit by sampling", "anchors": ["edpyt/integrals.py:I1", "edpyt/integrals.py:I2", "edpyt/cotnl.py:Sigma"]}
{"id": "C71", "title": "The listing of eigenstates", "statement": "For an eigenspace of charge sectors eprint lists every stored eigenpair once, in ascending order of energy, each coefficient beside the Fock string of its basis state (low n bits up, high n bits down). [Refuted for the usual (nup, ndw) sectors: the test for their attribute is made on the wrong variable, and eprint raises TypeError at the first of them.]", "quantifier": "all eigenspaces and numbers of sites >= 1", "why_tests_cant": "all dictionaries, order of energies", "anchors": ["edpyt/eshow.py:eprint"]}
{"id": "C72", "title": "The charge spectrum display", "statement": "pdisplay draws exactly one horizontal line per stored eigenvalue, at its height, from N-0.2 to N+0.2 with N the number of electrons of its sector.", "quantifier": "all eigenspaces", "why_tests_cant": "multiset equality for all dictionaries", "anchors": ["edpyt/eshow.py:pdisplay"]}
{"id": "C73", "title": "Sequential transition elements are exact and come in conjugate pairs", "statement": "build_transition_elements returns a dictionary with one entry per pair (final state, initial state) of stored eigenstates whose sectors are both reachable (a ground sector, or one electron away from one and within the Hilbert space) and differ by one electron, and no other entries. Each entry holds, for every site, the exact amplitude <F|c(dagger)_i|I> (times the parity of the down electrons for spin up) and the energy of the state with more minus the energy of the state with fewer electrons; entries that add an electron are electrons, the others holes. The reversed key is always present, with the same amplitudes and energy and the opposite kind. With a cutoff exactly the entries remain whose energy and whose two states (relative to egs) are below the cutoff, so the pairs survive.", "quantifier": "for every number of sites up to 32, every eigenspace that stores all reachable sectors with at least one state each, every egs and every cutoff", "why_tests_cant": "The dictionary is assembled by a loop over sectors, moves, final and initial states with filters on sector membership; a test compares a few entries of one small system.", "anchors": ["edpyt/sqtunneling.py:13", "edpyt/sqtunneling.py:59", "edpyt/sqtunneling.py:79", "edpyt/sqtunneling.py:208"]}
{"id": "C74", "title": "At equal lead potentials the grand canonical distribution is stationary and no current flows", "statement": "For a dictionary made by build_transition_elements and two leads with the same chemical potential mu, the rate matrix satisfies detailed balance with the weights exp(-beta (E - mu N)) of the stored states; these weights are a stationary vector; the transition matrix of either lead is antisymmetric in the balanced sense, so the total current vanishes. If no other stationary vector exists, stationary_solution returns the normalised weights.", "quantifier": "for every solved eigenspace, cutoff, inverse temperature, common chemical potential and all lead couplings", "why_tests_cant": "Equilibrium is a statement about all states, temperatures and couplings at once, and connects three modules (matrix elements, Fermi factors, rate matrix); tests fix one temperature and compare to stored numbers.", "anchors": ["edpyt/sqtunneling.py:97", "edpyt/sqtunneling.py:137", "edpyt/sqtunneling.py:171", "edpyt/rates.py:4"]}
{"id": "C75", "title": "Cotunnelling transition elements are exact second-order paths", "statement": "cotunneling.build_transition_elements(n, egs, espace) returns one entry per pair of states whose sectors are reached from a ground sector by at most one spin flip and differ by at most one spin flip; the entry lists, for each spin pair (removed, added), the electron path and the hole path with their exact fermionic amplitudes and energies, leaving out a path only if it is impossible; with a cutoff the entries kept are those with both states near egs and closer than the cutoff to each other. [project_sector called directly for all spins raises AttributeError on ground sectors that are empty or full in either spin: an empty list has no base process.]", "quantifier": "all n from 1 to 32, all eigenspaces that store the reachable sectors, all ground energies and cutoffs", "why_tests_cant": "quantifies over all eigenspaces and all pairs of states", "anchors": ["edpyt/cotunneling.py:build_transition_elements", "edpyt/cotunneling.py:project_sector", "edpyt/cotunneling.py:project_add", "edpyt/cotunneling.py:project_sub", "edpyt/cotunneling.py:screen_transition_elements"]}
{"id": "C76", "title": "Detailed balance of the approximate cotunnelling rates", "statement": "In the approximate rates, the forward and backward rates between states of equal energy differ by exp(-beta (mu_inj - mu_ext)), and between states of different energy for processes with an electron path only; hence with equal chemical potentials the rate matrix is symmetric on degenerate states and the uniform distribution is stationary when all states are degenerate. [Refuted in general: with a hole path the energy denominators of the two directions do not match, so the Boltzmann distribution is not stationary in equilibrium.]", "quantifier": "all eigenspaces, couplings, temperatures and potentials in the range where the Bose factor is not cut off", "why_tests_cant": "an identity between rates for all spectra; the failure needs non-degenerate states", "anchors": ["edpyt/cotunneling.py:Sigma.approximate", "edpyt/cotunneling.py:Sigma.Gfunct", "edpyt/cotunneling.py:build_rate_matrix"]}
{"id": "C77", "title": "build_gf2_exact returns the thermal Green's function matrix of the requested spin", "statement": "For a complete set of (nup, ndw) sectors and ispin 0 or 1, build_gf2_exact returns a Gf2 whose value at e + i*eta is the n x n matrix of <<c_x ; c^+_y>> of that spin in Lehmann form (fermionic signs included, normalised by the partition function). The weights of entry (x, y) add up to Z for x = y and to 0 otherwise, so z*G(z) tends to the identity; the matrix is symmetric; for ispin 0 its diagonal equals build_gf_exact.", "quantifier": "all numbers of sites, all sector families, all temperatures, reference energies and energies", "why_tests_cant": "no test calls it; a numerical test covers single models, and the signs and the sum rule concern all sectors at once", "anchors": ["edpyt/gf2_exact.py:build_gf2_exact", "edpyt/gf2_exact.py:Gf2"]}
{"id": "C78", "title": "Without interaction the Green's function matrix is the resolvent of the one-body Hamiltonian", "statement": "If U and the exchange integrals vanish, the eigenspace of build_espace followed by build_gf2_exact gives, at every point off the real axis, the inverse matrix of z - h, where h is the one-body matrix of that spin (chemical potential added to the diagonal, hoppings below the threshold dropped), whatever the temperature and the reference energy.", "quantifier": "all numbers of sites from 2 to 32, all symmetric one-body matrices, all temperatures, all sound and complete eigensolvers", "why_tests_cant": "a numerical comparison covers one matrix and cannot show independence of the temperature; the property needs the anticommutation relations across all sectors", "anchors": ["edpyt/espace.py:build_espace", "edpyt/gf2_exact.py:build_gf2_exact"]}
{"id": "C79", "title": "Poles are drawn by inverting the cumulative density of states", "statement": "For a non-negative density that does not vanish on the grid, RandomSampler(p, bounds, n) returns n energies inside the bounds, in ascending order, one for each random number: the number r selects the grid energy i with p_0+...+p_(i-1) < r * (p_0+...+p_m) <= p_0+...+p_i. So the grid energy i has the probability p_i / sum p.", "quantifier": "all densities, bounds, numbers of poles and random numbers in [0, 1]", "why_tests_cant": "tests draw a few numbers; the property fixes the result for every random number, including the boundaries of the steps", "anchors": ["edpyt/dedlib.py:RandomSampler", "edpyt/dedlib.py:cumsum"]}
{"id": "C80", "title": "The fitted impurity model has the sampled poles as its spectrum", "statement": "Between neighbouring poles the averaged Green's function (1/n) sum 1/(z - p_i) has exactly one zero. If the root finder returns these zeros, Gfimp.fit gives n-1 levels interlacing the poles, positive squared couplings and the mean of the poles as impurity level, such that the impurity Green's function equals the averaged one off the real axis; the matrix of build_siam is symmetric with eigenvalues p_i and eigenvectors of weight 1/n on the impurity, and the interaction is U on the impurity only.", "quantifier": "all numbers of poles, all increasing poles", "why_tests_cant": "numerical fits are compared at a few energies; the interlacing and the exact spectrum concern all pole configurations", "anchors": ["edpyt/dedlib.py:Gf0", "edpyt/dedlib.py:Gfimp.fit", "edpyt/dedlib.py:build_siam"]}
{"id": "C81", "title": "siam_solve averages over N accepted samples; no self-energy without interaction", "statement": "siam_solve draws samples until N of them have the same ground-state sector with and without interaction (the last one drawn is accepted), and returns the mean over the accepted ones of 1/g0 - 1/g, of the two impurity occupations and of the entropy (per kB); a self-energy array passed in is added before dividing by N. For U = 0 and sigma0 = 0 every sample is accepted, the self-energy is exactly 0 and the two occupations agree.", "quantifier": "all numbers of poles from 2 to 32, all samples, all energies off the real axis, all temperatures, all sound and complete eigensolvers", "why_tests_cant": "random samples; the exact cancellation of the self-energy needs the resolvent of the free many-body problem for every sample", "anchors": ["edpyt/dedlib.py:siam_solve"]}
{"id": "C82", "title": "get_occupation is the expectation value of the number operator", "statement": "dedlib.get_occupation(vector, states_up, states_dw, pos) is sum |v|^2 (n_up + n_dw) at that site for the row-major (dw, up) layout of the sector, and raises ValueError for a vector of another length. Over all sites it adds up to (nup + ndw) times the squared norm, and it lies between 0 and twice the squared norm.", "quantifier": "all sectors up to 32 sites and all vectors", "why_tests_cant": "tests compute a single small sector", "anchors": ["edpyt/dedlib.py:get_occupation"]}
{"id": "C83", "title": "The entropy of a spectrum is the Gibbs entropy", "statement": "_get_entropy_params and _calc_entropy with T = 1/(kB beta) give -kB sum p ln p of the Boltzmann probabilities of all listed levels; the value does not depend on the reference energy egs and lies between 0 and kB ln(number of levels). get_entropy is the difference of the impurity model's and the bath's value.", "quantifier": "all non-empty spectra, beta > 0, kB > 0, all reference energies", "why_tests_cant": "a floating-point test covers one spectrum; independence of the reference and the bounds are identities", "anchors": ["edpyt/dedlib.py:get_entropy", "edpyt/dedlib.py:_get_entropy_params", "edpyt/dedlib.py:_calc_entropy"]}
{"id": "C84", "title": "Several impurities: block structure and averages of moam_solve", "statement": "build_moam writes, for impurities with equally many levels, one independent star per impurity (site i and sites nimp + i*nbath ...). moam_solve repeats until N samples have been accepted for at least one impurity and returns, per impurity, the sum over the samples accepted for that impurity divided by N. [Refuted: it is not the average over that impurity's accepted samples when they are fewer than N. Refuted: with the default scalar U it raises UnboundLocalError on the first sample (V1 is only assigned for arrays and dictionaries), and without an explicit sigma0 it fails for arrays and dictionaries as well.]", "quantifier": "all numbers of impurities and levels, all outcomes of the samples", "why_tests_cant": "the failing defaults are not tested; the count of accepted samples differs between impurities only for particular samples", "anchors": ["edpyt/dedlib.py:build_moam", "edpyt/dedlib.py:moam_solve"]}
{"id": "C85", "title": "Complete exact diagonalisation returns the ground-state energy of the whole Fock space", "statement": "build_espace with neig_sector=None and conserved Sz succeeds for every well-formed model. The energy it returns is a lower bound for the energy of every state of the 4^n-dimensional Fock space, including superpositions of different electron numbers, and some normalised state attains it. It stores each pair of electron numbers exactly once, with all occupations of the sector and a complete orthonormal basis of eigenvectors in ascending order of energy.", "quantifier": "for every number of sites 2..32, every symmetric one-body matrix, interaction and couplings, every eigensolver meeting the contract of numpy.linalg.eigh", "why_tests_cant": "tests compare a few small models with a reference value; they cannot show that no state of the Fock space lies below the returned energy", "anchors": ["edpyt/espace.py:build_espace", "edpyt/build_mb_ham.py:build_mb_ham", "edpyt/sector.py:generate_states"]}
{"id": "C86", "title": "Thermal Green's functions from the parameters of the model", "statement": "With the ground-state energy returned by build_espace, the Boltzmann weights are at most 1 and the partition function of build_gf_exact lies between 1 and 4^n for every beta >= 0, so it neither overflows nor vanishes. The Green's function of every site is then built without error, its weights are non-negative and sum to the partition function, and it is causal. Without interaction the matrix from build_gf2_exact is the resolvent of the one-body Hamiltonian for every hopping matrix.", "quantifier": "for every model as in the previous property, every beta >= 0, site and complex energy", "why_tests_cant": "the claim covers all interacting models and temperatures; tests sample a few", "anchors": ["edpyt/gf_exact.py:build_gf_exact", "edpyt/gf2_exact.py:build_gf2_exact", "edpyt/espace.py:build_espace"]}
{"id": "C87", "title": "Energies are independent of the eigensolver and of the spin direction", "statement": "Two runs of build_espace with different eigensolvers that meet the contract of numpy.linalg.eigh store the same occupations and the same energies, degenerate levels included, and return the same ground-state energy. If both spins have the same one-body matrix, the sectors (p, q) and (q, p) have the same energies. If the matrices differ the energies may differ.", "quantifier": "for every model as in C85 and every pair of eigensolvers", "why_tests_cant": "tests run one solver; degeneracies make eigenvectors solver-dependent", "anchors": ["edpyt/espace.py:build_espace", "edpyt/espace.py:solve_sector", "edpyt/build_mb_ham.py:build_mb_ham"]}
{"id": "C88", "title": "The ground sector is always found and trials of the distributional solver do not fail", "statement": "After complete diagonalisation the search next(... if abs(eigvals[0]-egs) < tol) finds a sector for every tol > 0 and never raises StopIteration; its first eigenvector has one component per configuration. With increasing poles and a root finder that finds the roots, a trial of siam_solve (fit, two diagonalisations, occupations, self-energy) always returns a result.", "quantifier": "for every model as in C85, every tolerance; for every set of 2..32 increasing poles, interaction, level shift, beta and list of energies", "why_tests_cant": "random sampling of poles in tests cannot exclude a failing trial", "anchors": ["edpyt/dedlib.py:siam_solve", "edpyt/espace.py:build_espace"]}
{"id": "C89", "title": "Poles of the Fermi function", "statement": "zero_fermi(nzp) returns nzp strictly increasing positive poles with negative residues. The rational function they define is exactly the 2*nzp-th convergent of Lambert's continued fraction of tanh. That convergent lies between 0 and tanh and differs from it by at most |t| times the product of (t/(2i+1))^2 for i < 2*nzp.", "quantifier": "for every nzp > 0, every argument and every eigensolver that meets the contract of scipy.linalg.eigh(a, b)", "why_tests_cant": "the poles are transcendental-looking numbers from an eigensolver; a test can only compare a few of them with the Matsubara frequencies", "anchors": ["edpyt/integrate_gf.py:zero_fermi"]}
{"id": "C90", "title": "Occupation by contour integration", "statement": "For a Green's function with real poles e_i of weight w_i, integrate_gf returns sum_i w_i (R^2/(R^2+e_i^2) - c((e_i-mu)/(2 k T)))/2 with R = 1e10 and c the convergent of C89. It differs from sum_i w_i f((e_i-mu)/kT) by an explicit bound and converges to it for nzp to infinity up to the error e^2/(2(R^2+e^2)) of the radius. For one level the result lies between 1/2 and the Fermi function, so too few poles always smear the occupation. [Refuted: the argument R of integrate_gf has no influence, because line 87 overwrites it.]", "quantifier": "for every finite set of poles and weights, mu, T, nzp > 0, R", "why_tests_cant": "tests compare one spectrum at one temperature with a tolerance", "anchors": ["edpyt/integrate_gf.py:integrate_gf", "edpyt/integrate_gf.py:zero_fermi"]}
{"id": "C91", "title": "Arrays of chemical potentials in integrate_gf", "statement": "For an array with one chemical potential, or with nzp = 1, integrate_gf gives the result of the scalar call. [Refuted in general: np.resize deals the poles out along the chemical potentials instead of repeating them. For nzp >= 2 and nzp equal chemical potentials, none at the level, the first two entries differ.]", "quantifier": "for every nzp, array, temperature and level", "why_tests_cant": "equal results are expected, so no test passes an array with equal entries", "anchors": ["edpyt/integrate_gf.py:integrate_gf"]}
{"id": "C92", "title": "Occupation by Matsubara sum", "statement": "matsum_gf returns the truncated sum 2/beta sum_i (Re g(i w_i) + m/(m^2+w_i^2)) + f(beta m) with the tail level m = -Re g(i w_last) w_last^2, and restores the attribute mu. For one level at x the error is at most |beta x|^3/(2 nmats-1)^2. Green's functions with opposite real parts on the axis give occupations that add to 1. [Refuted: the occupation is not proportional to the spectral weight, w/z gives 1/2 for every w. Refuted: if the evaluation raises, or nmats = 0, the attribute mu keeps the new value.]", "quantifier": "for every Green's function object with scalar values, nmats, beta > 0, mu", "why_tests_cant": "tests use one Green's function, converged sums and no exceptions", "anchors": ["edpyt/integrate_gf.py:matsum_gf"]}
{"id": "C93", "title": "Integrating the exact thermal Green's function gives the thermal occupation of the eigenvectors", "statement": "For every model that build_espace diagonalises completely, every inverse temperature and every site: the poles and weights stored by build_gf_exact (up spin), filled with the Fermi function and divided by Z, add up to exactly the up occupation of that site that observs.get_occupation computes from the eigenvectors of the same dictionary (in either memory layout). Consequently integrate_gf of that Green's function with kB*T = 1/beta and mu = 0 converges, with growing number of contour poles, to that occupation up to (L/radius)^2/2, where L bounds the pole energies and radius is the fixed radius of the zeroth moment.", "quantifier": "all Hamiltonians accepted by build_espace (2 to 32 sites), all eigensolvers meeting the eigh contract, all beta, all sites, all numbers of contour poles beyond a threshold", "why_tests_cant": "The identity couples three independently written modules (gf_exact, observs, integrate_gf) and holds for all Hamiltonians and temperatures; a test compares a few models within a tolerance that hides the radius error.", "anchors": ["edpyt/gf_exact.py:build_gf_exact", "edpyt/observs.py:get_occupation", "edpyt/integrate_gf.py:integrate_gf"]}
{"id": "C94", "title": "Band Lanczos returns the matrix of the operator in an orthonormal basis of the block Krylov space", "statement": "For a symmetric matvec on vectors of d entries, exact real arithmetic and any number of starting vectors of d entries: build_bd_tridiag always returns (for ND > 0), and if n + len(phi0) <= maxn holds for the size n of the result, there are n orthonormal vectors v_i (so n <= d) with T[i,j] = <v_i|A v_j> = T[j,i] for all i, j. If all candidates were used up, every starting vector lies in the span of the v_i up to a remainder shorter than delta, and for all coefficients y the operator applied to sum y_k v_k differs from sum (T y)_k v_k by at most delta * sum |y_k|, so eigenpairs of T are eigenpairs of A up to that. The condition on n holds whenever no vector was dropped, and whenever maxn > d + len(phi0); then the loop ends only with an empty candidate list or a converged energy. [Refuted in general: after a deflation n may grow to maxn - Lc > maxn - len(phi0), and then the overlaps of the starting vectors, written to the negative columns T[n,n-Lc], lie inside the returned block: for the chain of four sites, two parallel starting vectors and maxn = 4 the result has T[0,2] = 1 and T[2,0] = 0.]", "quantifier": "all symmetric operators, all starting blocks, all maxn, delta > 0, ND and convergence tests; all iterations and deflation patterns", "why_tests_cant": "The collision of the wrapped columns needs a deflation together with a nearly exhausted maxn; tests use maxn = 300 and independent starting vectors. That T is the projected operator in every deflation pattern is a statement about all runs.", "anchors": ["edpyt/lanczos.py:build_bd_tridiag"]}
{"id": "C95", "title": "gram_schmidt_rows orthonormalises exactly the independent families", "statement": "In exact real arithmetic gram_schmidt_rows(X) of a matrix with rows of equal length returns a matrix Z of the same shape with orthonormal rows such that X = L Z with L lower triangular with positive diagonal (so Z is determined by X and spans the same space for every leading set of rows) if and only if the rows of X are linearly independent; otherwise it divides by zero (NaN). With norm=False the rows of the result are pairwise orthogonal with L unit triangular, if and only if all rows but the last are independent. With row_vecs=False the same holds for the columns, and the shape of X is kept.", "quantifier": "all matrices, both values of row_vecs, norm=True and norm=False", "why_tests_cant": "Independence is a property of all linear combinations; tests try one matrix and never a dependent one.", "anchors": ["edpyt/lanczos.py:gram_schmidt_rows"]}
{"id": "C96", "title": "Sequential tunnelling elements between particle-number sectors", "statement": "sqtnl.build_transition_elements, on an eigenspace solved by sectors with a total number of electrons, keeps exactly the transitions between the chosen number N and N+1 (if N+1 < 2n) and between N-1 and N (if N-1 > 0), for every pair of stored states, in both directions. Keys are sorted as Python sorts pairs of tuples and are unique. The entry of a key has two elements, spin up and spin down; each holds the exact amplitudes <j|c(+)|i> on all n sites with fermionic signs and the addition energy, and the entry of the reversed key holds the conjugate elements. Without N, the chosen number is that of the first stored sector with the lowest of all energies, and the given ground state energy is ignored. [Refuted: that all transitions that change N by one electron are kept. Those into the empty and into the completely filled sector are left out, so a single orbital with one electron has no transitions at all.]", "quantifier": "every number of sites, every solved eigenspace, every stored state, given or default N", "why_tests_cant": "tests compare the elements of one small molecule; sorted keys, completeness and signs for every molecule and the missing extreme sectors need a proof", "anchors": ["edpyt/sqtnl.py:build_transition_elements", "edpyt/sqtnl.py:Gf", "edpyt/cotnl.py:project", "edpyt/sqtnl.py:excite_electron", "edpyt/sqtnl.py:excite_hole"]}
{"id": "C97", "title": "Equilibrium of sequential tunnelling between particle-number sectors", "statement": "With the same chemical potential on both leads, the rate matrix that sqtnl.build_rate_and_transition_matrices builds from these elements obeys detailed balance with the grand canonical weights exp(-beta (E - mu N)) of the exact states. The grand canonical distribution is stationary and carries no current. This holds if no addition energy is more than 100 kT away from the chemical potential. [Refuted: without that condition. nF returns 0 above 100 while the reverse rate stays about 1, so detailed balance is lost and the grand canonical distribution is not stationary.]", "quantifier": "every number of sites, every solved eigenspace, all couplings, temperatures, chemical potentials and both choices of the lead", "why_tests_cant": "equilibrium is a statement about all states and couplings at once; the clipping shows only for large gaps or low temperatures", "anchors": ["edpyt/sqtnl.py:build_rate_and_transition_matrices", "edpyt/sqtnl.py:nF", "edpyt/sqtnl.py:Gf"]}
{"id": "C98", "title": "Kirchhoff's law and the second law for sequential tunnelling", "statement": "In every stationary distribution of the rate matrix the current through the first lead and that through the second add up to zero. In every stationary distribution without negative probabilities electrons do not flow from the lead with the lower to the lead with the higher chemical potential: the product of the bias and the current has a fixed sign. This holds for the matrices of sqtunneling (any cutoff) and for those of sqtnl, for the latter if no addition energy is more than 100 kT away from either chemical potential. The two modules count the current with opposite signs.", "quantifier": "every number of sites, every solved eigenspace, all couplings, all temperatures and biases, every stationary distribution", "why_tests_cant": "tests look at the current at a few biases; conservation and the sign of the dissipated power must hold for every molecule, every coupling and every bias", "anchors": ["edpyt/sqtunneling.py:build_rate_matrix", "edpyt/sqtunneling.py:build_transition_matrix", "edpyt/sqtnl.py:build_rate_and_transition_matrices"]}
{"id": "C99", "title": "Second-order tunnelling elements between states with the same number of electrons", "statement": "cotnl.build_transition_elements returns one entry for every ordered pair of states with N electrons (also for a state with itself), in sorted order, each with four elements, one per spin of the electron that comes in and spin of the electron that leaves. The value of an element is the square of the second-order amplitude computed from exact creation and annihilation matrix elements: first in, then out through the states with N+1 electrons, plus first out, then in through those with N-1, with the right signs of the energy denominators. The reversed process with exchanged leads has the same amplitude when the energy is shifted by the energy difference. [Refuted: that the amplitude contains all intermediate states. The empty and the completely filled sector are left out, so for one electron the processes through the empty molecule are missing.]", "quantifier": "every number of sites, every solved eigenspace, every pair of states, all couplings and energies, given or default N", "why_tests_cant": "tests compare one small molecule; the spins, signs and pairing of the intermediate states for every molecule, and the missing extreme sectors, need a proof", "anchors": ["edpyt/cotnl.py:build_transition_elements", "edpyt/cotnl.py:excite_electron", "edpyt/cotnl.py:excite_hole", "edpyt/cotnl.py:Gf2e", "edpyt/cotnl.py:Gf2h", "edpyt/cotnl.py:Sigma"]}
{"id": "C100", "title": "Rate and transmission matrices of second-order tunnelling", "statement": "With the method 'approximate' each rate of cotnl.build_rate_and_transition_matrices is G(beta, dE - mu_e + mu_i) times the sum over the spins of the squared amplitudes at half the sum of dE and the chemical potentials. The rate matrix conserves probability and has no negative off-diagonal entries. Exchanging the two leads leaves it alone and changes the sign of the transmissions. Between states of equal energy the rates obey detailed balance at any bias; without bias the rates between them are symmetric and, if all states are degenerate, the uniform distribution is stationary and carries no current. The rows of the transmissions are all states, those of the rates only states that have a partner, so for a single state the two matrices differ in size. [Refuted: that without bias the thermal distribution is stationary. The amplitude is taken at half the sum plus half of dE although reversibility needs minus, so inelastic rates violate detailed balance.]", "quantifier": "every number of sites, every solved eigenspace, all couplings, temperatures and chemical potentials", "why_tests_cant": "tests check a rate matrix for one molecule; detailed balance and the sign of dE in the energy argument are statements about all pairs of states", "anchors": ["edpyt/cotnl.py:build_rate_and_transition_matrices", "edpyt/cotnl.py:Sigma", "edpyt/cotnl.py:G", "edpyt/cotnl.py:dict_to_matrix"]}
{"id": "C101", "title": "Screening of second-order tunnelling elements", "statement": "With a cutoff, cotnl.build_transition_elements keeps exactly those pairs of states that lie within the cutoff of the reference energy and of each other and that have an intermediate state of weight above 1e-10, where the weight is taken with coupling 1 on every site. The rates of what is left are those of the amplitudes restricted to the intermediate states above the threshold, spin pair by spin pair, and the restricted amplitudes of the dropped pairs vanish. If no pair is in range, screening ends with StopIteration. If N is given without a ground state energy, every positive cutoff ends with a TypeError. [Refuted: that screening only drops what does not contribute. The weight of an intermediate state can cancel for equal couplings although the rate with the actual couplings is not zero.]", "quantifier": "every number of sites, every solved eigenspace, every cutoff, all couplings", "why_tests_cant": "tests use one cutoff and one molecule; which pairs survive, and that nothing else is lost, depends on all amplitudes", "anchors": ["edpyt/cotnl.py:screen_transition_elements", "edpyt/cotnl.py:build_transition_elements"]}
{"id": "C102", "title": "Numerically integrated second-order rates", "statement": "cotnl.Sigma.integrate weights every energy below the potential mu_e - dE of the lead electrons come from with at least 1/2, whatever the other lead, because the parenthesis of the first Fermi function closes after the second. Its rate against a bias is therefore at least half the amplitude below mu_e - dE times the width of the grid intervals that fit into 4/beta and does not become small with the bias. The golden-rule weight, the product of the two occupations, is at most exp(-beta (mu_i - mu_e + dE)), and so is the sum on the same grid up to the width and the largest amplitude. [Refuted: that the result is the golden-rule integral on the grid.]", "quantifier": "every element, all couplings, temperatures, potentials and every number of grid intervals that fit", "why_tests_cant": "tests compare methods at one bias; the misplaced parenthesis shows as a lower bound for all biases", "anchors": ["edpyt/cotnl.py:Sigma", "edpyt/cotnl.py:nF"]}
{"id": "C103", "title": "Local Green's function of several sites", "statement": "nano_dmft.Gfloc.__call__ with one process returns, for every class of equivalent sites and every frequency, the diagonal element at the first site of the class of the inverse of (z+mu)S - H - Hybrid(z) - Sigma(z), where every site carries the self-energy of its class, or LinAlgError for a singular matrix. This holds if there are at least two classes (or one frequency) and the first k sites belong to k different classes. Sites that a permutation symmetry of the matrix maps to each other have the same value. [Refuted: that it holds for every lattice. The result of one frequency has one entry per class but is indexed by site numbers, so if two of the first k sites are equivalent the call ends with IndexError. With a single class numpy joins all frequencies into one chunk; only the first frequency is computed and the others are uninitialised memory.]", "quantifier": "all matrices, classes, frequencies, self-energies and potentials; any inversion routine meeting its contract", "why_tests_cant": "the tests have one lattice; the sizes that fail do so depending on the order of the sites", "anchors": ["edpyt/nano_dmft.py:Gfloc.__call__", "edpyt/nano_dmft.py:Gfloc.free", "edpyt/nano_dmft.py:_get_sigma_method"]}
{"id": "C104", "title": "Hybridisation of one site with the rest of the lattice", "statement": "Gfloc.Delta returns z + mu - H_ii - Sigma_i - 1/G_ii for the first site of every class. With S_ii = 1 this is Hybrid_ii(z) plus the amplitude of the paths that leave site i, run through the other sites and come back, in which the self-energy of site i does not occur. For hermitian H, orthogonal orbitals and causal self-energies and leads, the imaginary part is not positive in the upper half plane, as is that of the local Green's function (also with a positive definite overlap). [Refuted: that the hybridisation is causal for overlapping orbitals. Two orbitals with overlap s and nothing else have the hybridisation s^2 (z + mu), which has the wrong sign and grows with z.]", "quantifier": "all matrices, frequencies and self-energies", "why_tests_cant": "a statement about every point of the upper half plane", "anchors": ["edpyt/nano_dmft.py:Gfloc.Delta", "edpyt/nano_dmft.py:Gfloc.Weiss", "edpyt/nano_dmft.py:Gfloc.__call__"]}
{"id": "C105", "title": "Classes of sites distributed over processes", "statement": "nano_dmft hands process r the classes r*(k//size) up to (r+1)*(k//size); the parts make up the first size*(k//size) classes, that is all of them exactly if size divides k. In this case every process returns its own rows of the Green's function, computed with the self-energies gathered from all processes. [Refuted: that a remainder is handled. If size does not divide k, every process with a share ends with IndexError because the last classes have no self-energy.]", "quantifier": "every number of processes and classes, all matrices and frequencies", "why_tests_cant": "tests run with one process", "anchors": ["edpyt/nano_dmft.py:_get_idx_world", "edpyt/nano_dmft.py:_get_sigma_method", "edpyt/nano_dmft.py:Gfloc.__call__"]}
{"id": "C106", "title": "Occupations, self-consistency and moments of several sites", "statement": "Gfloc.integrate gives every site twice the Matsubara sum of the local Green's function of its class at the given potential. After a step whose fitted bath reproduces the new hybridisation at a frequency, the Green's functions of the impurity and of its sites in the lattice agree there. Gfimp.get_local_moments returns the difference of the thermal occupations of the two spins on the first orbital of every impurity. [Refuted: that each impurity is taken at its own temperature; beta is that of the first one.]", "quantifier": "all lattices, baths, temperatures and numbers of Matsubara frequencies", "why_tests_cant": "needs the exact sums for every cut-off and every lattice", "anchors": ["edpyt/nano_dmft.py:Gfloc.integrate", "edpyt/nano_dmft.py:_get_occps_method", "edpyt/nano_dmft.py:Gfimp.get_local_moments", "edpyt/nano_dmft.py:Gfimp.update", "edpyt/nano_dmft.py:Gfimp.fit"]}
{"id": "C107", "title": "Adjusting the chemical potential", "statement": "dmft_step_adjust fits and solves the impurity at the old chemical potential and then lets brentq look for a potential in [-20, 20] at which the lattice occupation, added up, equals the goal, added up. If it succeeds the lattice meets the goal in total at its new potential, the self-energy is the one of the impurity, and the impurity keeps the old potential less the local level. The inverse lattice Green's function then differs from the inverse impurity one by the change of the potential, so the two agree only if the potential did not change. A goal that cannot be met inside the bracket raises ValueError. With a goal and without adjustment the iteration is the one of C47. [Refuted: the docstring says the potential is adjusted for both Green's functions. A lattice given by its hybridisation is reported as converged after the first iteration however far the potential was moved. The classes Gfhybrid and Gfhilbert have no integrate, so adjustment raises AttributeError for them. With the default arguments (no goal, no adjustment) no iteration ever finishes: the line that prints the occupation raises TypeError.]", "quantifier": "all bath sizes, hybridisations, fits, solvers, occupation functions, goals, tolerances, grids and root finders that return a zero inside a bracket with a change of sign", "why_tests_cant": "The tests never run the self-consistent loop with an occupancy goal to be adjusted, and need compiled extensions; whether the loop can end in an inconsistent state depends on all fits and self-energies.", "anchors": ["edpyt/dmft.py:adjust_mu", "edpyt/dmft.py:dmft_step_adjust", "edpyt/dmft.py:DMFT.step", "edpyt/dmft.py:DMFT.__call__"]}
{"id": "C108", "title": "Occupation of the impurity", "statement": "For an impurity Green's function with non-negative weights w_i at poles e_i, Gfimp.integrate(mu) gives twice the sum of w_i times an approximate Fermi function of (e_i - mu)/(k_B 300 K), in closed form by the continued fraction of tanh and a tail factor of the finite radius, and stays within the explicit bound of C90 of the exact occupation at 300 K. SpinGfimp.integrate(mu) adds up the two spins and agrees with Gfimp.integrate if the spins agree. [Refuted: the result does not depend on the inverse temperature beta of the impurity: a level at k_B 300 K above mu always counts more than 2/5 electrons, although an impurity at 150 K or less holds fewer. SpinGfimp.integrate() without argument raises AttributeError because its default potential is None.]", "quantifier": "all finite pole expansions with non-negative weights, all potentials, all k_B > 0", "why_tests_cant": "integrate_gf uses a fixed temperature, which tests at one beta cannot notice; the accuracy is about all poles and potentials.", "anchors": ["edpyt/dmft.py:Gfimp.integrate", "edpyt/dmft.py:SpinGfimp.integrate", "edpyt/integrate_gf.py:integrate_gf"]}
{"id": "C109", "title": "Tridiagonal eigenproblems", "statement": "eigh_tridiagonal(a, b) returns all eigenvalues in ascending order with an orthonormal eigenbasis (or the eigenvalues alone). With select=2 and a range it returns exactly the eigenvalues of that range of the ascending spectrum: in ascending order if they are asked for alone; otherwise with orthonormal eigenvectors, each inside one block between vanishing off-diagonal elements, ordered by block and ascending within a block - so ascending if no off-diagonal element vanishes. egs_tridiag is the minimum of the quadratic form over unit vectors and gs_tridiag a unit vector that attains it. Other values of select raise AssertionError. [Refuted: that the eigenvalues of a range come in ascending order with eigenvectors too. A diagonal matrix comes back in the order of its diagonal, because stebz is called with order 'B' and the result is not sorted.]", "quantifier": "all tridiagonal matrices and ranges; all LAPACK routines meeting the stated contracts (shown to exist); exact arithmetic", "why_tests_cant": "The tests use unreduced matrices only; a vanishing off-diagonal element (a converged Lanczos run) is needed to see the order.", "anchors": ["edpyt/tridiag.py:_solve_partial", "edpyt/tridiag.py:_solve_full", "edpyt/tridiag.py:eigh_tridiagonal", "edpyt/tridiag.py:egs_tridiag", "edpyt/tridiag.py:gs_tridiag"]}
{"id": "C110", "title": "Options of the second Lanczos pass", "statement": "sl_solve(matvec, a, b, v0, select=2, range) after a Lanczos run returns the eigenvalues of that range of the tridiagonal matrix in ascending order with orthonormal Ritz vectors x, H x = w x + c r with the residual r of the run. Without v0 it raises AssertionError. [Refuted: that eigvals_only=True returns the eigenvalues. The array of eigenvalues is unpacked into two names, so it raises ValueError, except that for exactly two eigenvalues the lower one is returned as a number.]", "quantifier": "all symmetric operators, start vectors, runs of any length and ranges; LAPACK by contract; exact arithmetic", "why_tests_cant": "No test calls sl_solve with eigvals_only or with a range; the failure depends on the number of eigenvalues.", "anchors": ["edpyt/lanczos.py:sl_solve", "edpyt/tridiag.py:eigh_tridiagonal"]}
{"id": "C111", "title": "Reverse communication of the sparse eigensolver", "statement": "eigsh(n, nev, matvec, v0) with 0 < nev < n and a symmetric matvec computes every product ARPACK asks for, puts it where ARPACK expects it and returns only orthonormal eigenpairs; if ARPACK's status is 0 they are the nev lowest. The number of basis vectors is legal, nev < ncv <= n. With nev <= 0 or nev >= n an error is raised; given arrays that are too small raise AssertionError. [Refuted: that nev pairs are returned or an error is raised. A positive status (iterations used up) is ignored, so fewer pairs are returned silently; if none has converged the message is looked up with the wrong status and KeyError is raised.]", "quantifier": "all n, nev, symmetric matrices, start vectors and implementations of ARPACK meeting its contract, dialogues of any length; exact arithmetic", "why_tests_cant": "The path is taken only for dimensions above 512; incomplete convergence depends on the spectrum and no test provokes it.", "anchors": ["edpyt/eigh_arpack.py:eigsh", "edpyt/eigh_arpack.py:ArpackParams"]}
{"id": "C112", "title": "Sparse and dense diagonalisation of a sector agree", "statement": "For dimensions above 512 and 0 < k < d solve_sector(H, V, sct, k) uses eigsh with the product of the sector; if ARPACK's status is 0 and the extraction succeeds its eigenvalues are the first k of those solve_sector returns without k, whatever ARPACK's method. In every case what it returns are eigenpairs of the sector's matrix.", "quantifier": "all symmetric one-body matrices and interactions of 2 to 32 sites, all sectors above 512 states and all k; LAPACK and ARPACK by contract; exact arithmetic", "why_tests_cant": "Tests compare one sector of one model; ascending eigenvalues are unique for every matrix, degenerate or not.", "anchors": ["edpyt/espace.py:solve_sector", "edpyt/espace.py:_solve_arpack", "edpyt/eigh_arpack.py:eigsh"]}
{"id": "C113", "title": "Smoothing of self-energies", "statement": "smooth(energies, sigma, cutoff) for increasing energies spanning at least 0.01 returns a function that is the piecewise linear interpolation, on n = floor(100 (emax - emin)) + 1 equidistant points, of the samples freed from all oscillations of frequency above the cutoff: real and imaginary part each keep the amplitudes of the slow ones and have none of the fast ones, so the filter is the orthogonal projection (linear, idempotent, mean kept, norm not increased; nothing happens for a cutoff above the Nyquist frequency). Constants are kept, outside the range the value is 0, and below 0.01 it raises IndexError. [Refuted: that Im sigma <= 0 is preserved; the projection overshoots next to a narrow feature.]", "quantifier": "all increasing energies, complex data, cutoffs and evaluation points; exact arithmetic, the FFT as its defining sum", "why_tests_cant": "No test calls smooth; the projection property is a statement about all signals of all lengths, even and odd.", "anchors": ["edpyt/dedlib.py:smooth", "edpyt/dedlib_dev.py:smooth"]}
{"id": "C114", "title": "Sequential elements extracted from the second-order ones", "statement": "For all espaces with sectors labelled by the number of electrons (solved sectors N, N+1 < 2n and N-1 > 0), extract_sequential_from_cotunneling applied to the unscreened result of cotnl.build_transition_elements yields exactly the transitions of sqtnl.build_transition_elements, and for every transition a list that contains each of the two elements (one per spin, with the same amplitudes and energy) exactly twice. Hence for all couplings, temperatures and chemical potentials the rate and transition matrices are twice those of sqtnl.build_transition_elements, with the same stationary distributions and twice the current. [Refuted: the rates agree with those of the direct construction; the attribute spin of every element is the spin of its amplitudes (for transitions with one electron less, half of the labels are wrong); after screening, elements belong to the states in their keys (rows are renumbered, so energies and amplitudes of other states are used).]", "quantifier": "all numbers of sites, espaces, eigenvectors, energies, couplings, temperatures and chemical potentials", "why_tests_cant": "The function is not called by any test; the doubling cancels in stationary distributions and normalised currents, and the renumbering after screening only shows when an intermediate state is dropped.", "anchors": ["edpyt/sqtnl.py:extract_sequential_from_cotunneling", "edpyt/cotnl.py:build_transition_elements"]}
{"id": "C115", "title": "Development version of the distributional solver", "statement": "ded_solve of dedlib_dev.py never returns for any input and any eigensolver, root finder or random numbers: get_occupation passes five arguments to the four-parameter get_evecs_occupation, so for up to six sites, a working eigensolver and root finder every sample raises TypeError. For any occupation function in its place, the results are weighted means over all passes up to and including the N-th accepted one, rejected ones included, with the weight exp(-beta |E(N1) - E(N0)|), which is 1 for accepted samples and in (0, 1] otherwise; an array sigma that is passed in is added before the division. [Refuted: ded_solve returns; only samples fulfilling the DED condition contribute.]", "quantifier": "all sizes, hybridisations, interactions, temperatures, grids, samples, eigensolvers, root finders and occupation functions", "why_tests_cant": "No test imports the module; the weights of rejected samples are only visible in the average over runs with rejections, and no run terminates normally.", "anchors": ["edpyt/dedlib_dev.py:ded_solve", "edpyt/dedlib_dev.py:get_occupation", "edpyt/dedlib_dev.py:get_evecs_occupation"]}
{"id": "C116", "title": "Development version of the multi-impurity distributional solver", "statement": "ded_solve_multi returns, for every impurity, the mean of self-energy and occupations over the samples accepted for that impurity, 0 if there is none (in contrast to moam_solve, which divides by N); it stops after N rounds in which some impurity was accepted; the array passed in is overwritten by zeros first. It needs an explicit sigma0 and U given as an array or dictionary. [Refuted: a scalar U (the default) works; it raises UnboundLocalError.]", "quantifier": "all numbers of impurities, rounds, samples, increments and arrays passed in", "why_tests_cant": "No test calls the function; whether the mean is over the accepted samples of each impurity only shows if impurities are accepted in different rounds.", "anchors": ["edpyt/dedlib_dev.py:ded_solve_multi"]}
{"id": "C117", "title": "Limit on the number of states per sector", "statement": "For sectors of at most 512 states (in particular up to six sites), build_espace with neig_sector = get_espace_dim(n, neig_max=m), m > 0, returns the espace of the full diagonalisation with every sector cut to its lowest m energies and their eigenvectors, and the same ground-state energy; the search for the ground sector finds the same sector.", "quantifier": "all sizes, Hamiltonians, chemical potentials and limits; numpy.linalg.eigh by contract", "why_tests_cant": "A test compares a few truncated spectra; that no truncated sector ever loses the ground state or changes order is a statement about all Hamiltonians.", "anchors": ["edpyt/espace.py:build_espace", "edpyt/espace.py:get_espace_dim", "edpyt/espace.py:solve_sector", "edpyt/dedlib_dev.py:ded_solve"]}
{"id": "C118", "title": "Distribution of samples and random numbers over ranks", "statement": "In ded.py the shares my_N of all ranks add up to N; all ranks but the last get N // size. If every rank returns the mean over its samples, the root's result weights a sample of rank r with 1/(size my_N(r)); it equals the mean over all samples for all sample values exactly if size divides N. With fewer samples than ranks, all ranks but the last have no sample and their solver raises ZeroDivisionError. The random numbers used by different ranks (and trials) are disjoint as long as each rank needs at most 2 (N // size) trials. [Refuted: the result is always the mean over all samples (five samples on two ranks); the ranks always use different samples: beyond that number of trials, trial 2 (N // size)(r' - r) + t of rank r has the poles of trial t of rank r'.]", "quantifier": "all numbers of samples, ranks, poles, trials, sample values and random streams", "why_tests_cant": "The script is run by hand only; uneven shares and repeated samples change results slightly and without any error.", "anchors": ["edpyt/ded.py:my_N", "edpyt/ded.py:init_rng", "edpyt/ded.py:my_start", "edpyt/dedlib.py:siam_solve"]}
{"id": "C119", "title": "Self-consistency loop of the parallel script", "statement": "The root of the loop in ded.py always leaves it after at most max_it rounds, with sigma0 updated by sigma0 += Re Sigma(0; sigma0) in each, at the first round with |Re Sigma(0)| <= tol or after max_it rounds. With one rank, leaving before max_it means that the last update was within tol. [Refuted: several ranks leave the loop together: eps is only assigned on the root, so if the tolerance is met before the last round, the root leaves and the other ranks wait in the next round forever. Refuted: the script can be started: ded_solve is not defined in dedlib (ImportError), only in dedlib_dev.]", "quantifier": "all numbers of ranks, tolerances, limits, solvers and starting values", "why_tests_cant": "A deadlock that depends on convergence before the last round needs an MPI run to be seen, and no test imports the script.", "anchors": ["edpyt/ded.py:eps", "edpyt/ded.py:sigma0", "edpyt/dedlib.py:smooth"]}
{"id": "C120", "title": "The bath fit respects the symmetries of the bath; symmetric targets get symmetric baths", "statement": "The conjugate-gradient optimiser commutes with every permutation of the parameters with signs: if the function and the gradient are carried along, every run ends in the carried result after the same number of iterations with the same value, or in the same error. For the C bath fit this gives: renumbering the bath levels, changing signs of couplings, and exchanging electrons and holes (energies negated, real part of the target negated) carry the fit into itself. If the target is imaginary on the imaginary axis and the start consists of pairs of levels of opposite energy with equal couplings, so does the result; in particular for the initial bath with two or more levels, where the middle level of an odd number stays at exactly 0 and the fitted hybridisation is imaginary. A point with vanishing gradient is returned unchanged after one iteration, and a target which is the hybridisation of the start gives the start and the value 0. [Refuted for one level: the initial bath has the level at +B and not 0, so that it is not symmetric.]", "quantifier": "for all functions with gradients, all signed permutations, all numbers of levels, frequencies, targets, starts, temperatures and bounds of the line searches", "why_tests_cant": "A test runs the fit on a few targets; that every branch of the line search and of the bracketing decides the same on the transformed data is a statement about all paths through the optimiser.", "anchors": ["edpyt_backend/frprmn.c:frprmn", "edpyt_backend/dlinmin.c:dlinmin", "edpyt_backend/fit.c:fit", "edpyt_backend/bath.c:eval_dchi2", "edpyt/fit_cg.py:get_initial_bath", "edpyt/fit_cffi.py:fit_hybrid"]}
{"id": "C121", "title": "Green's functions and occupations do not depend on the eigensolver", "statement": "Two eigensolvers that each return ascending eigenvalues and an orthonormal eigenbasis may choose different vectors in a degenerate level. For every model that build_espace accepts (any hopping matrix, interaction, exchange and pair hopping) the matrix Green's function of build_gf2_exact and the occupations of get_occupation are nevertheless the same numbers at every frequency and temperature. The matrix is symmetric, and its value at the conjugate point is the conjugate.", "quantifier": "all models of 2 to 32 sites with symmetric hopping and couplings, all pairs of eigensolvers, both spins, all temperatures and complex frequencies", "why_tests_cant": "Degenerate levels leave infinitely many bases; a test sees the one its LAPACK happens to return.", "anchors": ["edpyt/espace.py:build_espace", "edpyt/gf2_exact.py:build_gf2_exact", "edpyt/observs.py:get_occupation"]}
{"id": "C122", "title": "Results of related models", "statement": "Let a second model arise from a first by renumbering the sites, exchanging the spins, multiplying orbitals by signs, exchanging electrons and holes, moving the levels and the background charges, or switching the mean-field mode, so that hoppings, interaction and centred levels correspond. Then the energies of corresponding sectors and the ground state energy differ by one explicit constant, the Green's functions correspond entry by entry (with the sign of the two orbitals, at -z and with a minus sign if holes are exchanged), and the occupations are equal, or add up to one if holes are exchanged. In particular hf=True is the plain mode with every level lowered by half of the interaction with a filled shell.", "quantifier": "all pairs of models of 2 to 32 sites related in this way, all temperatures and frequencies, any two eigensolvers", "why_tests_cant": "The statement compares two runs of the whole pipeline for arbitrary parameters and all permutations, signs and sectors.", "anchors": ["edpyt/espace.py:build_espace", "edpyt/build_mb_ham.py:build_mb_ham", "edpyt/gf2_exact.py:build_gf2_exact", "edpyt/observs.py:get_occupation"]}
{"id": "C123", "title": "Spin symmetry and half filling", "statement": "With one hopping matrix for both spins the Green's functions and occupations of the two spins are equal. With hopping only between two classes of sites and every level at the point of particle-hole symmetry (level plus mu equal to 0 in the mean-field mode, minus half of the interaction with a filled shell otherwise) every orbital is filled with exactly one half at every temperature, the sectors (p,q) and (n-p,n-q) have the same energies, and the Green's function at -z is minus the product of the signs of the two sites times that at z; on the real axis the spectral function of a site is even.", "quantifier": "all such models of 2 to 32 sites, any interaction between sites, all temperatures, frequencies and eigensolvers", "why_tests_cant": "The symmetry holds for all interaction strengths and lattices; tests check small examples to rounding.", "anchors": ["edpyt/espace.py:build_espace", "edpyt/gf2_exact.py:build_gf2_exact", "edpyt/observs.py:get_occupation"]}
{"id": "C124", "title": "One sample of the distributional solver is the difference of two impurity models", "statement": "Each sample of siam_solve builds two Anderson models from its sorted poles: one with the impurity level at the mean of the poles, the fitted bath levels and couplings and no interaction, and one with the level lowered by sigma0 and the interaction U on the impurity alone. Both are diagonalised in all sectors. The sample is rejected exactly when the first sectors holding the two ground state energies (within 1e-7) differ. Otherwise its self-energy at every frequency is the inverse of the mean of 1/(z - pole) minus the inverse of the interacting impurity Green's function, its occupations are those of the two ground sectors, and its entropy is the interacting one minus that of the bath alone. The development version computes every sample on the truncated sectors, marks it as found exactly when the sectors agree, and gives it the weight exp(-beta |m1 - m0|) of the lowest interacting energies in the two ground sectors.", "quantifier": "all numbers of sites, poles, interactions, shifts, temperatures, frequencies, eigensolvers, root finders and all samples that run to completion", "why_tests_cant": "Tests check averages over random samples; which model is solved for which sample, and which sector is compared with which, does not show in an average.", "anchors": ["edpyt/dedlib.py:siam_solve", "edpyt/dedlib.py:build_siam", "edpyt/dedlib.py:Gfimp.fit", "edpyt/dedlib_dev.py:ded_solve"]}
{"id": "C125", "title": "Mirrored poles give the mirrored self-energy", "statement": "Change the sign of all poles of a sample (and sort them again). The fitted bath is mirrored: levels change sign, couplings stay, impurity level changes sign. If the two chemical shifts add up to U, the impurity Green's functions of the two interacting models satisfy G'(-z) = -G(z) and G'(-conj z) = -conj G(z), and whenever both samples are accepted the self-energies satisfy the same relations. In particular, for poles symmetric about 0 and sigma0 = U/2 the self-energy of an accepted sample is purely imaginary on the imaginary axis.", "quantifier": "all samples of ascending poles, interactions, temperatures, frequencies, eigensolvers meeting the contract of eigh, root finders meeting the contract of fsolve, 2 to 32 sites", "why_tests_cant": "A relation between two runs on different inputs; tests compare one run with stored numbers.", "anchors": ["edpyt/dedlib.py:Gfimp.fit", "edpyt/dedlib.py:siam_solve", "edpyt/dedlib.py:build_siam", "edpyt/gf_exact.py:build_gf_exact"]}
{"id": "C126", "title": "The Lanczos and the exact Green's functions of one model are the same function", "statement": "Let the model be well formed (2 to 32 sites, symmetric hopping and exchange, a writeable one-body array) and numpy's eigh return a complete orthonormal set of eigenpairs in ascending order. For the dictionary returned by build_espace without limits on the eigenvalues, with solve_sector and matvec_operator(*build_mb_ham(...)) as the routines that the builders call: build_gf_lanczos succeeds for either spin, every site and either representation, leaves the dictionary as it was, and at every point off the real axis its value equals the diagonal entry of the matrix of build_gf2_exact; with separate=True the two objects are the electron part (the initial state weighs) and the hole part (the final state of the addition weighs) of the Lehmann sum and add up to that entry. build_gf2_lanczos agrees with build_gf2_exact entry by entry under the further condition of C52, that no stored state is annihilated by the sum of the operators on two sites. The Lanczos routine is only asked to exhaust its Krylov space, for arrival sectors of more than ten states for the diagonal; the library's does when it stops on a vanishing coefficient only, and with at most three sites it is not used for the diagonal at all.", "quantifier": "all models of 2 to 32 sites, all interactions, chemical potentials, temperatures, reference energies, both spins, all sites, both representations, joint or separate, all energies off the real axis, all eigensolvers meeting the contract", "why_tests_cant": "the two builders share no code beyond the sectors: one iterates a matrix-vector product and sums continued fractions, the other sums over pairs of stored states; tests compare them for a few models and energies within a tolerance that hides a lost weight or a sign that cancels by symmetry", "anchors": ["edpyt/gf_lanczos.py:build_gf_lanczos", "edpyt/gf2_lanczos.py:build_gf2_lanczos", "edpyt/gf2_exact.py:build_gf2_exact", "edpyt/espace.py:solve_sector", "edpyt/espace.py:build_espace", "edpyt/matvec_product.py:matvec_operator"]}
{"id": "C127", "title": "Which states a screened dictionary's Lanczos Green's function averages over", "statement": "For any dictionary of sectors given to build_gf_lanczos, also one from which states or sectors have been removed, the function returned is the sum, over the states each sector holds when the loop comes to it, of the Boltzmann-weighted resolvent elements, divided by the partition function of the states held when the loop has ended. A stored sector of dimension at most 10 holds all its states from the moment one of its neighbours in the order of the keys has been treated, otherwise those given. If the sectors hold orthonormal eigenstates the divisor is at least the weight of the states summed over, which is at least the weight given; all three agree, and the dictionary stays as it is, if the small sectors are complete. [Refuted: that the result is determined by the states in the dictionary, not by the order of its keys; that the divisor is the weight of the states summed over.]", "quantifier": "all dictionaries of sectors of up to 32 sites, sites, spins, temperatures and points off the real axis, both representations, joint and separate", "why_tests_cant": "The tests build the dictionary completely, or screen it at temperatures where a single state remains and no small sector is stored, so the completion of stored sectors inside the loop is never visible.", "anchors": ["edpyt/gf_lanczos.py:build_gf_lanczos", "edpyt/espace.py:screen_espace"]}
{"id": "C128", "title": "The impurity self-energy is causal and tends to the Hartree shift", "statement": "Take an Anderson impurity model: site 0 with a repulsion, coupled to bath levels that are not coupled to each other. Let the dictionary hold orthonormal eigenstates, all or some. Off the real axis the Lanczos Green's function of site 0 is never zero. In the upper half plane its imaginary part and that of the self-energy z - e0 - Delta(z) - 1/G(z) are not positive. Let r be the weight of the states the function is divided by over the weight of the states it sums over (r = 1 for complete dictionaries, r >= 1 always, see C127). For large |Im z| the self-energy differs from (1-r)(z - e0 - Delta(z)) + r U n by at most a constant over |Im z|, n being the mean occupation of site 0 by the other spin over the states summed; without repulsion it equals (1-r)(z - e0 - Delta(z)), so zero if r = 1. The same holds for Gfimp after any use of the object followed by fit_update and solve, with build_espace, screen_espace (beta 1e6, cutoff 1e-9, whatever the object's beta) and build_gf_lanczos as the solver, provided each fitted coupling is zero or above the threshold of the Hamiltonian; the object called as a function then returns the Green's function itself. In half-filling mode U/2 is subtracted from the limit. [Refuted: that the self-energy of a model without repulsion is zero on a screened dictionary; a two-level example has self-energy -z/2. Refuted: that adjust_neig=True works with the default neig=None; solve raises TypeError.]", "quantifier": "all impurity models of 2 to 32 sites, repulsions, levels, couplings, temperatures, both spins, both representations, all dictionaries of eigenstates, all histories of the object, all points off the real axis, all eigensolvers meeting the contracts", "why_tests_cant": "Causality and the tail are statements about all frequencies and all parameters; the tests look at the converged density of states of single runs, and a solver that loses weight or a state still gives a plausible curve.", "anchors": ["edpyt/dmft.py:Gfimp.solve", "edpyt/dmft.py:Gfimp.Sigma", "edpyt/dmft.py:Gfimp.__call__", "edpyt/gf_lanczos.py:build_gf_lanczos", "edpyt/espace.py:screen_espace"]}
{"id": "C129", "title": "Screening keeps the symmetries of the Lanczos Green's function", "statement": "Build the dictionary of a model without limits, remove states with screen_espace and pass it to build_gf_lanczos. Suppose every stored sector of at most ten states that differs by one electron of the given spin from another stored sector holds all its states (the case in which the loop of C127 changes nothing). Then the dictionary is left as it is and the function is the Lehmann sum over all pairs of states of the complete model in which the states removed weigh nothing, divided by the weight of the states kept; transitions from states kept to states removed count. Two models that differ by a renumbering of the sites, signs of the orbitals, an exchange of the spins or of electrons and holes (C122), each screened relative to its own ground energy with the same temperature and cutoff, have functions that agree at corresponding points, up to the sign for the exchange of electrons and holes. So the function does not depend on the eigenvectors the solver returned, also for degenerate levels; both spins agree if the one-body matrices do; and if the model is its own image under the exchange of electrons and holes, the function of a site that stays in place is odd, conjugate at the conjugate point and purely imaginary on the imaginary axis.", "quantifier": "all models of 2 to 32 sites, dictionaries complete before screening, criteria by energy (for related models: Boltzmann factor against a cutoff), sites, spins and points off the real axis", "why_tests_cant": "Symmetric test models have symmetric numerical eigenvectors up to rounding, and keeping different states in the two models is only visible for particular spectra and cutoffs.", "anchors": ["edpyt/espace.py:screen_espace", "edpyt/gf_lanczos.py:build_gf_lanczos", "edpyt/espace.py:build_espace"]}
{"id": "C130", "title": "The self-consistency loop at half filling keeps particle-hole symmetry", "statement": "Let the impurity have on-site repulsion U and chemical potential mu - ed = U/2 (0 in the mean-field mode), let the bath consist of pairs of levels of opposite energy with equal couplings, and let the lattice send the imaginary axis to itself. Then in every iteration of DMFT.step with the library's own solver (complete diagonalisation, screening, Lanczos function) the impurity function is odd and conjugate at conjugate points, the self-energy minus U/2 is odd, its real part on the imaginary axis is U/2, every hybridisation array is purely imaginary, and the bath keeps its pairs - provided that the fit and the mixing keep the symmetry, that screening leaves no small sector partly filled next to another stored sector, and that the Krylov spaces run out. Neither attribute errors nor solver errors occur: the loop ends by the mixing rule, by convergence or by the limit of iterations. The Bethe lattice, any fit that commutes with the reflection (among them the C optimiser of the library) and linear mixing satisfy the conditions; DMFT.initialize does for three or more sites. [Refuted: that the loop starts symmetric for every number of levels; the single level of two sites starts at +2.]", "quantifier": "All impurity sizes from 2 to 32, all U, hfmode on or off, both spins, all Matsubara grids, fits, mixing rules and numbers of iterations.", "why_tests_cant": "The symmetry has to survive a fit, a diagonalisation, a screening, a continued fraction and a Dyson equation in each of an unbounded number of iterations; tests can follow a few runs with rounding noise of the size of the effect.", "anchors": ["edpyt/dmft.py:dmft_step", "edpyt/dmft.py:DMFT.step", "edpyt/dmft.py:DMFT.initialize", "edpyt/dmft.py:Gfimp.solve", "edpyt/dmft.py:Gfimp.Sigma", "edpyt/dmft.py:Gfloc.Delta"]}
{"id": "C131", "title": "Opposite fields give the same solution with the spins exchanged", "statement": "SpinGfimp.solve returns, for each spin, the Lehmann average over the states of the model with one Hamiltonian per spin that are left by screening. Exchanging the two Hamiltonians exchanges the two functions and keeps the ground-state energy; equal Hamiltonians give the function of Gfimp.solve twice. DMFT.initialize_magnetic with opposite signs of the field gives states and hybridisations with the spins exchanged, every iteration keeps this correspondence, and so does the whole loop: both runs make corresponding trials and end at the same iteration for the same reason. With field zero the loop of the pair is, trial by trial, the loop of the plain impurity. [Refuted: that equal Hamiltonians give equal functions without a condition on the small sectors. The down function is built from the dictionary that the up call has completed; for an impurity at 0 and a decoupled level at 1 without interaction the down function is 1/z and the up function is c/z with 0 < c < 1.]", "quantifier": "for all n from 2 to 32, symmetric Hamiltonians, U, beta, fields, fits that keep the size of the bath, lattices, grids off the real axis, mixing rules and distances that treat the two rows alike, and numbers of iterations; the loop statements assume of the trials met that the small sectors kept by screening are not disturbed and the Lanczos runs are exhaustive", "why_tests_cant": "A test runs one field on one lattice and compares numbers within a tolerance; it cannot show the correspondence for every fit, mixing and number of iterations, and the asymmetry between the first and the second spin appears only when sectors are cut in a particular way.", "anchors": ["edpyt/dmft.py:SpinGfimp.solve", "edpyt/dmft.py:SpinGfimp.fit", "edpyt/dmft.py:SpinGfimp.update", "edpyt/dmft.py:SpinGfimp.reset_bath", "edpyt/dmft.py:dmft_step_magnetic", "edpyt/dmft.py:DMFT.initialize_magnetic", "edpyt/dmft.py:DMFT.step"]}
{"id": "C132", "title": "At half filling a field splits the spins into mirror images", "statement": "An impurity with one Hamiltonian per spin whose impurity levels are -(c+f) for up and -(c-f) for down (c = U/2, or 0 in the mean-field mode) and whose bath levels come in pairs of opposite energy and equal coupling, one per spin, is its own image when the spins are exchanged together with electrons and holes. Hence, for every field f and every temperature, the impurity holds exactly one electron, and SpinGfimp.solve (library solver, screening, Lanczos) returns functions with G_dn(-z) = -G_up(z) and G(conj z) = conj G(z): on the imaginary axis the imaginary parts agree and the real parts are opposite. DMFT.initialize_magnetic at mu - ed = c produces such a state for every field, every DMFT.step keeps it, with the second row of the hybridisation the reflection (-conj) of the first, and so does the whole loop under linear mixing, which ends by convergence or by the limit of iterations. The Bethe lattice, symmetric discrete hybridisations and the library's C fit satisfy what is asked of lattice and fit.", "quantifier": "all sizes 2..32 (3..32 for the start), all fields, couplings, levels, temperatures, all numbers of iterations, all z off the real axis", "why_tests_cant": "The relation holds for every input and along a whole run; tests check a few fields to a tolerance.", "anchors": ["edpyt/dmft.py:SpinGfimp.solve", "edpyt/dmft.py:dmft_step_magnetic", "edpyt/dmft.py:DMFT.initialize_magnetic", "edpyt/dmft.py:DMFT.step", "edpyt/observs.py:get_occupation"]}
{"id": "C133", "title": "A site that no hopping leaves is an atom", "statement": "If no hopping above the cut-off connects site 0 to the rest of a Hubbard cluster (repulsions on the sites, no exchange), then, whatever the other sites are: with all states kept, get_occupation of observs.py gives for site 0 the grand canonical filling (exp(-b e)+exp(-b(e+e'+U)))/(1+exp(-b e)+exp(-b e')+exp(-b(e+e'+U))), strictly between 0 and 1, and entry (0,0) of build_gf2_exact as well as build_gf_lanczos on site 0 equal (1-m)/(z-e) + m/(z-e-U) with m the filling of the other spin, that is the self-energy U m + U^2 m(1-m)/(z-e-U(1-m)). On a screened dictionary the Lanczos function is the same with the weights of the states met, over the partition sum of the states finally stored. For the impurity object of dmft.py, after any sequence of calls, when the fit leaves every bath level uncoupled, the function and Sigma are these, up to the ratio r of the two partition sums (C127, C128): Sigma = (1-r)(z-e) + r sigma_atom - w with w the mean-field shift.", "quantifier": "all sizes 2..32, all levels, spin-dependent or not, repulsions, chemical potentials, temperatures, all z off the real axis, all operation sequences of the impurity object, all eigensolvers with their contract", "why_tests_cant": "A closed form for every temperature, level and repulsion, independent of the arbitrary rest of the cluster; tests compare a few numbers to a tolerance.", "anchors": ["edpyt/gf2_exact.py:build_gf2_exact", "edpyt/gf_lanczos.py:build_gf_lanczos", "edpyt/observs.py:get_occupation", "edpyt/dmft.py:Gfimp.Sigma", "edpyt/espace.py:build_espace"]}
{"id": "C134", "title": "Spin multiplets appear in the stored spectra", "statement": "Without exchange and with one one-body matrix for both spins, the dictionary of build_espace (all states kept, any site repulsions and density interactions between sites, any chemical potential, half-filling mode or not, any charges z) has the structure of spin multiplets: an energy stored k times in the sector (p+1, q), q <= p, is stored at least k times in (p, q+1); hence an energy of the sector (p, q), q < p, occurs at each of the p-q+1 projections from (p, q) to (q, p) with at least its multiplicity, opposite projections have identical spectra, every energy with N electrons occurs in the sector (N - N/2, N/2), and the returned egs is an energy of one of these 2n+1 sectors. [Refuted with Jx: because the opposite-spin exchange has the wrong sign (C22), the energy of the parallel pair of a two-site model is missing in the sector (1,1).]", "quantifier": "all sizes 2..32, all symmetric one-body matrices, all interaction matrices, chemical potentials and modes, all energies and multiplicities, all eigensolvers with their contract", "why_tests_cant": "A statement about all multiplicities of all sectors for every interaction; tests compare energies of one or two small clusters to a tolerance and cannot count degenerate levels reliably.", "anchors": ["edpyt/espace.py:build_espace", "edpyt/espace.py:solve_sector", "edpyt/ham_local.py:build_ham_local", "edpyt/ham_hopping.py:build_ham_hopping", "edpyt/ham_non_local.py:build_ham_non_local"]}
{"id": "C135", "title": "Entropy falls on cooling, from the logarithm of all levels to that of the ground levels", "statement": "For a spectrum with at least one level, _calc_entropy on the result of _get_entropy_params at T = 1/(kB beta) does not increase when beta grows, and neither does the mean energy that _get_entropy_params returns, which is the Gibbs mean minus the reference energy. With all levels in [lo, hi] the entropy lies between kB (ln N - beta (hi - lo)) and kB ln N, N being the number of levels. With g levels at the minimum and the others at least gap above, it lies between kB ln g and kB (ln g + 2 (N - g)/g exp(-beta gap/2)). The spectrum that build_non_interacting_espace returns for at most eight levels has 4^m entries, and its entropy is 2 kB times the sum over the levels of the binary entropy of their Fermi factors. Hence the entropy of an accepted sample of siam_solve on at most nine sites is the Gibbs entropy of all 4^n interacting levels minus that sum, lies between -kB (n-1) ln 4 and kB n ln 4, and is within kB beta times the widths of the two spectra of kB ln 4.", "quantifier": "every spectrum, temperature, reference energy, set of poles and interaction; baths of at most eight levels", "why_tests_cant": "A test evaluates the entropy at a few temperatures of one spectrum; monotony, both limits with their rates and the product form of the bath hold for all spectra and are not visible in single values.", "anchors": ["edpyt/dedlib.py:_get_entropy_params", "edpyt/dedlib.py:_calc_entropy", "edpyt/dedlib.py:get_entropy", "edpyt/espace.py:build_non_interacting_espace", "edpyt/dedlib.py:siam_solve"]}
{"id": "C136", "title": "Occupations answer level shifts the right way", "statement": "For two models with the same hopping and interaction that differ only in their levels (diagonal of the one-body matrix, per spin, plus mu), both solved by build_espace with all states kept, and for every beta > 0: with F = egs - ln Z / beta, Z the partition sum of _get_entropy_params, the change F' - F is at least the sum over sites and spins of (level change) * (occupation after) and at most the same sum with the occupations before, where the occupations are what observs.get_occupation returns. Hence raising a single level of one spin never raises its occupation, the difference quotient of F lies between the two occupations, a larger mu (which the code adds to the levels) never gives more electrons, and raising levels raises F by at most the sum of the raises. F is mean energy minus T times the entropy of _calc_entropy.", "quantifier": "for all numbers of sites 2..32, one-body matrices, interactions, thresholds, shifts of any size, beta > 0 and eigensolvers meeting the contract", "why_tests_cant": "A wrong sign of mu, an occupation taken from the wrong spin or a partition sum with another reference energy gives plausible numbers at any one point; the inequality compares every pair of models at every temperature.", "anchors": ["edpyt/observs.py:get_occupation", "edpyt/dedlib.py:_get_entropy_params", "edpyt/dedlib.py:_calc_entropy", "edpyt/espace.py:build_espace", "edpyt/ham_local.py:build_ham_local"]}
{"id": "C137", "title": "Ground-state filling follows the levels", "statement": "For two models with the same hopping and interaction whose levels differ by a_i on site i for both spins, both solved by build_espace with all states kept: if siam_solve's lookup (first sector whose lowest energy is within tol of egs) finds a ground state in each, the change of egs is at least sum_i a_i N'_i - tol and at most sum_i a_i N_i + tol, where N and N' are the occupations dedlib.get_occupation computes from the two ground-state vectors. Hence two accepted trials of siam_solve with the same poles but different sigma0 (subtracted from the impurity level) have the same non-interacting occupation, and (sigma0' - sigma0) (occ' - occ) >= -2e-7: a larger shift never empties the impurity.", "quantifier": "for all numbers of sites 2..32, one-body matrices, interactions, level shifts, tolerances, poles, U, sigma0 and eigensolvers meeting the contract", "why_tests_cant": "A test fixes one sigma0 and one set of poles; an occupation read from the wrong column, the wrong axis of the reshaped vector or the wrong sign of sigma0 still lies in [0, 2].", "anchors": ["edpyt/dedlib.py:siam_solve", "edpyt/dedlib.py:get_occupation", "edpyt/dedlib.py:build_siam", "edpyt/espace.py:build_espace"]}
{"id": "C138", "title": "Occupations bound the effect of the repulsion", "statement": "For two models with the same one-body matrix, mu, exchange and intersite terms whose on-site repulsions satisfy U_ii <= U'_ii, both solved by build_espace with all states kept, and for every beta > 0: with F = egs - ln Z / beta, Z the partition sum of _get_entropy_params, and n_up, n_dw the occupations observs.get_occupation returns: without hfmode, F' - F is at least the sum over sites of (U'_ii - U_ii) max(0, n'_up + n'_dw - 1) and at most the sum of (U'_ii - U_ii) min(n_up, n_dw), so the repulsion never lowers F. With hfmode, where the code repels (n_up - 1/2)(n_dw - 1/2), it is at least the sum of (U'_ii - U_ii)(|n'_up + n'_dw - 1|/2 - 1/4) and at most the sum of (U'_ii - U_ii)(1/4 - |n_up - n_dw|/2), so F changes by at most a quarter of the total raise.", "quantifier": "for all numbers of sites 2..32, one-body matrices, interactions, raises of any size, both values of hfmode, beta > 0 and eigensolvers meeting the contract", "why_tests_cant": "A repulsion counted twice, without the hfmode shift or between equal spins gives a plausible spectrum for any one U; the bounds tie the spectra of every pair of U to the occupations.", "anchors": ["edpyt/observs.py:get_occupation", "edpyt/dedlib.py:_get_entropy_params", "edpyt/espace.py:build_espace", "edpyt/ham_local.py:build_ham_local"]}
{"id": "C139", "title": "Full-matrix CSR compression needs the exact count", "statement": "nnz_csrmat(A, nnz) for an n x n matrix: if nnz is the number of entries with |A_ij| > 1e-7, diagonal included, the result is a well-formed CSR matrix (row pointers from 0 to nnz, never decreasing, columns in range) that stores exactly those entries, so that reading entry (i,j) gives A_ij above the threshold and 0 below. If nnz is smaller it raises IndexError. If nnz is larger it should also be noticed, but is not: the call returns normally with cells of data and indices that were never written.", "quantifier": "for all n, matrices, thresholds and nnz", "why_tests_cant": "The function has no caller in the repository, so nothing exercises it; a count taken with np.count_nonzero or count_nnz_offdiag agrees on the usual matrices and fails on ones with tiny or diagonal entries.", "anchors": ["edpyt/ham_non_local.py:nnz_csrmat", "edpyt/ham_hopping.py:empty_csrmat"]}
{"id": "C140", "title": "Sampled Lorentzian is a density of full width gamma", "statement": "lorentzian_function(gamma, z0) with gamma > 0 is positive, even about z0 and strictly falling away from it, has the value 2/(pi gamma) at z0 and half of that at z0 +- gamma/2. The weight of [a, b] is (atan(2(b-z0)/gamma) - atan(2(a-z0)/gamma))/pi: always below 1, hence a sampler with finite limits never has the whole weight, but as close to 1 as one likes for wide enough limits. A negative gamma gives a negative function. In each round of ded.py the sampled density equals -Im G/pi of the function plotted at the end of the round, 1/(w - ed - sigma - sigma0 + 0.3j), on the real axis with zero self-energy.", "quantifier": "for all gamma, z0, intervals, ed, sigma0 and real energies", "why_tests_cant": "Numerical integration over a finite mesh confuses the missing tails with a wrong prefactor; the factor 2 between gamma and the width of the plotted function shows only when the two lines are compared for all arguments.", "anchors": ["edpyt/ded.py:lorentzian_function"]}
{"id": "C141", "title": "Linear mixing keeps hybridisations causal", "statement": "DMFT.solve(delta, mixing_method='linear') evaluates distance = weights * (DMFT(delta) - delta), weights = wn**-alpha with the alpha of DMFT, and moves by a fraction of its own alpha times the distance. If that alpha times each weight is in [0, 1], every convex condition that holds at each frequency for the first hybridisation and is kept by DMFT.step holds for every hybridisation the run evaluates, for any line search; in particular Im delta <= 0 with the default weights, or with beta <= pi. With any positive weights the distance vanishes exactly at fixed points. It should also hold for the other weights, and a wrong mixing_method should be reported, but neither is so: 1/wn at beta = 100 and the default alpha = 0.2 turn causal input into Im delta > 3 in one step, and an unknown method returns without evaluating anything.", "quantifier": "for all steps, tolerances, numbers of frequencies, weights, mixing parameters, line searches with step lengths in [0,1], and numbers of iterations", "why_tests_cant": "A run shows the hybridisations of one model at one temperature; that the weights act as a frequency-dependent mixing parameter shows only at low temperature.", "anchors": ["edpyt/dmft.py:DMFT.solve", "edpyt/dmft.py:DMFT.solve_with_linear_mixing", "edpyt/dmft.py:DMFT.distance", "edpyt/dmft.py:DMFT.__init__"]}
{"id": "C142", "title": "The calls of a bath fit do not disturb each other although they share work arrays", "statement": "Delta, DDelta and dChi2 keep their work arrays between calls. For an even number of parameters, every sequence of calls to delta, chi2 and dchi2, from any initial content of these arrays, answers each call with the mean squared distance, respectively its exact partial derivatives, at that call's own parameters. The array returned by delta always holds the hybridisation of the last call of any kind. [Corners: an array kept from an earlier call of delta is overwritten by the next call; with an odd number of parameters the last entry of the gradient is whatever the uninitialised array held.]", "quantifier": "all sequences of calls, all numbers of levels, all grids and targets, all memory contents", "why_tests_cant": "interference depends on the order of calls and on uninitialised memory", "anchors": ["edpyt/fit_cg.py:Delta", "edpyt/fit_cg.py:DDelta", "edpyt/fit_cg.py:Chi2", "edpyt/fit_cg.py:dChi2", "edpyt/fit_cg.py:fit_hybrid"]}
