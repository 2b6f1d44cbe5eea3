# Design of the formal model of edpyt

Source: `/repo` (gandusgui/edpyt at the pinned commit), read as text only.
Prover: Rocq/Coq 8.16.1.  Everything lives in `rocq/theories`, logical prefix `Verif`.

## 1. Trusted base

1. Coq's kernel (8.16.1), including `vm_compute` for concrete examples and witnesses.
2. For each theorem, exactly the axioms printed by the `Print Assumptions` that follows it in the
   `*Props.v` files.  The rule used throughout:
   * everything about bits, lists, indices, matrices, control flow is proved **axiom free**
     ("Closed under the global context");
   * theorems that mention the real numbers (Boltzmann factors, Lanczos norms, complex numbers built on
     `R`, derivatives) use the standard library's `Reals`, i.e. the axioms
     `ClassicalDedekindReals.sig_forall_dec`, `ClassicalDedekindReals.sig_not_dec` and
     `FunctionalExtensionality.functional_extensionality_dep`; some theorems (in `EspaceProps.v`, `CotProps.v`, `DedProps.v`, `ExactProps.v`, `FermiProps.v`, `OccProps.v`, `TnlProps.v`, `CnlProps.v`, `NanoProps.v`, `AdjProps.v`, `DevProps.v`, `ParProps.v`, `ImpProps.v`, `MagProps.v`, `EntProps.v`, `RespProps.v` and `RespGsProps.v`, `RespUProps.v`, `LorProps.v`, `LmProps.v`,
     through lemmas of the library about real functions) also print `Classical_Prop.classic`.  These four are the only
     axioms any `Print Assumptions` shows.  (`coqchk` additionally lists the abstract fields of the library's
     own modules `Rdefinitions.RbaseSymbolsImpl`, `RinvImpl` and `ssrunder.Under_rel`, which are module
     parameters with an implementation, not axioms.)
   * no axiom is declared here; section variables become premises of the theorems.
3. The reading of Python / NumPy / Numba / Cython / C semantics written in the comment of every definition
   (each cites file and lines).  The main readings are:
   * **Numbers.**  `float64`/`complex128` arithmetic is replaced by exact arithmetic: an arbitrary commutative
     ring or field given as an explicit record (`CRing`, `CField`) where the property is algebraic, `R` or
     pairs of `R` where order, square roots or exponentials matter.  Only the schedule-independence theorems
     use *arbitrary non-associative* operations and therefore also speak about rounded arithmetic.
   * **Machine words.**  States are `N`; every place where the code stores into `uint32` truncates modulo
     2^32 in the model, intermediate `uint64` arithmetic of Numba truncates modulo 2^64.
     Array sizes and positions are `nat` (or `Z` where negative values are meaningful).
   * **Exceptions are values**: `res A := Ok a | Err e`, one constructor of `exn` per Python exception class.
   * **Arrays** are lists or total functions on indices; a read or write outside the array is modelled
     explicitly wherever a theorem speaks about it (`IndexError` for Python/NumPy, a separate out-of-bounds
     error for Cython/Numba without bounds check).
   * **scipy.special.binom** composed with `int` is the exact binomial coefficient `C(n,p)`, zero outside
     `0<=p<=n` (for the sizes reachable with 32-bit states; float rounding of scipy's product formula is not
     modelled).
   * **LAPACK / ARPACK / `np.linalg.eig` / `fsolve` / `fmin_cg` / MPI transport** are oracles: section
     variables or function arguments, with their documented contract as an explicit premise of exactly those
     theorems that need it.  The contracts are: `eigh`/`eigsh`/`eigh_tridiagonal` return eigenvalues with an
     orthonormal family of eigenvectors (C29, C57, C59, C67); `np.linalg.eig` returns eigenpairs (C44); the
     optimiser of the Python fit is any length-preserving function (C49); the complex square root is any
     function with `sqrt(w)^2 = w` and non-negative real part (C64); `mpmath.psi` enters through its
     derivative, continuity and behaviour under conjugation (C69, C70); `np.linalg.inv` returns a two-sided inverse
     when there is one and raises otherwise (C103-C106); `brentq` returns a zero inside the bracket if the
     signs at the ends differ, raises `ValueError` if they agree and passes on exceptions of the function (C107);
     LAPACK's `stebz`, `stein` and `stemr` return eigenvalues (ascending or by block) and unit eigenvectors inside blocks
     (C109, C110; met by constructed routines).  ARPACK's `dsaupd` ends its dialogue and reports a status, `dseupd` returns
     eigenpairs, the lowest ones if the status is 0 (C111, C112; met by a constructed solver).
   * **`np.nditer` with `external_loop`** hands out one chunk per index of the outer axes, after numpy has joined
     neighbouring axes that can be walked with one stride; an axis of length one is always joined (C103).
4. Not modelled at all: plotting, printing of progress, file I/O, wall-clock, memory exhaustion, NaN/Inf
   propagation (except where a branch of the code depends on it), Numba/Cython compilation itself,
   `edpyt/*.c` files generated by Cython, `ham_non_local.py.bak`, `dedopt.py`, `cotools.py`, setup files.

## 2. Layout

| files | content |
|---|---|
| `Base.v`, `RBase.v`, `RLin.v`, `CBase.v` | `res`, `exn`, list/array helpers, records `CRing`/`CField`, finite sums; decidable order on `R`, real linear algebra, complex numbers as pairs |
| `*Model.v` | definitions only; one Gallina function per modelled source function, cited |
| `*Spec.v` | small independent specifications (no use of the model's helpers) |
| `*Proofs.v` | lemmas |
| `*Props.v` | only the property theorems (each `exact lemma`), `Print Assumptions`, and next to each one a concrete non-trivial instance of its hypotheses |

| family | source | properties |
|---|---|---|
| Operators | operators.py | C01-C06 |
| Lookup | lookup.py, integer_digits helpers | C07-C11 |
| Sector | sector.py, permutations | C12-C14 |
| Fock (spec only) | second quantisation on lists of occupations | used by C18-C20, C38, C56 |
| Local, Hopping, NonLocal, Csr | ham_local.py, ham_hopping.py, ham_non_local.py | C15-C20 |
| Mb, Matvec, Mpi | build_mb_ham.py, matvec_operator.py and its Cython kernels | C21-C27, C56 |
| Espace | espace.py | C28-C33, C57 |
| Lanczos, Cf | lanczos.py, continued_fraction.pyx, coefficient builders of gf_lanczos.py | C34-C37, C58-C60 |
| Proj, Gf | projections, gf_exact.py | C38-C40 |
| Gfl | gf_lanczos.py, gf2_lanczos.py | C52, C67, C68 |
| Gm | gf2_exact.py | C77, C78 |
| Ded | dedlib.py | C79-C84 |
| Exact (with Spectral, Eigh, Conserve, Flip) | espace.py, gf_exact.py, gf2_exact.py, dedlib.py end to end, for solvers meeting the `eigh` contract | C85-C88 |
| Fermi (with Lambert, Matsum) | integrate_gf.py (zero_fermi, integrate_gf, matsum_gf) | C89-C92 |
| Occ | gf_exact.py, observs.py and integrate_gf.py together | C93 |
| Band | lanczos.py (gram_schmidt_rows, build_bd_tridiag) | C94, C95 |
| Obs | observs.py | C41, C42, C61 |
| Rate | sqtunneling.py, cotunneling.py, sqtnl.py, cotnl.py (matrices), rates.py | C43-C46 |
| Trans | sqtunneling.py (elements, rates, stationary solution) | C73, C74 |
| Tnl (with Thermo, TransCurrent) | sqtnl.py (elements, rates), currents of sqtnl.py and sqtunneling.py | C96-C98 |
| Cnl | cotnl.py (elements, screening, approximate and integrated rates) | C99-C102 |
| Cot | cotunneling.py (elements, approximate rates) | C75, C76 |
| Fit, Nr | fit_cg.py, edpyt_backend (bath.c, mnbrak.c, dbrent.c, dlinmin.c, frprmn.c) | C50, C51, C54 |
| Dmft | dmft.py, nano_dmft.py (hybridisation) | C47-C49, C62-C66 |
| Nano (Mat, More, Rank, Step, Inv) | nano_dmft.py | C103-C106 |
| Tri (Real, Solve) | tridiag.py, lanczos.py `sl_solve` | C109, C110 |
| Arp (Real) | eigh_arpack.py | C111, C112 |
| Smo (Run) | dedlib.py `smooth` | C113 |
| Ext (Build, Mat) | sqtnl.py `extract_sequential_from_cotunneling` | C114 |
| Dev (Run) | dedlib_dev.py; espace.py with `neig_max` | C115, C116, C117 |
| Par | ded.py | C118, C119 |
| Sym, SymFix | edpyt_backend optimiser and fit; `fit_cg.py` initial bath | C120 |
| Rel (Lin, Fock, Ham, Gf, Final, Cor) | whole pipeline: espace.py, gf2_exact.py, observs.py (no model of its own) | C121, C122, C123 |
| Imp (Proofs, Mirror, Ex) | dedlib.py samples end to end, dedlib_dev.py samples (no model of its own) | C124, C125 |
| Agr (Proofs, Inst, Main, Ex) | gf_lanczos.py and gf2_lanczos.py with the routines of espace.py and matvec_product.py, against gf2_exact.py | C126 |
| Vis (Proofs, Main, Ex) | gf_lanczos.py on screened dictionaries (model: Gfl) | C127 |
| Siam (Lin, Fock, State, Form, Main, Link, Cut, Inst, Imp, Ex) | dmft.py `Gfimp.solve`, `Sigma`, `__call__` with the library's own solver (models: Dmft, Agr, Siam) | C128 |
| Scr (Rel, Main, Ex) | espace.py `screen_espace` followed by gf_lanczos.py (models: Espace, Gfl, Agr) | C129 |
| Phs (Proofs, Loop, Ex) | dmft.py `DMFT.initialize`, `step`, the loop, with the library's own solver (models: Dmft, Siam) | C130 |
| Mag (Model, Proofs, Loop, Start, Ex, Bad) | dmft.py `SpinGfimp`, `dmft_step_magnetic`, `DMFT.initialize_magnetic`, `step` | C131 |
| Afm (Spec, Proofs, Loop) | the same functions at half filling; no model of its own | C132 |
| Atom (Spec, Proofs, Inst, Occ, Imp, Main) | the same functions on a cluster with an isolated site; no model of its own | C133 |
| Mul (Proofs, Norm, Count, Main) | the same functions on models without exchange and with spin-independent hopping; no model of its own | C134 |
| Ent (Spec, Proofs, Bath, Main) | `_get_entropy_params`, `_calc_entropy`, `get_entropy` of dedlib.py and `build_non_interacting_espace` again; no model of its own | C135 |
| Resp (Spec, Proofs, Main, Ground, U) | `build_espace`, `get_occupation`, `_get_entropy_params` again, and `siam_solve`, for two models at a time; no model of its own | C136–C138 |
| Nnz | ham_non_local.py `nnz_csrmat` | C139 |
| Lor | ded.py `lorentzian_function`, the lines using it (97, 125-126) | C140 |
| Lm | dmft.py `DMFT.solve`, `solve_with_linear_mixing`, `distance`, the weights (driver: Dmft) | C141 |
| Buf | fit_cg.py `Delta`, `DDelta`, `Chi2`, `dChi2` with their shared arrays (formulas: Fit) | C142 |
| Adj (Occ) | dmft.py (adjust_mu, dmft_step_adjust, step, `__call__`, integrate) | C107, C108 |
| Int | integrals.py, cotnl.py `Sigma.exact` | C53, C69, C70 |
| Show | eshow.py | C55, C71, C72 |

Theorem names are the ones listed in `MANIFEST.json`; `*_refuted` states that the documented / expected
statement is false of the faithful model, with a witness; `*_partial` marks a theorem that covers part of its
property.

## 3. Per-property plan

| id | modelled | proof |
|---|---|---|
| C01 | `flip`, `cdg`, `c` on `N` with uint32 wrap-around | bit extensionality (`N.bits_inj`), comparison of numbers differing in one bit |
| C02 | `fsgn` loop over `range(pos+1,n)` | loop = count of set bits, parity |
| C03 | C01+C02, signed-state semantics with `Err` read as zero | how one flip changes the count above another position; case analysis i<j, i=j, i>j |
| C04 | `cdgc`, `get_parity` | sign split: bits above i xor bits above j = bits between |
| C05 | `c`, `cdg` | flip is an involution, sign depends only on other bits |
| C06 | `check_full`, `check_empty` | direct from C01/C02 |
| C07 | `binsearch` with fuel = array length, reads checked | loop invariant `a[lo]<=s<a[hi]`, gap shrinks |
| C08 | `get_spin_indices`, `get_state_index` | Euclidean division |
| C09 | `np.ravel_multi_index`/`unravel_index` for shape (n+1,n+1), errors included | Euclidean division |
| C10 | `binrep`, `intrep` | witness for refutation; general theorem: composition = bit reversal; `intrep (rev (binrep i n)) = i` |
| C11 | `count_bits` | loop = popcount |
| C12 | `generate_states`, `permutations` (Gosper's successor with uint64/uint32 truncation) | successor lemma on the shape `h 0 1^k 0^m -> h 1 0^(m+1) 1^(k-1)`, no state in between, induction; count by binomial recursion |
| C13 | `get_sector_dim`, sector lists, `get_espace_dim` | Vandermonde-type sums by induction; popcount partition |
| C14 | `get_cdg_sector`, `get_c_sector` on `Z` | case analysis |
| C15 | `_build_ham_local`, `build_ham_local` over any commutative ring with 1/2 | loop = finite sum; parallel loop: every permutation of the writes gives the same array |
| C16 | `_N_build_ham_local` | masks extract the two halves; equality of sums; witness for the refuted part |
| C17 | `count_nnz_offdiag`, `nnz_offdiag_csrmat`, `add_hoppings`, `build_ham_hopping` writing into bounded buffers | double counting: states with i empty and j full are in bijection with (n-2)-bit states of p-1 particles |
| C18 | same + dense reading of CSR | entry = sum over matching (i,j); relation with C03/C04 operators |
| C19 | `_build_ham_non_local` | product form of C17/C18 |
| C20 | `_N_build_ham_non_local` | four-operator words on 2n orbitals split into up/down words |
| C21 | dense assembly of all operators | adjointness (C05) + symmetry of inputs |
| C22 | `build_mb_ham` as a state machine over (writeable flag, exceptions) | case analysis; witnesses |
| C23 | `UPmultiply`, `DWmultiply`, `Multiply`, csr loops, `matvec`, `todense` | accumulate loops = finite sums; index bijection C08 |
| C24 | iterations as lists of atomic read-modify-write updates, arbitrary operations | any interleaving of threads writing disjoint cells equals the sequential run |
| C25 | `collect_dw`, `collect_up`, `Alltoall` on all ranks' memories | index calculation |
| C26 | `_matvec_operator_mpi` on all ranks | C23 + C25 |
| C27 | `todense` on lists of operators, `res or empty_like` | witness |
| C28 | `build_espace`, iterators; solver as oracle | induction over the sector list |
| C29 | `solve_sector` | list slicing |
| C30 | `get_espace_dim` | list lemma |
| C31 | `screen_espace` | filter lemmas; monotonicity of exp |
| C32 | `adjust_neigsector` as merge of two iterators | induction; invariant 1<=neig<=dim |
| C33 | `add_onsites`, `sum_diags_contrib`, `build_non_interacting_espace` with explicit shift semantics | sums; witness for n=9 |
| C34 | `build_sl_tridiag` control flow with the step as oracle | fuel adequacy, loop invariant |
| C35 | `_sl_step` over `R^n` | classical induction on orthogonality |
| C36 | `calc` (continued fraction) over a field / complex numbers | Schur-complement induction; Im part invariant |
| C37 | coefficient builders, `spectral` | uniqueness of the tridiagonal solution |
| C38 | `project_exact_*`, `project_*` | strided index calculation; C05, C12 |
| C39 | `build_gf_exact` | trace of e^{-bH}{c,c+} with completeness premise |
| C40 | `build_gf_exact` ispin=1 | witness |
| C41 | `_get_evecs_occupation`, `get_occupation` | finite sums, nonnegativity |
| C42 | MPI variant | splitting a sum over blocks |
| C43 | rate-matrix builders | loop invariant: columns sum to zero |
| C44 | `stationary_solution`, `eig` oracle | Gershgorin on columns over complex numbers |
| C45 | `Gfe`, `Gfh`, `nF` over `R` | field/exp algebra |
| C46 | `find_active_sectors`, `get_active_neig`, `getdns`, `getdud` | case analysis; witness for cotunneling |
| C47 | `DMFT.__call__` as a transition system | induction on the history |
| C48 | `Gfloc`, `Gfhybrid`, `Gfhilbert`, `Gfimp` over a field | field algebra |
| C49 | `Gfimp.fit/update/free`, `_delta` | arrowhead Schur complement |
| C50 | `get_initial_bath`, `init_bath` as writes into an optional-valued array | index case analysis; witnesses |
| C51 | `_delta`, `_ddelta`, `_chi2`, `dChi2` over `R` | derivatives of real and imaginary parts |
| C52 | `_Gf2` | bilinear algebra |
| C53 | `Gamma2`, `Gamma4`, `Sigma.exact` | ring algebra; the dispatch by the number of poles |
| C54 | `mnbrak`, `dbrent`, `dlinmin`, `frprmn` over `R` with fuel | loop invariants; witness |
| C55 | `fock` | per-site decoding |
| C56 | `build_mb_ham` + `todense` | entries of the sum of operators = Fock-space matrix elements (C18-C20 + Kronecker structure) |
| C57 | `build_espace` with eigh oracle | C28 + C56 |
| C58 | `_sl_step_mpi` | sums over ranks = sum over the concatenation |
| C59 | `sl_solve` | the second pass regenerates the basis; H r = E r up to the residual term |
| C60 | C36+C37 with an exhausted Krylov space | uniqueness of the resolvent solution |
| C61 | state of the caller's array after `_get_evecs_occupation` | shape bookkeeping; witness |
| C62 | fixed point of `DMFT.step` | field algebra |
| C63 | heap of arrays, fancy indexing copies | frame property |
| C64 | `_ht`, `ht` | algebra of the semicircle, branch by sign of Im |
| C65, C66 | `dmft_step_magnetic`, `initialize` | unfolding; witness |
| C67 | `build_gf_lanczos` | loop over sectors; each side equals a resolvent element (C60) |
| C68 | dictionary after the call | invariant over the loop; witness |
| C69, C70 | limits of `Gamma2`, branches of `I1`/`I2` | derivative of the difference quotient |
| C71, C72 | `eprint`, `pdisplay` | sorting and grouping are permutations |
| C73 | `project`, `build_transition_elements` of sqtunneling | loop invariant over the growing dictionary; brackets of C38; pairing by adjointness |
| C74 | rate and transition matrices of C73 with equal potentials | detailed balance of each pair, then C43/C44 |
| C75 | `project_add`, `project_sub`, `project_sector`, `build_transition_elements` of cotunneling | dictionary of lists: invariant over sectors and spin pairs; `zip_longest` by cases |
| C76 | `Sigma.approximate`, rate matrix of C75 | Bose factor identity; reversal of paths; witness with one orbital and split levels |
| C77 | `build_gf2_exact`, `Gf2.__call__` | loop invariant over sectors and site pairs; brackets of C38; anticommutator and completeness for the sum rule |
| C78 | C77 after `build_espace` with U = 0 | [H, c+] on words of ladder operators, equation of motion of every Lehmann term, sum rule of C77 |
| C79 | `searchsorted` on the cumulative weights vs the half-open weight intervals | partial sums are monotone; insertion sort permutes |
| C80 | fit and star matrix vs averaged resolvent | Lagrange identities for the zeros of sum 1/(x-p_i), intermediate value theorem per gap, explicit orthonormal eigenvectors |
| C81 | loop vs list of trial outcomes | induction on the draws; C78 for the free model plus C80 |
| C82 | double loop vs expectation value | row-major splitting of the sum |
| C83 | accumulated sums vs Gibbs entropy | shift of the reference cancels; ln x <= x - 1 |
| C84 | sliced writes vs block star; loop vs outcome table | induction on the impurities; induction on the draws |
| C85 | stored sectors vs energies of arbitrary Fock states | spectral theorem by deflation gives a solver meeting the contract; electron numbers are conserved, so the energy splits into sectors, each bounded by its eigenbasis |
| C86 | `build_espace` then Green's functions | least energy gives weights at most 1; C39 and C78 on the stored family |
| C87 | two runs of `build_espace`; spin flip | min-max argument (dimension count) shows that ascending spectra are unique; words of ladder operators keep their elements when the spins are exchanged |
| C88 | lookup and trial vs the stored sectors | the least energy is some sector's first energy |
| C89 | `zero_fermi` vs Lambert's continued fraction | eigenvector components are polynomials in the eigenvalue; spectrum is odd by uniqueness of spectra; the tridiagonal system is solved by continued fractions; tanh solves the same recurrence (positive remainders) |
| C90 | `integrate_gf` on a sum of poles vs the Fermi function | C89; error product tends to 0 |
| C91 | `np.resize` of the poles as index arithmetic | distinct poles give distinct columns |
| C92 | `matsum_gf` with the attribute mu as state | closed form of the loop; difference of two Lorentz terms, telescoping bound of the odd inverse squares |
| C93 | poles of `build_gf_exact` vs `get_occupation` | (w_J+w_I) f(E_J-E_I) = w_J and Parseval; C90 for the integral |
| C94 | `bd_body`, `bd_loop` on a record of the loop variables; numpy's negative columns in `col` | loop invariant with a ghost basis V: every started column is open, consumed or dropped (`inv`); one lemma per branch (`inv_defl`, `inv_step`); Cauchy-Schwarz for the residual |
| C95 | `gram_schmidt_rows`, division by zero as an exception | unit triangular relation kept by the loop; independent iff no zero row |
| C96 | `row_at` (fancy indexing), `project`, `choose`, dictionary update, `ksort` | one lemma per excite function: the dictionary of one direction is exactly the set of pairs; insertion sort; unit sums for the fermionic elements |
| C97 | `nF_cut`, `tnl_matrices` | local detailed balance per lead, summed over the leads; clipping gives the counterexample |
| C98 | both modules' rate and transition matrices | `ThermoProofs`: an abstract two-lead rate equation; electron number is conserved on average, and (x-y)(ln x-ln y) >= 0 summed over all pairs |
| C99 | `path`, `nsigma` (paths of Gf2e, Gf2h), `co_spins` appending to one dictionary | the dictionary after every spin pair is the set of pairs with the elements so far (`spins_foldM`); the loops over intermediate states become sums |
| C100 | `napproximate`, `cotnl_matrices` | reversal of the amplitude with shifted energy; `dict_diag` for entries on the diagonal; two-level counterexample |
| C101 | `keep_entry`, `screen_path`, `nscreen` | masks become filters of the index list; `kept_order` restricts the sums |
| C102 | `nintegrate` with `linspace` and `trapz` | termwise bounds on the grid |
| C103 | `nl_call` with `chunks`, `loc_chunk`, `put_at` | walk over the chunks; a chunk indexed by positions fits iff the first k sites differ; Gaussian elimination for the contract |
| C104 | `nl_Delta`, `nl_Weiss` | Schur complement; the quadratic form of the inverse has a sign |
| C105 | `idx_world`, `nl_get_sigma` with a communicator | concatenation of equal slices; length of the gathered array |
| C106 | `nl_integrate`, `nano_step`, `local_moments` | rewriting to `matsum_gf` on the grid; Dyson's equation on both sides; C41 per impurity |
| C107 | `dmft_step_adjust`, `step_adjust`, `call_adjust` | contract of the root finder; Dyson's equation for both Green's functions |
| C108 | `imp_integrate`, `spin_integrate` | C90 for the self-energy form of the impurity; monotony of exp |
| C109 | `eigh_tridiagonal`, `egs_tridiag`, `gs_tridiag` | blocks do not couple; simple spectrum of unreduced blocks; sorting by rank |
| C110 | `sl_solve_options` | C109 and C59 |
| C111 | `rc_loop`, `eigsh`, `ncv_of` | the loop refines ARPACK's dialogue (induction on the dialogue) |
| C112 | `solve_sector`, `eigsh` | uniqueness of the ascending spectrum by dimension; the product is the dense matrix's |
| C113 | `smooth`, `band`, `fft` | orthogonality of roots of unity; reflection of frequencies makes the result real |
| C114 | `extract_sequential`, `ext_row`, `ext_merge` | the dictionaries as collections: every key holds a permutation of the emitted elements with that key; emitted elements of the built dictionary computed per key |
| C115 | `dev_occupation`, `dev_trial`, `dev_solve` | the faulty call is reached for every non-empty espace; loop invariant: weighted sums over the passes so far |
| C116 | `multi_solve` | loop invariant per impurity: sums over its accepted increments |
| C117 | `build_espace` with `get_espace_dim` | sector by sector; the minimum of an ascending list is its head, kept by every cut |
| C118 | `my_N`, `position`, `root_buffer` | division with remainder; an indicator of rank 0 separates unequal shares; positions decoded by division by n |
| C119 | `rounds`, `script` | induction on the number of rounds before convergence |
| C120 | `frprmn`, `c_fit` | simulation through bracketing, line search and iteration; sums over renumbered levels; fixed points of the mirror |
| C121 | `build_gf2_exact`, `get_occupation` of two builds | both bases span the same eigenspaces; double sums over eigenvectors are basis independent (`double`) |
| C122 | same, `related` | a signed permutation `tau`, `th` of the Fock states, built from transpositions, sign changes and flips, carries one Hamiltonian into the other |
| C123 | same | C122 with the second model equal to the first |
| C124 | `siam_trial`, `dev_trial` | the run is taken apart call by call; the first sector of the ground state by induction over the dictionary |
| C125 | `gfimp_fit`, `siam_trial` | roots between the mirrored poles are unique; then the particle-hole relation of C122 with the bath in reverse order |
| C126 | `gf_lanczos_of`, `gf2_lanczos_of` | the routines of the library meet the assumptions of C52/C67; a resolvent element expanded in the stored eigenbasis of the arrival sector is one line of the Lehmann sum |
| C127 | `build_gf_lanczos` | induction over the loop with the set of keys reached so far; weights: each eigenstate expanded in the complete eigenbasis, then Bessel |
| C128 | `Gfimp.solve`, `Gfimp.Sigma` | the states added and removed as vectors of a quadratic form indexed by (operator, state, basis state); equation of motion of the impurity and bath operators; Cauchy-Schwarz for causality and for the remainder of the expansion at large Im z; the many-body matrix of MbModel is shown to be the one of SiamSpec |
| C129 | `screen_espace`, `build_gf_lanczos` | the sum over kept states is rewritten as a sum over the complete family with the weight zero for states removed; the image lemma of C122 for any weight that depends on the energy only; the loop is shown to change nothing |
| C130 | `DMFT.step`, `DMFT.initialize`, `Gfimp.solve` | the star with pairs of levels is its own image (bath read backwards, sign of the bath orbitals), so C129 applies to the solver; an invariant of the loop state (pairs of levels, potential, real part of the self-energy) carries it through any number of iterations |
| C131 | `SpinGfimp.solve`, `dmft_step_magnetic`, `DMFT.initialize_magnetic`, `DMFT.step` | the models with exchanged layers are related in the sense of C122, so C129 applies; two runs of the driver that keep a relation between their states make related trials (induction on the fuel); the refutation computes which sectors screening keeps and shows that one of them is completed after it has been used |
| C132 | `SpinGfimp.solve`, `DMFT.initialize_magnetic`, `DMFT.step` | the two-layer model is related to itself (C122) by the exchange of spins together with electrons and holes; the reflection -conj commutes with hybridisation, inverse, lattice and fit (C120); induction over the driver |
| C133 | `build_gf2_exact`, `build_gf_lanczos`, `get_occupation`, `Gfimp` | equation of motion (C128): with no hopping out of site 0 the occupation of the other spin commutes with H, so every state has two poles at most; the poles summed in C93 compared with the two closed-form ones give each filling in terms of the other, the exchanged model (C122) gives the second equation, and the 2x2 system has one solution |
| C134 | `build_espace` | S^- = sum_k c+_kdn c_kup commutes with H in Fock space (equation of motion for any vector, spins of one site exclude each other, density terms see the charge only); the norm of S^- f is (p-q) times that of f plus the norm of S^+ f by the anticommutation rules; a linear map without kernel between eigenspaces keeps the dimension (Gaussian elimination: fewer equations than unknowns); the exchange as coded is computed on two sites |
| C135 | `_get_entropy_params`, `_calc_entropy`, `build_non_interacting_espace`, `siam_solve` | Gibbs' inequality between the distributions at two temperatures gives both monotonies and, with beta = 0, the hot bound; cold bound from ln Z and y <= exp(y/2); the bath's sums over all occupations factorise by induction on the highest level; 4^n levels by the binomial sums. At most eight bath levels. |
| C136 | `build_espace`, `get_occupation`, `_get_entropy_params`, `_calc_entropy` | Peierls-Bogoliubov inequality sector by sector: the squared overlaps of the two eigenbases are doubly stochastic, 1 + x <= exp x does the rest; the Hamiltonians differ by a diagonal matrix whose expectation values are those of get_occupation. The corollaries are choices of the shifts. All states kept (neig=None); `mu` is added, not subtracted, by ham_local.py. |
| C137 | `siam_solve`, `get_occupation` of dedlib.py, `build_siam`, `build_espace` | Variational principle in the other model's eigenbasis: egs' is at most the energy of the found ground state plus the shifts times its occupations. Found only within the tolerance of the lookup, hence the tol on both sides. |
| C138 | `build_espace`, `get_occupation`, `_get_entropy_params` | Same inequality as C136; the Hamiltonians now differ by the repulsion, which is not one of the returned occupations. On each site it is bounded above and below by affine functions of n_up and n_dw (checked at the four corners), whose averages are. All states kept (neig=None). |
| C139 | `nnz_csrmat`, `empty_csrmat` | Invariant of the two loops (buffers hold the rows done so far, the rest unwritten), shared with the off-diagonal builder; the first write past the end raises. Square matrices only. |
| C140 | `lorentzian_function`, the plotted function of ded.py | Primitive 1/2 + atan(2(z-z0)/gamma)/pi and the fundamental theorem of calculus for the Riemann integral of the standard library. No separate spec: the statements use only the standard library. |
| C141 | `DMFT.solve`, `distance`, weights | Induction over the driver: the history stays in the convex set. scipy's `linearmixing` is a contract (a trial is an earlier point plus s alpha times its distance, 0 <= s <= 1), which covers its line search. |
| C142 | `Delta`, `DDelta`, `Chi2`, `dChi2`, `fit_hybrid` | The three arrays are a state; one step per call, induction over the sequence. The loops write every entry before it is read, so the state drops out of the answers; the derivatives come from C51. A ufunc returns its output argument itself (assumed), hence the overwritten array. |

Rows are refined (and new ones added) as the development grows; section 4 records findings.

## 4. Findings (behaviour of the code that differs from what one would expect)

With a `_refuted` (or similarly named) theorem:

* C10: `intrep(binrep(i,n))` is the bit reversal of `i`, not `i`.
* C16: the N-symmetry local builder uses the down on-site energies for both species.
* C18: the hopping matrix is stored transposed (visible only for non-symmetric `H`).
* C19, C22, C134: the Sz builder of the non-local interaction has the wrong sign in the opposite-spin exchange term (so that, C134, spin multiplets are split);
  `Jp` without `Jx` raises AttributeError; a read-only `H` stays writeable after some exceptions.
* C27: `todense` raises IndexError when only the local operator is present; the `out` argument of the product
  always raises.
* C33: `build_non_interacting_espace` shifts by 64 or more bits from nine levels on.
* C40: `build_gf_exact(ispin=1)` does not compute the down Green's function.
* C42: the MPI occupation drops the remainder of an uneven distribution.
* C44: with several absorbing classes `stationary_solution` may divide by zero.
* C45: the cut in sqtnl's `nF` breaks the electron/hole symmetry.
* C46: cotunneling's `find_active_sectors` returns sectors outside the Hilbert space.
* C47: `DMFT.it` is never reset, so a second run may stop early.
* C49: an impurity without bath sites raises IndexError.
* C50: `get_initial_bath` is not sorted for even baths of 42 or more sites; the C twin leaves the middle level
  of three unset.
* C52: a pair operator annihilating a state raises an uncaught ZeroNormInitialVector; `Gf2[i,j]` with `i>j`
  raises TypeError.
* C54: `mnbrak` does not terminate on decreasing functions; `dbrent` (line 83 assigns `a = x` instead of
  `a = u`) loses the minimum and may step outside the bracket.
* C61: occupations of a row-major array reshape the caller's array.
* C62: the lattice classes have no attribute `ed`, which `dmft_step` needs.
* C63: the causality safeguard writes to a copy and has no effect.
* C64: `ht` on or below the real axis returns the value just above it.
* C66: restarting from `gfimp.Sigma` evaluates it with a reset bath.
* C68: `build_gf_lanczos` overwrites screened sectors of dimension at most 10 in the caller's eigenspace.
* C69: the interference integral lacks a factor 2, so merging two poles does not give one pole.
* C70: near equal potentials `I2` raises TypeError (missing argument of `Taylor`), at equal ones both integrals are 0.
* C71: `eprint` raises TypeError for (nup, ndw) sectors.
* C75: `cotunneling.project_sector` with the default spins raises AttributeError on sectors empty or full in a spin.
* C76: the approximate cotunnelling rates violate detailed balance: the energy entering the electron and hole
  denominators is that of the wrong direction, so Boltzmann weights are not stationary in equilibrium.
* C81: a self-energy array passed to `siam_solve` is added to and divided by N, so it enters the average.
* C84: `moam_solve` cannot run with its default scalar U (V1 unbound) nor without sigma0, and underestimates the
  self-energy and occupations of impurities accepted fewer than N times.
* C90: the argument `R` of `integrate_gf` is overwritten.
* C91: with an array of chemical potentials `integrate_gf` mixes up the poles.
* C92: `matsum_gf` gives 1/2 for every `w/z`, and leaves the new `mu` in the object when the evaluation raises.
* C94: after a deflation `build_bd_tridiag` may return a block that contains the wrapped columns `T[n,n-Lc]` of the starting vectors, so the result is not symmetric.
* C96: sqtnl drops the transitions into the empty and the full sector; the given ground state energy is ignored.
* C97: the cut at 100 kT in sqtnl's `nF` breaks equilibrium.
* C99: cotnl leaves out the empty and the full sector as intermediate states.
* C100: `Sigma.approximate` takes the amplitude at (mu_e+mu_i+dE)/2 instead of (mu_e+mu_i-dE)/2, so inelastic rates violate
  detailed balance; for a single state the rate and transmission matrices differ in size.
* C101: screening uses equal couplings on all sites and can drop processes that carry current; a cutoff with N given and
  no ground state energy raises TypeError, an empty result StopIteration.
* C102: a misplaced parenthesis in `Sigma.integrate` puts one Fermi function into the argument of the other.
* C103: `Gfloc.__call__` indexes an array of one entry per class by site numbers and raises IndexError unless the first k sites
  are inequivalent; with a single class only the first frequency is computed.
* C104: `Gfloc.Delta` ignores the overlap between sites and is then not causal.
* C105: classes that do not divide evenly among the processes are dropped, after which every process raises.
* C106: `get_local_moments` uses the temperature of the first impurity for all.
* C107: `dmft_step_adjust` moves only the lattice's potential; with a hybridisation given the loop stops as converged with two
  different potentials; the lattice classes of dmft.py lack `integrate`; the default arguments end in TypeError when printing.
* C108: `Gfimp.integrate` always works at 300 K; `SpinGfimp.integrate()` raises AttributeError.
* C109: with eigenvectors and a range `eigh_tridiagonal` returns the eigenvalues by block, not ascending.
* C110: `sl_solve(eigvals_only=True)` raises ValueError unless there are two eigenvalues, and then returns one of them.
* C111: `eigsh` ignores a positive status: fewer eigenpairs than wanted come back silently, or a KeyError hides the failed
  extraction because the message is looked up with the wrong status.
* C113: `smooth` can turn a self-energy with Im <= 0 into one with positive imaginary part.
* C114: `extract_sequential_from_cotunneling` lists every element twice (all rates doubled), labels half of the elements with one electron less with the wrong spin, and after screening attributes elements to the wrong states.
* C115: `dedlib_dev.ded_solve` cannot return (wrong number of arguments in `get_occupation`); apart from that it would average over rejected samples too.
* C116: `dedlib_dev.ded_solve_multi` fails with the default scalar `U`.
* C118: `ded.py` averages per-rank means without their sample numbers, and ranks that need many trials repeat the samples of the next rank.
* C119: `ded.py` imports a function that does not exist in `dedlib`; with several ranks it hangs on convergence.
* C120: the initial bath with one level puts it at +B, so the fit of a particle-hole symmetric target starts from an asymmetric bath.
* C127: on a screened dictionary `build_gf_lanczos` divides by the weight of more states than it sums over, and the result depends on the order of the keys.
* C128: on a screened dictionary a non-interacting impurity can have a non-zero self-energy, (1 - r)(z - e0 - Delta). `Gfimp.solve` always screens with beta = 1e6, also if the object's own beta is small, so r > 1 can occur. `adjust_neig=True` with the default `neig=None` raises TypeError.
* C130: a two-site impurity starts the self-consistency loop from a bath without particle-hole symmetry (its only level is at +2), also at half filling.
* C131: `SpinGfimp.solve` builds the down function from the dictionary that the up call has modified, so without field the two spins can get different functions (C131_equal_refuted: c/z with c < 1 for up, 1/z for down). The class defines `solve` twice; the first definition is dead.
* C139: `nnz_csrmat` returns unwritten cells when `nnz` is larger than the number of entries above the threshold.
* C141: the weights of `DMFT` act as a frequency-dependent mixing parameter, so at low temperature linear mixing overshoots and leaves the causal half plane; `DMFT.solve` with an unknown `mixing_method` silently does nothing.
* C142: `Delta(z)` returns the same array from every call, so results kept from two calls are the same; with an odd number of parameters the last gradient entry is uninitialised memory (the code base only uses even numbers).

Observed while reading, stated in the model's comments or in a manifest note, without a theorem of its own:
the distributed matvec overwrites and restores the caller's vector; `assert ~odd` never fires;
`frprmn.c:36` overrides the tolerance; the C fit starts from uninitialised memory; `gf.__call__` with a scalar
energy mixes shapes; `sqtnl` uses the loop variable after the loop.

## 5. Testing the theorems

`seeded/LOG.jsonl` lists edits of the model that make it a wrong program, one per line, with the theorems whose
proofs then fail and those that survive.  An edit that no theorem notices led to a stronger statement
(`theorems_tightened`) or, when the edit is outside what the property speaks about, to a note.
A failed proof is weaker evidence than a refuted claim: when several theorems rest on the lemma that an edit breaks, all
of them are listed as failed, although some of the claims may still be true of the edited program.  Every run has its
line: an id with `#1` is an earlier run of the same id, and `no verdict` marks runs in which the edit could not be
applied, the edited model did not compile, or the tool could not continue past the failure.
