{
 "claims": [
  {
   "property": "C01",
   "status": "proved",
   "theorems": [
    "C01_cdg_domain",
    "C01_c_domain"
   ],
   "note": ""
  },
  {
   "property": "C02",
   "status": "proved",
   "theorems": [
    "C02_cdg_sign",
    "C02_c_sign"
   ],
   "note": ""
  },
  {
   "property": "C03",
   "status": "proved",
   "theorems": [
    "C03_car_mixed",
    "C03_car_annihilators",
    "C03_car_creators"
   ],
   "note": ""
  },
  {
   "property": "C04",
   "status": "proved",
   "theorems": [
    "C04_cdgc"
   ],
   "note": ""
  },
  {
   "property": "C05",
   "status": "proved",
   "theorems": [
    "C05_adjoint"
   ],
   "note": ""
  },
  {
   "property": "C06",
   "status": "proved",
   "theorems": [
    "C06_number_operator",
    "C06_check_full_occ"
   ],
   "note": ""
  },
  {
   "property": "C07",
   "status": "proved",
   "theorems": [
    "C07_binsearch_found",
    "C07_binsearch_absent",
    "C07_binsearch_safe"
   ],
   "note": ""
  },
  {
   "property": "C08",
   "status": "proved",
   "theorems": [
    "C08_spin_indices_inverse",
    "C08_state_index_inverse"
   ],
   "note": ""
  },
  {
   "property": "C09",
   "status": "proved",
   "theorems": [
    "C09_sector_index_inverse",
    "C09_num_spins_inverse",
    "C09_sector_index_rejects",
    "C09_num_spins_rejects"
   ],
   "note": ""
  },
  {
   "property": "C10",
   "status": "proved",
   "theorems": [
    "C10_intrep_binrep_refuted",
    "C10_intrep_binrep_reversal",
    "C10_intrep_rev_binrep",
    "C10_intrep_binrep_twice",
    "C10_string_format"
   ],
   "note": "The documented statement is refuted (witness i=1,n=2); the theorems give the exact behaviour: the composition is bit reversal."
  },
  {
   "property": "C11",
   "status": "proved",
   "theorems": [
    "C11_count_bits",
    "C11_count_bits_popcount",
    "C11_binrep_ones"
   ],
   "note": ""
  },
  {
   "property": "C12",
   "status": "proved",
   "theorems": [
    "C12_generate_states",
    "C12_binomial",
    "C12_generate_states_rejects"
   ],
   "note": ""
  },
  {
   "property": "C13",
   "status": "proved",
   "theorems": [
    "C13_sz_dims_sum",
    "C13_n_dims_sum",
    "C13_sector_unique",
    "C13_dim_is_product"
   ],
   "note": ""
  },
  {
   "property": "C14",
   "status": "proved",
   "theorems": [
    "C14_cdg_sector",
    "C14_c_sector"
   ],
   "note": ""
  },
  {
   "property": "C15",
   "status": "proved",
   "theorems": [
    "C15_local_energy",
    "C15_any_schedule",
    "C15_local_energy_N"
   ],
   "note": ""
  },
  {
   "property": "C16",
   "status": "proved",
   "theorems": [
    "C16_symmetries_agree",
    "C16_spin_dependent_refuted"
   ],
   "note": "Agreement is proved when the up and down on-site energies coincide; for spin-dependent on-site energies agreement is refuted by a witness because the N builder uses the down energies for both species."
  },
  {
   "property": "C17",
   "status": "proved",
   "theorems": [
    "C17_hopping_allocation"
   ],
   "note": ""
  },
  {
   "property": "C18",
   "status": "proved",
   "theorems": [
    "C18_hopping_elements",
    "C18_hopping_symmetric",
    "C18_nonsymmetric_transposed_refuted"
   ],
   "note": "For non-symmetric H the stored matrix is the transpose of the operator; the refuted theorem shows the difference on a two-site witness."
  },
  {
   "property": "C19",
   "status": "proved",
   "theorems": [
    "C19_sz_entries",
    "C19_sz_operator",
    "C19_exchange_sign_refuted",
    "C19_jp_only_raises_refuted"
   ],
   "note": "exact entries of the Sz builder; the documented sign of the opposite-spin exchange and Jp without Jx are refuted"
  },
  {
   "property": "C20",
   "status": "proved",
   "theorems": [
    "C20_n_operator",
    "C20_n_versus_sz"
   ],
   "note": "the N builder is the documented operator; exact difference to the Sz builder"
  },
  {
   "property": "C21",
   "status": "proved",
   "theorems": [
    "C21_symmetric"
   ],
   "note": ""
  },
  {
   "property": "C22",
   "status": "proved",
   "theorems": [
    "C22_operators_sz",
    "C22_operators_n",
    "C22_flag_after",
    "C22_no_interaction",
    "C22_jp_only_refuted",
    "C22_readonly_refuted"
   ],
   "note": "which operators, which exceptions, and the writeable flag after every call; Jp without Jx and the unchanged-flag reading are refuted"
  },
  {
   "property": "C23",
   "status": "proved",
   "theorems": [
    "C23_matvec_is_dense",
    "C23_output_contents_irrelevant"
   ],
   "note": ""
  },
  {
   "property": "C24",
   "status": "proved",
   "theorems": [
    "C24_up_schedules",
    "C24_dw_schedules",
    "C24_multiply_schedules"
   ],
   "note": "interleaving semantics with separate load and store per +=; no law of arithmetic is assumed, so floating point is covered"
  },
  {
   "property": "C25",
   "status": "proved",
   "theorems": [
    "C25_transposes",
    "C25_shape_checks"
   ],
   "note": "Alltoall modelled by its specification"
  },
  {
   "property": "C26",
   "status": "proved",
   "theorems": [
    "C26_distributed_is_serial",
    "C26_checks"
   ],
   "note": "bit for bit, no law of arithmetic assumed"
  },
  {
   "property": "C27",
   "status": "proved",
   "theorems": [
    "C27_dense_iff",
    "C27_todense_refuted",
    "C27_out_argument_refuted"
   ],
   "note": "exact condition for todense to work; it raises IndexError otherwise"
  },
  {
   "property": "C56",
   "status": "proved",
   "theorems": [
    "C56_hamiltonian_sz",
    "C56_hamiltonian_n"
   ],
   "note": ""
  },
  {
   "property": "C28",
   "status": "proved",
   "theorems": [
    "C28_build_espace",
    "C28_succeeds",
    "C28_symmetry_names"
   ],
   "note": "solvers are arbitrary functions"
  },
  {
   "property": "C29",
   "status": "proved",
   "theorems": [
    "C29_count",
    "C29_lowest",
    "C29_arpack"
   ],
   "note": ""
  },
  {
   "property": "C30",
   "status": "proved",
   "theorems": [
    "C30_dims",
    "C30_unknown_symmetry"
   ],
   "note": ""
  },
  {
   "property": "C31",
   "status": "proved",
   "theorems": [
    "C31_screen",
    "C31_ground_state_kept",
    "C31_cutoff_monotone",
    "C31_low_energies_first",
    "C31_no_eigenvectors"
   ],
   "note": "exact for every criterion; the Boltzmann criterion over the reals"
  },
  {
   "property": "C32",
   "status": "proved",
   "theorems": [
    "C32_rule",
    "C32_repeated",
    "C32_unsorted_raises"
   ],
   "note": ""
  },
  {
   "property": "C33",
   "status": "proved",
   "theorems": [
    "C33_free_spectrum",
    "C33_nine_levels_refuted"
   ],
   "note": "proved for up to 8 levels; refuted from 9 levels on (witness with the x86 shift)"
  },
  {
   "property": "C57",
   "status": "proved",
   "theorems": [
    "C57_stored_eigenpairs"
   ],
   "note": "the library eigensolvers are assumed to return eigenpairs of what they are given; non-vacuous by C57_ex"
  },
  {
   "property": "C34",
   "status": "proved",
   "theorems": [
    "C34_result",
    "C34_outcome"
   ],
   "note": "any step function, any thresholds"
  },
  {
   "property": "C35",
   "status": "proved",
   "theorems": [
    "C35_basis",
    "C35_succeeds"
   ],
   "note": "exact real arithmetic"
  },
  {
   "property": "C36",
   "status": "proved",
   "theorems": [
    "C36_resolvent",
    "C36_coefficients",
    "C36_point"
   ],
   "note": "exact real and complex arithmetic"
  },
  {
   "property": "C37",
   "status": "proved",
   "theorems": [
    "C37_same_function"
   ],
   "note": "the tridiagonal eigensolver is assumed to return an orthonormal eigenbasis"
  },
  {
   "property": "C58",
   "status": "proved",
   "theorems": [
    "C58_distributed"
   ],
   "note": "exact arithmetic (sums are regrouped); ranks run in lock step"
  },
  {
   "property": "C59",
   "status": "proved",
   "theorems": [
    "C59_ritz"
   ],
   "note": "exact real arithmetic; the tridiagonal eigensolver is assumed sound"
  },
  {
   "property": "C60",
   "status": "proved",
   "theorems": [
    "C60_exact",
    "C60_unique"
   ],
   "note": "exact real arithmetic"
  },
  {
   "property": "C38",
   "status": "proved",
   "theorems": [
    "C38_exact_up",
    "C38_exact_dw",
    "C38_lanczos_up",
    "C38_lanczos_dw",
    "C38_transpose"
   ],
   "note": "any commutative ring of scalars; n <= 32"
  },
  {
   "property": "C39",
   "status": "proved",
   "theorems": [
    "C39_lehmann",
    "C39_weight",
    "C39_causal",
    "C39_point"
   ],
   "note": "exact real arithmetic; the eigenvectors of every sector are assumed orthonormal and complete"
  },
  {
   "property": "C40",
   "status": "proved",
   "theorems": [
    "C40_refuted"
   ],
   "note": "the requested spin is not honoured; the actual behaviour is proved"
  },
  {
   "property": "C41",
   "status": "proved",
   "theorems": [
    "C41_expectation",
    "C41_bounds",
    "C41_linear",
    "C41_layouts",
    "C41_thermal"
   ],
   "note": "exact arithmetic; vectors are real, as in the code"
  },
  {
   "property": "C42",
   "status": "proved",
   "theorems": [
    "C42_distributed",
    "C42_serial"
   ],
   "note": "exact arithmetic; C42_distributed also says which down states are dropped when the rank count does not divide"
  },
  {
   "property": "C61",
   "status": "proved",
   "theorems": [
    "C61_refuted"
   ],
   "note": "refuted for row-major arrays; the actual behaviour is proved"
  },
  {
   "property": "C43",
   "status": "proved",
   "theorems": [
    "C43_conserve",
    "C43_entries",
    "C43_sequential",
    "C43_transition",
    "C43_dict",
    "C43_tnl",
    "C43_dict_succeeds"
   ],
   "note": "exact real arithmetic; the rate of an element is an arbitrary function (for cotunnelling: the numerically integrated value)"
  },
  {
   "property": "C44",
   "status": "proved",
   "theorems": [
    "C44_spectrum",
    "C44_exists",
    "C44_stationary",
    "C44_normalised"
   ],
   "note": "exact real arithmetic; numpy.linalg.eig is assumed to return eigenpairs and to miss no real eigenvalue"
  },
  {
   "property": "C45",
   "status": "proved",
   "theorems": [
    "C45_fermi",
    "C45_bounds",
    "C45_balance",
    "C45_total",
    "C45_cut",
    "C45_cut_refuted"
   ],
   "note": "exact real arithmetic; sqtnl's cut-off occupation breaks the symmetry beyond 100 (C45_cut_refuted)"
  },
  {
   "property": "C46",
   "status": "proved",
   "theorems": [
    "C46_active",
    "C46_neig",
    "C46_inverse",
    "C46_inverse'",
    "C46_cotunnelling",
    "C46_cotunnelling_neig",
    "C46_cotunnelling_refuted"
   ],
   "note": "the cotunnelling variant raises for edge sectors (C46_cotunnelling_refuted)"
  },
  {
   "property": "C50",
   "status": "proved",
   "theorems": [
    "C50_initial_bath",
    "C50_order",
    "C50_order_refuted",
    "C50_in_place",
    "C50_bad_calls",
    "C50_c_twin",
    "C50_c_three_refuted"
   ],
   "note": "exact real arithmetic; the C twin leaves the middle of three levels unset and even baths of 42 or more sites are not sorted"
  },
  {
   "property": "C51",
   "status": "proved",
   "theorems": [
    "C51_gradient",
    "C51_objective",
    "C51_c_twin",
    "C51_matsubara"
   ],
   "note": "exact real arithmetic"
  },
  {
   "property": "C47",
   "status": "proved",
   "theorems": [
    "C47_driver",
    "C47_terminates"
   ],
   "note": "the mixing scheme is any function of the evaluation history; the step may raise its own exceptions; nan errors are not modelled"
  },
  {
   "property": "C48",
   "status": "proved",
   "theorems": [
    "C48_delta",
    "C48_hybrid",
    "C48_impurity",
    "C48_dyson"
   ],
   "note": "exact complex arithmetic"
  },
  {
   "property": "C49",
   "status": "proved",
   "theorems": [
    "C49_hamiltonian",
    "C49_no_bath_refuted"
   ],
   "note": "exact arithmetic; the optimiser is any length-preserving function; a model without bath sites cannot be built (C49_no_bath_refuted)"
  },
  {
   "property": "C62",
   "status": "proved",
   "theorems": [
    "C62_no_ed_refuted",
    "C62_fixed_point",
    "C62_fixed_point_nano"
   ],
   "note": "refuted for the lattice classes as they are; the fixed-point identity is proved"
  },
  {
   "property": "C63",
   "status": "proved",
   "theorems": [
    "C63_refuted"
   ],
   "note": "refuted; the actual behaviour is proved"
  },
  {
   "property": "C64",
   "status": "proved",
   "theorems": [
    "C64_semicircle",
    "C64_causal",
    "C64_delta",
    "C64_lower_refuted",
    "C64_free"
   ],
   "note": "the complex square root is any function with sqrt(w)^2=w and non-negative real part"
  },
  {
   "property": "C65",
   "status": "proved",
   "theorems": [
    "C65_magnetic"
   ],
   "note": ""
  },
  {
   "property": "C66",
   "status": "proved",
   "theorems": [
    "C66_refuted"
   ],
   "note": "refuted; the actual value is proved"
  },
  {
   "property": "C54",
   "status": "proved",
   "theorems": [
    "C54_bracket",
    "C54_bracket_fuel",
    "C54_line",
    "C54_line_outcomes",
    "C54_linmin",
    "C54_descent",
    "C54_fit",
    "C54_bracket_terminates_refuted",
    "C54_minimum_refuted",
    "C54_inside_refuted",
    "C54_direction"
   ],
   "note": "exact real arithmetic; loops without a bound take fuel; three parts are refuted"
  },
  {
   "property": "C52",
   "status": "proved",
   "theorems": [
    "C52_matrix",
    "C52_annihilated_refuted"
   ],
   "note": "exact real and complex arithmetic; Lanczos runs are assumed to exhaust their Krylov spaces (C67_krylov says when); refuted when a pair operator annihilates a stored state"
  },
  {
   "property": "C67",
   "status": "proved",
   "theorems": [
    "C67_green",
    "C67_solvable",
    "C67_krylov",
    "C67_point"
   ],
   "note": "exact real and complex arithmetic; solve_sector and eigh_tridiagonal are assumed sound; the stored small sectors are assumed to be what solve_sector returns"
  },
  {
   "property": "C68",
   "status": "proved",
   "theorems": [
    "C68_dictionary",
    "C68_refuted"
   ],
   "note": "the dictionary is changed when small sectors were cut down (C68_refuted)"
  },
  {
   "property": "C53",
   "status": "proved",
   "theorems": [
    "C53_sum",
    "C53_sum2",
    "C53_exact",
    "C53_other",
    "C53_permutation"
   ],
   "note": "exact real arithmetic; equal energies are an error in the model (nan in numpy)"
  },
  {
   "property": "C69",
   "status": "proved",
   "theorems": [
    "C69_coincide",
    "C69_refuted"
   ],
   "note": "refuted; the actual limit is proved. Polygamma enters through its derivative, continuity and conjugation"
  },
  {
   "property": "C70",
   "status": "proved",
   "theorems": [
    "C70_equal",
    "C70_single",
    "C70_refuted"
   ],
   "note": "refuted in a narrow interval of biases"
  },
  {
   "property": "C55",
   "status": "proved",
   "theorems": [
    "C55_rendered",
    "C55_injective"
   ],
   "note": ""
  },
  {
   "property": "C71",
   "status": "proved",
   "theorems": [
    "C71_listing",
    "C71_refuted"
   ],
   "note": "refuted for (nup, ndw) sectors; rounding and float formatting are a parameter"
  },
  {
   "property": "C72",
   "status": "proved",
   "theorems": [
    "C72_spectrum"
   ],
   "note": "exact reals"
  },
  {
   "property": "C73",
   "status": "proved",
   "theorems": [
    "C73_elements",
    "C73_screened",
    "C73_paired"
   ],
   "note": "For all eigenspaces that store every reachable sector. The eigenpairs themselves are arbitrary."
  },
  {
   "property": "C74",
   "status": "proved",
   "theorems": [
    "C74_equilibrium",
    "C74_solution"
   ],
   "note": "Detailed balance, stationarity and zero current for all temperatures and couplings. The eigensolver used by stationary_solution is an oracle (eig_ok)."
  },
  {
   "property": "C75",
   "status": "proved",
   "theorems": [
    "C75_elements",
    "C75_screened",
    "C75_direct_refuted"
   ],
   "note": "For all eigenspaces that store every sector reached. C75_direct_refuted states exactly when the direct call fails."
  },
  {
   "property": "C76",
   "status": "proved",
   "theorems": [
    "C76_balance",
    "C76_rates",
    "C76_degenerate",
    "C76_refuted"
   ],
   "note": "Proved for degenerate states and for electron-only processes; C76_refuted is the general statement's counterexample (n=1, split levels). approx_integral=True only."
  },
  {
   "property": "C77",
   "status": "proved",
   "theorems": [
    "C77_lehmann",
    "C77_point",
    "C77_weights",
    "C77_consistent"
   ],
   "note": "Both spins, by linear algebra on the stored vectors; C77_weights needs orthonormal complete sectors."
  },
  {
   "property": "C78",
   "status": "proved",
   "theorems": [
    "C78_free",
    "C78_pipeline"
   ],
   "note": "C78_free for any set of eigenvectors of the free Hamiltonian, C78_pipeline from the parameters through build_espace. numpy.linalg.eigh is an oracle returning an orthonormal eigenbasis."
  },
  {
   "property": "C79",
   "status": "proved",
   "theorems": [
    "C79_sampler"
   ],
   "note": "Exact arithmetic; the density acts on arrays and the random numbers are given."
  },
  {
   "property": "C80",
   "status": "proved",
   "theorems": [
    "C80_zeros",
    "C80_fit",
    "C80_siam"
   ],
   "note": "scipy.optimize.fsolve is an oracle returning the zero in the gap it is started in; C80_zeros shows that this zero exists and is unique."
  },
  {
   "property": "C81",
   "status": "proved",
   "theorems": [
    "C81_average",
    "C81_free",
    "C81_free_trial"
   ],
   "note": "C81_average holds for every eigensolver and root finder. C81_free needs sound and complete eigensolvers, the root finder of C80, distinct poles and couplings above build_espace's threshold."
  },
  {
   "property": "C82",
   "status": "proved",
   "theorems": [
    "C82_occupation",
    "C82_length",
    "C82_total",
    "C82_range",
    "C82_ground"
   ],
   "note": ""
  },
  {
   "property": "C83",
   "status": "proved",
   "theorems": [
    "C83_entropy",
    "C83_bounds",
    "C83_entropy_def"
   ],
   "note": ""
  },
  {
   "property": "C84",
   "status": "proved",
   "theorems": [
    "C84_blocks",
    "C84_sites",
    "C84_sums",
    "C84_needs",
    "C84_scalar_refuted",
    "C84_average_refuted"
   ],
   "note": "The two _refuted theorems are the counterexamples. One pass of the loop enters through its outcome per impurity."
  },
  {
   "property": "C85",
   "status": "proved",
   "theorems": [
    "C85_contract",
    "C85_ground",
    "C85_sectors"
   ],
   "note": "The solver contract is met by an eigensolver defined in the development (real_eigh), so no hypothesis is vacuous. Exact real arithmetic."
  },
  {
   "property": "C86",
   "status": "proved",
   "theorems": [
    "C86_thermal",
    "C86_free"
   ],
   "note": "Exact real arithmetic; the Green's function is for the up spin (see C40 for the other one)."
  },
  {
   "property": "C87",
   "status": "proved",
   "theorems": [
    "C87_solver",
    "C87_spin"
   ],
   "note": "Energies only: eigenvectors of degenerate levels may differ between solvers."
  },
  {
   "property": "C88",
   "status": "proved",
   "theorems": [
    "C88_lookup",
    "C88_trial"
   ],
   "note": "The root finder is assumed to find the zeros between neighbouring poles (finds_roots), as in C80."
  },
  {
   "property": "C89",
   "status": "proved",
   "theorems": [
    "C89_poles",
    "C89_tanh"
   ],
   "note": "The solver contract is met by real_geigh, defined in the development. Exact real arithmetic."
  },
  {
   "property": "C90",
   "status": "proved",
   "theorems": [
    "C90_closed",
    "C90_accuracy",
    "C90_limit",
    "C90_biased"
   ],
   "note": "C90_closed holds for every R, which is the refutation of its use. Exact real arithmetic; kB enters as a parameter."
  },
  {
   "property": "C91",
   "status": "proved",
   "theorems": [
    "C91_single",
    "C91_array_refuted"
   ],
   "note": "C91_array_refuted is the counterexample for every nzp >= 2."
  },
  {
   "property": "C92",
   "status": "proved",
   "theorems": [
    "C92_sum",
    "C92_level",
    "C92_holes",
    "C92_weight_refuted",
    "C92_restore_refuted",
    "C92_empty_refuted"
   ],
   "note": "Scalar-valued Green's functions; the leading axes of gf(z) are treated elementwise by numpy. Exact real arithmetic."
  },
  {
   "property": "C93",
   "status": "proved",
   "theorems": [
    "C93_occupation",
    "C93_integral"
   ],
   "note": "Up spin (the down branch of build_gf_exact raises, C40). The hypothesis Forall2 stored says that the arrays of observs hold the same vectors as the columns of the espace model; as_array_family shows that it can be met. Exact real arithmetic."
  },
  {
   "property": "C94",
   "status": "proved",
   "theorems": [
    "C94_outcome",
    "C94_projection",
    "C94_room",
    "C94_no_deflation",
    "C94_symmetric_refuted"
   ],
   "note": "Exact arithmetic; eigvalsh and the energy test are arbitrary total functions. The arrays in phi0 are assumed to be distinct objects and matvec to return a new array. C94_symmetric_refuted is the counterexample without enough room."
  },
  {
   "property": "C95",
   "status": "proved",
   "theorems": [
    "C95_rows",
    "C95_unnormalised",
    "C95_columns"
   ],
   "note": "Exact real arithmetic; a division by zero, which is NaN in numpy, is an exception in the model."
  },
  {
   "property": "C96",
   "status": "proved",
   "theorems": [
    "C96_elements",
    "C96_ground",
    "C96_extremes_refuted"
   ],
   "note": "Exact real arithmetic. The needed sectors are assumed to be stored (a missing one is a KeyError). C96_extremes_refuted is the single orbital without transitions."
  },
  {
   "property": "C97",
   "status": "proved",
   "theorems": [
    "C97_equilibrium",
    "C97_clip_refuted"
   ],
   "note": "Exact real arithmetic; exp and nF as real functions with the code's clipping. C97_clip_refuted is a concrete two-site case 200 kT apart."
  },
  {
   "property": "C98",
   "status": "proved",
   "theorems": [
    "C98_sqtunneling",
    "C98_sqtnl"
   ],
   "note": "Any stationary distribution, not only the one found by eig."
  },
  {
   "property": "C99",
   "status": "proved",
   "theorems": [
    "C99_elements",
    "C99_reversed",
    "C99_all_paths_refuted"
   ],
   "note": "Exact real arithmetic. The needed sectors are assumed to be stored. C99_all_paths_refuted is a two-site molecule whose only process goes through the empty molecule."
  },
  {
   "property": "C100",
   "status": "proved",
   "theorems": [
    "C100_rate",
    "C100_elastic",
    "C100_midpoint",
    "C100_matrices",
    "C100_swap",
    "C100_equilibrium",
    "C100_gibbs_refuted"
   ],
   "note": "Exact real arithmetic; a vanishing denominator counts as 0. C100_swap holds for any integration method. C100_gibbs_refuted is a concrete two-level case."
  },
  {
   "property": "C101",
   "status": "proved",
   "theorems": [
    "C101_screen",
    "C101_nothing",
    "C101_no_reference",
    "C101_rate",
    "C101_dropped",
    "C101_harmless_refuted"
   ],
   "note": "The threshold 1e-10 and the comparisons are exact. C101_harmless_refuted is a concrete case with an orbital spread over two sites."
  },
  {
   "property": "C102",
   "status": "proved",
   "theorems": [
    "C102_weight",
    "C102_golden",
    "C102_lower",
    "C102_product",
    "C102_golden_rule_refuted"
   ],
   "note": "Exact real arithmetic; exp as a real function. C102_golden_rule_refuted is one level 1000 kT away against a bias of 50 kT."
  },
  {
   "property": "C103",
   "status": "proved",
   "theorems": [
    "C103_green",
    "C103_index_refuted",
    "C103_single_refuted",
    "C103_equivalent",
    "C103_inversion"
   ],
   "note": "Exact complex arithmetic; np.linalg.inv is any function returning a two-sided inverse when there is one (C103_inversion: Gaussian elimination does). The chunks of np.nditer follow numpy's rule that axes of length one are joined with their neighbour."
  },
  {
   "property": "C104",
   "status": "proved",
   "theorems": [
    "C104_delta",
    "C104_paths",
    "C104_paths_exist",
    "C104_green_causal",
    "C104_causal",
    "C104_overlap_refuted"
   ],
   "note": "Exact complex arithmetic. C104_overlap_refuted holds for every overlap different from 1 in size and every energy."
  },
  {
   "property": "C105",
   "status": "proved",
   "theorems": [
    "C105_cover",
    "C105_green",
    "C105_remainder_refuted"
   ],
   "note": "All processes follow the same program; Allgather puts the parts together in the order of the ranks."
  },
  {
   "property": "C106",
   "status": "proved",
   "theorems": [
    "C106_occupations",
    "C106_fixed_point",
    "C106_moments",
    "C106_beta_refuted",
    "C106_update"
   ],
   "note": "Occupations from one process, at least two classes, the first k sites in different classes (C103) and regular matrices. Exact arithmetic."
  },
  {
   "property": "C107",
   "status": "proved",
   "theorems": [
    "C107_goal",
    "C107_iteration",
    "C107_plain",
    "C107_mismatch",
    "C107_hybrid_refuted",
    "C107_out_of_reach",
    "C107_no_integrate_refuted",
    "C107_no_goal_refuted",
    "C107_default_refuted"
   ],
   "note": "brentq by contract (a zero inside the bracket if the ends differ in sign, ValueError otherwise, errors of the function passed on); a finder meeting the contract is given (secant_ok). Exact arithmetic."
  },
  {
   "property": "C108",
   "status": "proved",
   "theorems": [
    "C108_closed",
    "C108_accuracy",
    "C108_spins",
    "C108_default_refuted",
    "C108_temperature_refuted"
   ],
   "note": "scipy.linalg.eigh by the contract of C89. Exact arithmetic."
  },
  {
   "property": "C109",
   "status": "proved",
   "theorems": [
    "C109_contracts",
    "C109_full",
    "C109_sound",
    "C109_range_values",
    "C109_range",
    "C109_unreduced",
    "C109_order_refuted",
    "C109_lowest",
    "C109_lowest_pair",
    "C109_select"
   ],
   "note": "LAPACK's stebz, stein and stemr by contract for legal ranges; routines meeting the contracts are constructed (C109_contracts). stebz splits the matrix where an off-diagonal element vanishes (in LAPACK: is negligible)."
  },
  {
   "property": "C110",
   "status": "proved",
   "theorems": [
    "C110_ritz",
    "C110_second_pass",
    "C110_only_refuted",
    "C110_only_range_refuted"
   ],
   "note": "The Lanczos run as in C58/C59."
  },
  {
   "property": "C111",
   "status": "proved",
   "theorems": [
    "C111_pairs",
    "C111_lowest",
    "C111_basis",
    "C111_illegal",
    "C111_small",
    "C111_products",
    "C111_shortfall_refuted",
    "C111_message_refuted"
   ],
   "note": "dsaupd/dseupd by contract: a dialogue that ends, status, pairs (met by a constructed solver, C111_ex). Arrays made by eigsh itself (param=None). Fuel: the result for all sufficiently large fuel. Exact arithmetic."
  },
  {
   "property": "C112",
   "status": "proved",
   "theorems": [
    "C112_sound",
    "C112_unique",
    "C112_paths"
   ],
   "note": "numpy.linalg.eigh and ARPACK by contract, both met by constructed solvers. Exact arithmetic."
  },
  {
   "property": "C113",
   "status": "proved",
   "theorems": [
    "C113_smooth",
    "C113_unique",
    "C113_value",
    "C113_twice",
    "C113_linear",
    "C113_mean",
    "C113_norm",
    "C113_all",
    "C113_constant",
    "C113_short",
    "C113_causal_refuted"
   ],
   "note": "FFT as its defining sum, interp1d for ascending abscissae. Exact arithmetic."
  },
  {
   "property": "C114",
   "status": "proved",
   "theorems": [
    "C114_elements",
    "C114_doubled",
    "C114_rates_refuted",
    "C114_spins_refuted",
    "C114_screened_refuted"
   ],
   "note": "Elements compared with the independent specification exact_nel; dictionary keys (idF, idI, spin) as association lists."
  },
  {
   "property": "C115",
   "status": "proved",
   "theorems": [
    "C115_occupation_refuted",
    "C115_solve_refuted",
    "C115_type_error",
    "C115_trial_refuted",
    "C115_weighted",
    "C115_weight",
    "C115_rounds",
    "C115_condition_refuted"
   ],
   "note": "Eigensolver, fsolve, numpy's random numbers as parameters; the body of get_evecs_occupation is arbitrary."
  },
  {
   "property": "C116",
   "status": "proved",
   "theorems": [
    "C116_mean",
    "C116_scalar_refuted",
    "C116_needs"
   ],
   "note": "The loop and its bookkeeping; sampling and the evaluation of one round are parameters as in C84."
  },
  {
   "property": "C117",
   "status": "proved",
   "theorems": [
    "C117_lowest",
    "C117_ground_sector",
    "C117_dims"
   ],
   "note": "numpy.linalg.eigh by contract (met by real_eigh)."
  },
  {
   "property": "C118",
   "status": "proved",
   "theorems": [
    "C118_shares",
    "C118_other",
    "C118_few",
    "C118_root",
    "C118_average_iff",
    "C118_weights",
    "C118_disjoint",
    "C118_draws",
    "C118_repeated_refuted"
   ],
   "note": "Per-rank solver as a parameter; that it returns means over its samples is C81 for siam_solve. Exact arithmetic."
  },
  {
   "property": "C119",
   "status": "proved",
   "theorems": [
    "C119_import_refuted",
    "C119_eps",
    "C119_full",
    "C119_converged_refuted",
    "C119_cases",
    "C119_none",
    "C119_stopped"
   ],
   "note": "MPI collectives: Reduce and bcast need all ranks; a rank that waits for one that left is a deadlock. The definitions of the two modules as lists of names."
  },
  {
   "property": "C120",
   "status": "proved",
   "theorems": [
    "C120_optimiser",
    "C120_fit",
    "C120_symmetric",
    "C120_initial",
    "C120_one_refuted",
    "C120_stationary",
    "C120_exact_fit"
   ],
   "note": "Exact arithmetic; the optimiser is the one of C54. One level: refuted, the start +B is not symmetric."
  },
  {
   "property": "C121",
   "status": "proved",
   "theorems": [
    "C121_green",
    "C121_occupation",
    "C121_reciprocal"
   ],
   "note": "numpy.linalg.eigh by contract (met by real_eigh); exact arithmetic."
  },
  {
   "property": "C122",
   "status": "proved",
   "theorems": [
    "C122_spectrum",
    "C122_green",
    "C122_occupation",
    "C122_mean_field"
   ],
   "note": "numpy.linalg.eigh by contract (met by real_eigh); exact arithmetic. The exchange of electrons and holes is stated without exchange and pair hopping."
  },
  {
   "property": "C123",
   "status": "proved",
   "theorems": [
    "C123_spin",
    "C123_half_spectrum",
    "C123_half_green",
    "C123_half_occupation",
    "C123_centred"
   ],
   "note": "numpy.linalg.eigh by contract (met by real_eigh); exact arithmetic."
  },
  {
   "property": "C124",
   "status": "proved",
   "theorems": [
    "C124_trial",
    "C124_dev"
   ],
   "note": "All samples that run to completion (siam_solve: C88 shows that they all do under the contracts). The occupation routine of the development version is a parameter (C115)."
  },
  {
   "property": "C125",
   "status": "proved",
   "theorems": [
    "C125_fit",
    "C125_green",
    "C125_trial",
    "C125_axis"
   ],
   "note": "numpy.linalg.eigh and fsolve by contract (met by real_eigh and, in the example, by the midpoint); exact arithmetic."
  },
  {
   "property": "C126",
   "status": "proved",
   "theorems": [
    "C126_green",
    "C126_parts",
    "C126_matrix",
    "C126_small",
    "C126_krylov"
   ],
   "note": "numpy.linalg.eigh by contract (met by real_eigh); the Lanczos routine and, for 'sp', eigh_tridiagonal by contract (C67_krylov, C66); exact arithmetic. The matrix needs the condition of C52."
  },
  {
   "property": "C127",
   "status": "proved",
   "theorems": [
    "C127_green",
    "C127_solvable",
    "C127_visited",
    "C127_weight",
    "C127_settled",
    "C127_order_refuted",
    "C127_weight_refuted"
   ],
   "note": "Routines by contract as in C67. Two readings refuted with a two-site dictionary."
  },
  {
   "property": "C128",
   "status": "proved",
   "theorems": [
    "C128_dictionary",
    "C128_ratio",
    "C128_complete",
    "C128_impurity",
    "C128_free_refuted",
    "C128_adjust_refuted"
   ],
   "note": "Eigensolvers and the Lanczos routine by contract (met by real_eigh, real_eight and C126_krylov); exact arithmetic. neig=None in the composed statement; other requests are covered by C128_dictionary. Two readings refuted."
  },
  {
   "property": "C129",
   "status": "proved",
   "theorems": [
    "C129_value",
    "C129_related",
    "C129_solver",
    "C129_spin",
    "C129_mirror",
    "C129_half",
    "C129_undisturbed",
    "C129_apart"
   ],
   "note": "numpy.linalg.eigh, the Lanczos routine and eigh_tridiagonal by contract as in C126; exact arithmetic. The condition on small sectors is necessary for the value, see C127_order_refuted."
  },
  {
   "property": "C130",
   "status": "proved",
   "theorems": [
    "C130_model",
    "C130_solve",
    "C130_impurity",
    "C130_start",
    "C130_default",
    "C130_step",
    "C130_loop",
    "C130_bethe",
    "C130_hybrid",
    "C130_fitter",
    "C130_c_fit",
    "C130_mixing",
    "C130_one_refuted"
   ],
   "note": "The optimiser of fit_cg.py (scipy) is an arbitrary function that keeps pairs of levels; C130_fitter and C130_c_fit give sufficient conditions. The conditions on screening and Krylov spaces are those of C129."
  },
  {
   "property": "C131",
   "status": "proved",
   "theorems": [
    "C131_solve",
    "C131_exchange",
    "C131_equal",
    "C131_equal_refuted",
    "C131_start",
    "C131_fields",
    "C131_step",
    "C131_loop",
    "C131_no_field",
    "C131_double"
   ],
   "note": "Eigensolvers, the Lanczos routine and eigh_tridiagonal by contract as in C126; the optimiser is an arbitrary function that keeps the size of the bath; exact arithmetic; neig=None. What a call has already written when it raises is not modelled. The loop theorems assume workable trials only for the trials actually met (along); C131_ex is an instance with the solvers real_eigh and real_eight. C131_equal_refuted holds for every solver with the contract."
  },
  {
   "property": "C132",
   "status": "proved",
   "theorems": [
    "C132_model",
    "C132_occupation",
    "C132_solve",
    "C132_start",
    "C132_step",
    "C132_loop",
    "C132_bethe",
    "C132_hybrid",
    "C132_c_fit",
    "C132_mixing"
   ],
   "note": "Eigensolvers, the Lanczos routine and eigh_tridiagonal by contract as in C126; exact arithmetic; neig=None; the occupation is that of the unscreened dictionary. Trials are assumed workable (C130) only where the run meets them. C132_ex_occupation is an instance with nonzero couplings, C132_ex a run of the loop for every field."
  },
  {
   "property": "C133",
   "status": "proved",
   "theorems": [
    "C133_dictionary",
    "C133_occupation",
    "C133_bounds",
    "C133_exact",
    "C133_lanczos",
    "C133_sigma",
    "C133_impurity"
   ],
   "note": "Eigensolvers, the Lanczos routine and eigh_tridiagonal by contract as in C126; exact arithmetic; neig=None. The closed form of the filling is for dictionaries with all states kept; C133_dictionary and C133_impurity cover screened ones with the occupation as the stored states give it. C133_ex is an instance with the solver real_eigh and a hopping below the cut-off, C133_ex_impurity one of the impurity object."
  },
  {
   "property": "C134",
   "status": "proved",
   "theorems": [
    "C134_lower",
    "C134_flip",
    "C134_members",
    "C134_lowest",
    "C134_ground",
    "C134_exchange_refuted"
   ],
   "note": "numpy.linalg.eigh by contract (met by real_eigh); exact arithmetic; neig=None. Holds without exchange; with Jx the coded sign breaks it, C134_exchange_refuted."
  },
  {
   "property": "C135",
   "status": "proved",
   "theorems": [
    "C135_monotone",
    "C135_hot",
    "C135_cold",
    "C135_bath",
    "C135_sample"
   ],
   "note": "numpy.linalg.eigh by contract (met by real_eigh); exact arithmetic. The bath's closed form and the sample need at most eight bath levels: above that build_non_interacting_espace shifts 8-bit integers (C33_nine_levels_refuted)."
  },
  {
   "property": "C136",
   "status": "proved",
   "theorems": [
    "C136_free",
    "C136_response",
    "C136_site",
    "C136_mu",
    "C136_bounds"
   ],
   "note": "numpy.linalg.eigh by contract (met by real_eigh); exact arithmetic; neig=None, all states kept. C136_ex is the dimer of C85 at two values of mu."
  },
  {
   "property": "C137",
   "status": "proved",
   "theorems": [
    "C137_ground",
    "C137_trial"
   ],
   "note": "numpy.linalg.eigh by contract (met by real_eigh), fsolve by finding the roots; exact arithmetic. The tolerance is that of the lookup: with degenerate sectors within 1e-7 the found state need not be the lowest. C137_ex and C137_ex_trial are the dimer at two fillings and the sample of C124 accepted with two shifts."
  },
  {
   "property": "C138",
   "status": "proved",
   "theorems": [
    "C138_repulsion",
    "C138_hfmode",
    "C138_bounds"
   ],
   "note": "numpy.linalg.eigh by contract (met by real_eigh); exact arithmetic; neig=None, all states kept. C138_ex and C138_ex_hf are the dimer with U = 1 and U = 4."
  },
  {
   "property": "C139",
   "status": "proved",
   "theorems": [
    "C139_exact",
    "C139_short",
    "C139_long_refuted"
   ],
   "note": "The last part is false of the code: C139_long_refuted shows that every too large nnz leaves unwritten cells without an exception. C139_ex_counts: the counts of nonzero and of off-diagonal entries are both wrong for one 3 x 3 matrix."
  },
  {
   "property": "C140",
   "status": "proved",
   "theorems": [
    "C140_shape",
    "C140_weight",
    "C140_total",
    "C140_negative",
    "C140_plot"
   ],
   "note": "Exact arithmetic. C140_ex is the script's first round."
  },
  {
   "property": "C141",
   "status": "proved",
   "theorems": [
    "C141_convex",
    "C141_causal",
    "C141_fixed",
    "C141_name_refuted",
    "C141_weights_refuted"
   ],
   "note": "scipy.optimize.linearmixing by contract: each trial is an earlier one plus s*alpha times its distance, 0 <= s <= 1. The last two parts are false of the code: C141_weights_refuted, C141_name_refuted."
  },
  {
   "property": "C142",
   "status": "proved",
   "theorems": [
    "C142_session",
    "C142_array",
    "C142_kept_refuted",
    "C142_odd_refuted"
   ],
   "note": "Exact arithmetic. The two corners are false of the code: C142_kept_refuted (kept array), C142_odd_refuted (odd number of parameters)."
  }
 ]
}
