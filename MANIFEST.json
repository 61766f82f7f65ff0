{
 "claims": [
  {
   "property": "C01",
   "status": "proved",
   "theorems": [
    "generate_partitions_exact",
    "generate_partitions_once",
    "generate_partitions_descending"
   ],
   "note": "Closed under the global context."
  },
  {
   "property": "C02",
   "status": "proved",
   "theorems": [
    "standard_monom_in_orbit",
    "standard_monom_decides_orbit",
    "standard_monom_largest",
    "standard_monom_idempotent",
    "is_standard_monom_iff",
    "monomial_cache_transparent"
   ],
   "note": "Any permutation group given by its element list."
  },
  {
   "property": "C03",
   "status": "proved",
   "theorems": [
    "arraylize_then_invarraylize",
    "invarraylize_symmetric",
    "invarraylize_then_arraylize",
    "invarraylize_then_arraylize_homogeneous",
    "zero_vector_roundtrip_refuted"
   ],
   "note": "The round trip of a vector whose polynomial has lower degree fails; shown by zero_vector_roundtrip_refuted."
  },
  {
   "property": "C04",
   "status": "proved",
   "theorems": [
    "arraylize_expand_entries",
    "arraylize_expand_symmetrises"
   ],
   "note": "Entry-wise and as polynomial functions."
  },
  {
   "property": "C05",
   "status": "proved",
   "theorems": [
    "is_cyclic_iff_group_invariant",
    "verify_is_symmetric_iff",
    "verify_is_symmetric_of_cyclic"
   ],
   "note": "Invariance is stated on values, via the identity theorem for polynomials."
  },
  {
   "property": "C06",
   "status": "proved",
   "theorems": [
    "cancel_abc_factor",
    "cancel_abc_no_factor_left",
    "cancel_k_substitution",
    "cancel_k_is_greatest"
   ],
   "note": "For a constant polynomial cancel_k returns exponent 0."
  },
  {
   "property": "C07",
   "status": "partial",
   "theorems": [
    "cyclic_sum_value_partial"
   ],
   "note": "All groups, comparisons and fuels. Missing: inner CyclicProducts whose group order differs from the number of symbols (their own re-simplification is wrong, see C08)."
  },
  {
   "property": "C08",
   "status": "partial",
   "theorems": [
    "cyclic_product_value_partial",
    "cyclic_product_value_refuted",
    "product_content",
    "product_content_refuted"
   ],
   "note": "Exact when the group order is the number of symbols; refuted otherwise: invariant factors are raised to len(symbols), not to the order."
  },
  {
   "property": "C09",
   "status": "proved",
   "theorems": [
    "standard_order",
    "standard_order_value"
   ],
   "note": "std_seq is the smallest image by name, canonical on orbits, same translations, same value."
  },
  {
   "property": "C10",
   "status": "proved",
   "theorems": [
    "completion_inserts",
    "completion_complete",
    "completion_idempotent",
    "completion_means"
   ],
   "note": "completion_inserts for all strings and all flags; the others without scientific notation."
  },
  {
   "property": "C11",
   "status": "partial",
   "theorems": [
    "macros_mean",
    "unbalanced_text_refuted",
    "macro_root_names_refuted"
   ],
   "note": "For text of well formed expressions with letters other than s and p and without the words left, right, frac; sympify of the completed text is outside of the model. Refuted: variables named q, r, t with roots."
  },
  {
   "property": "C12",
   "status": "proved",
   "theorems": [
    "sum_of_squares_first"
   ],
   "note": "Unknown names are detected only when reached."
  },
  {
   "property": "C13",
   "status": "partial",
   "theorems": [
    "batch_records_partial",
    "batch_isolation_refuted"
   ],
   "note": "Needs a degree for each polynomial read; objects that are neither strings nor polynomials are dropped."
  },
  {
   "property": "C14",
   "status": "proved",
   "theorems": [
    "std_ineq_keeps_feasible",
    "std_ineq_stronger",
    "std_ineq_feasible_refuted",
    "std_eq_keeps_zeros",
    "std_eq_expression_refuted",
    "std_eq_constant_refuted"
   ],
   "note": "Inequalities: equivalence and value of the recorded expression wherever no repeated factor vanishes; the factor list is a parameter (sympy's sqf_list is not modelled). Where a repeated factor vanishes the feasible set can shrink (refuted on an example). Equations: zero set kept; the recorded root can have the wrong sign for even multiplicity and a constant equation raises TypeError."
  },
  {
   "property": "C15",
   "status": "proved",
   "theorems": [
    "inferred_generators_valid",
    "inferred_symmetry_true",
    "inferred_symmetry_permutes"
   ],
   "note": "identify_symmetry_from_lists with all candidate permutations; sympy's closure of the generators to a group enters as a group whose elements are products of the generators. Coeff.is_cyclic/is_symmetric, used by identify_symmetry, is C05."
  },
  {
   "property": "C16",
   "status": "proved",
   "theorems": [
    "homogenise_homogeneous",
    "homogenise_dehomogenise",
    "homogenise_scaling",
    "homogenised_problem_certifies",
    "homogenised_problem_faithful",
    "homogenised_only_if_needed"
   ],
   "note": "Poly.homogenize is modelled on terms; the substitution of 1 in the returned expression is stated on values."
  },
  {
   "property": "C17",
   "status": "partial",
   "theorems": [
    "degree_combinations_terminates",
    "degree_combinations_exact_partial",
    "degree_combinations_single_refuted",
    "degree_combinations_single_dup_refuted"
   ],
   "note": "Exact for two or more constraints; a single constraint is refuted."
  },
  {
   "property": "C18",
   "status": "partial",
   "theorems": [
    "linear_correction_exact",
    "linear_correction_positive_partial",
    "linear_correction_sign_refuted"
   ],
   "note": "Exactness for arbitrary numbers; the weights are positive when the numbers given are non-negative. Without that the first branch accepts negative weights (refuted)."
  },
  {
   "property": "C19",
   "status": "proved",
   "theorems": [
    "assembly_keeps_value",
    "linear_certificate_exact"
   ],
   "note": "Grouping by multiplier, constraint and symmetry; odd exponents turned into constraints."
  },
  {
   "property": "C20",
   "status": "proved",
   "theorems": [
    "congruence_sound",
    "congruence_sum_of_squares"
   ],
   "note": "exact branch of congruence, all sizes, all ordered fields"
  },
  {
   "property": "C21",
   "status": "proved",
   "theorems": [
    "congruence_none_iff_not_psd",
    "congruence_total"
   ],
   "note": "iff, all sizes"
  },
  {
   "property": "C22",
   "status": "partial",
   "theorems": [
    "matmul_correct",
    "matmul_correct_entries",
    "matmul_multiple_correct",
    "bilinear_multiple_correct",
    "matmul_int64_min_refuted",
    "bilinear_multiple_empty_refuted"
   ],
   "note": "Exact for all sizes and all entries except -2^63 (numpy's absolute value of the smallest int64 is negative, so the guard lets it through: matmul_int64_min_refuted). The symmetric product with an empty column space raises (bilinear_multiple_empty_refuted)."
  },
  {
   "property": "C23",
   "status": "proved",
   "theorems": [
    "solve_linear_complete",
    "solve_linear_error_iff"
   ],
   "note": "One right hand side column, as every caller in the repository uses it. Field arithmetic is exact (any ordered field); dictionary order of sympy's sparse rows is replaced by increasing column order."
  },
  {
   "property": "C24",
   "status": "partial",
   "theorems": [
    "csr_general_complete",
    "csr_general_error_iff",
    "column_separated_partial",
    "column_separated_zero_row_refuted",
    "column_separated_zero_column_refuted",
    "column_separated_group_refuted"
   ],
   "note": "solve_csr_linear is proved sound and complete, with an error exactly for unsolvable systems, when some column has two entries. The column separated path is proved under the conditions its docstring implies (one coefficient per group and row, no zero column, zero rows consistent); each condition is shown necessary by a _refuted theorem."
  },
  {
   "property": "C25",
   "status": "partial",
   "theorems": [
    "lengths_inverse",
    "direct_mat_vec_mat",
    "direct_vec_mat_vec",
    "direct_rejects",
    "upper_mat_vec_mat",
    "upper_vec_mat_vec",
    "upper_api_refuted",
    "upper_length_refuted",
    "S_from_y_affine"
   ],
   "note": "Both layouts are proved to be inverse for every size. Composed through the public functions mode UPPER always raises AttributeError (upper_api_refuted) and vectors of the wrong length are accepted silently (upper_length_refuted). The float square root is taken to be exact."
  },
  {
   "property": "C26",
   "status": "partial",
   "theorems": [
    "nullspace_transform_exact",
    "complement_exists",
    "subspace_transform_partial",
    "zero_columnspace_ignored_refuted",
    "full_columnspace_fails_refuted",
    "primal_nullspace_exact"
   ],
   "note": "Nullspace constraints are exact in both directions for dual and primal problems, for any choice of independent columns and complement. Column space constraints are exact except in two cases that are refuted: all-zero column spaces are ignored, and column spaces that are everything raise an error."
  },
  {
   "property": "C27",
   "status": "partial",
   "theorems": [
    "dual_zero_diagonals_exact",
    "psd_zero_row",
    "dual_constrain_zero_diagonals_exact",
    "primal_zero_diagonals_partial",
    "primal_zero_diagonals_closed",
    "primal_zero_diagonals_refuted",
    "primal_row_masking_exact",
    "primal_row_masking_decomposition",
    "primal_constrain_zero_diagonals_partial",
    "primal_symmetrize_exact"
   ],
   "note": "Proved for dual problems, and for primal problems with symmetric coefficient matrices (which constrain_symmetry establishes). Refuted for primal problems with a coefficient above the diagonal only."
  },
  {
   "property": "C28",
   "status": "proved",
   "theorems": [
    "pretty_common_denominator",
    "rationalize_first_and_exact",
    "rationalize_none_iff",
    "solve_exact",
    "register_y_exact",
    "regularised_answer_refuted",
    "perturbed_decomposition_refuted",
    "projected_vector_not_tested_refuted",
    "forced_answer_not_unpackable_refuted"
   ],
   "note": "Proved for the defaults reg=0, perturb=False. Refuted outside them: reg>0 and perturb=True give decompositions of a different matrix; the vector projected by the solver is not tested again by verify_is_pretty; allow_numer>=2 stores one-component tuples."
  },
  {
   "property": "C29",
   "status": "proved",
   "theorems": [
    "sdpsos_certificate_exact",
    "sdpsos_psd_gives_certificate",
    "sdpsos_gram_symmetric",
    "sdpsos_search_sound",
    "sdpsos_cleared_constraints_distinct",
    "sdpsos_search_sound_even",
    "sdpsos_uncovered_monomial_refuted",
    "sdpsos_search_wrong_certificate_refuted",
    "sdpsos_repeated_constraint_refuted",
    "sdpsos_high_degree_equality_refuted"
   ],
   "note": "Equations, grouping, linear solver, reassembly of the certificate and the search loop are modelled; the numerical solver is an oracle that returns parameters with exact decompositions (see C28). Repeated constraints and monomials that no constraint reaches give wrong certificates (refuted)."
  },
  {
   "property": "C30",
   "status": "proved",
   "theorems": [
    "equal_entries_are_orbits",
    "equal_entries_cover",
    "sdpsos_gram_symmetric",
    "equal_entries_cover_all_refuted"
   ],
   "note": "The literal 'cover all entries' is false for constraints that are not invariant (refuted); the exact set of covered entries is proved."
  },
  {
   "property": "C31",
   "status": "proved",
   "theorems": [
    "real_representation",
    "positive_representation",
    "inverse_substitution_values",
    "symmetric_certificate_exact",
    "real_denominator_sign_refuted",
    "constraint_transform_sign_refuted"
   ],
   "note": "Three variables, both methods: numerator = denominator * polynomial wherever the new variables exist; default constraints hold; the certificate is exact wherever defined. The docstring's claim that the denominator is positive semidefinite and the transformation of symmetric constraints are refuted. The four-variable transform and sympy's symmetrize/divmod are not modelled (oracles with their specification)."
  },
  {
   "property": "C32",
   "status": "proved",
   "theorems": [
    "prove_by_pivoting_exact",
    "prove_by_pivoting_terminates"
   ],
   "note": "Whole function (basic.py:78-151) modelled with the bivariate solver of C47. Oracles: the univariate prover (exact) and the factorisation of binary forms."
  },
  {
   "property": "C33",
   "status": "proved",
   "theorems": [
    "quadratic_weighting_identity",
    "quadratic_weighting_nonneg",
    "quadratic_weighting_none_iff"
   ],
   "note": "sound and complete over any ordered field"
  },
  {
   "property": "C34",
   "status": "partial",
   "theorems": [
    "extract_value",
    "extract_nonnegative_partial",
    "extract_nonnegative_refuted"
   ],
   "note": "Value preserved for every expression; non-negativity when unknown functions take non-negative values only (refuted without)."
  },
  {
   "property": "C35",
   "status": "proved",
   "theorems": [
    "struct_linear_exact",
    "struct_quadratic_exact",
    "struct_quadratic_cubic_refuted"
   ],
   "note": "Full for degree at most 1 and 2. The refutation records that sos_struct_quadratic does not check the degree."
  },
  {
   "property": "C36",
   "status": "partial",
   "theorems": [
    "struct_common_orthant",
    "struct_common_real_partial",
    "struct_common_first",
    "degree_solver_sound_partial",
    "struct_common_real_refuted",
    "degree_solver_nonhomogeneous_refuted"
   ],
   "note": "Full on the non-negative orthant. With real=True an odd monomial factor is returned as if it were non-negative (refuted); the solver by degree needs homogeneous input."
  },
  {
   "property": "C37",
   "status": "proved",
   "theorems": [
    "cyclic_quadratic_sound",
    "cyclic_quadratic_none"
   ],
   "note": "CommonExpr.quadratic and sos_struct_quadratic, cyclic coefficients."
  },
  {
   "property": "C38",
   "status": "proved",
   "theorems": [
    "acyclic_quadratic_sound",
    "acyclic_quadratic_complete"
   ],
   "note": "All branches; the certificate exists exactly for copositive forms."
  },
  {
   "property": "C39",
   "status": "proved",
   "theorems": [
    "cyclic_cubic_sound",
    "cyclic_cubic_none"
   ],
   "note": "Numerical candidates of rationalize_func are arbitrary; when none is valid the code raises TypeError, which is modelled as Err. For irrational coefficients with p, q >= 0 the certificate contains s(a^2 b - abc), which is non-negative (AM-GM) but not a visible sum of squares."
  },
  {
   "property": "C40",
   "status": "proved",
   "theorems": [
    "cyclic_quartic_sound",
    "cyclic_quartic_total",
    "quartic_core_everywhere"
   ],
   "note": "All branches of quartic.py:14-560; gcd root, rationalize_func candidates, nsimplify approximations and the numerical x search are arbitrary inputs."
  },
  {
   "property": "C41",
   "status": "partial",
   "theorems": [
    "schur_table",
    "schurinv_table_partial",
    "schurinv_2_refuted",
    "amgm_table"
   ],
   "note": "Every entry is right except schurinv(2), which returns twice the claimed expression (refuted)."
  },
  {
   "property": "C42",
   "status": "proved",
   "theorems": [
    "handle_uncentered_input",
    "handle_uncentered_exact",
    "handle_uncentered_none"
   ],
   "note": "Arbitrary solver and degree."
  },
  {
   "property": "C43",
   "status": "partial",
   "theorems": [
    "quarternary_cubic_symmetric_decides",
    "quarternary_cubic_partial_exact_partial",
    "quarternary_search_refuted"
   ],
   "note": "Symmetric cubics: proved completely, including that the solver decides non-negativity on the orthant. Cubics cyclic in a, b, c: exact only when the coefficient of ab^2 is zero and that of abc is not; without that the claim is false, refuted at the level of the dispatcher."
  },
  {
   "property": "C44",
   "status": "partial",
   "theorems": [
    "prove_irreducible_exact_partial",
    "prove_univariate_exact_partial",
    "aligned_even_degree",
    "reduce_sos_exact",
    "reduce_sos_total",
    "prove_interval_exact_partial",
    "prove_interval_nonnegative_partial",
    "prove_univariate_exact_refuted"
   ],
   "note": "Exact for every factorisation and numerics when the matrix sizes fit; refuted without that condition for x^3-2x^2+5x+1."
  },
  {
   "property": "C45",
   "status": "proved",
   "theorems": [
    "determine_diagonal_represents",
    "determine_diagonal2_represents"
   ],
   "note": "Any size, any off-diagonal entries; polynomial of the degree the matrix allows."
  },
  {
   "property": "C46",
   "status": "partial",
   "theorems": [
    "halfspace_stored_are_implied",
    "halfspace_same_cone_partial",
    "halfspace_same_cone_refuted",
    "halfspace_zero_normal_refuted",
    "halfspace_degenerated_refuted"
   ],
   "note": "Stored constraints always follow from the added ones; equality of the cones for non-zero, not exactly opposite normals. The unrestricted claim is refuted for opposite or zero normals, and so is the meaning of the degeneracy mark."
  },
  {
   "property": "C47",
   "status": "partial",
   "theorems": [
    "bivariate_factor_exact",
    "structural_2vars_exact",
    "structural_2vars_is_defined",
    "structural_2vars_exact_partial",
    "bivariate_opposite_raises"
   ],
   "note": "Exact and non-negative on the constraint cone for every exact univariate prover, any number of factors and constraints; certificates are defined on the whole cone once a bound is kept. With the code's own prover the size condition of C44 is needed. Opposite linear constraints divide by zero."
  },
  {
   "property": "C48",
   "status": "partial",
   "theorems": [
    "structural_certifies_partial",
    "structural_monomial_partial",
    "structural_certifies_refuted"
   ],
   "note": "Single monomials with odd exponents are reported as solved (refuted). Subsolvers are assumed sound, those proved are listed at C35-C47."
  },
  {
   "property": "C49",
   "status": "proved",
   "theorems": [
    "nvars_quartic_sound",
    "nvars_quartic_nonneg",
    "nvars_parameters_exact",
    "nvars_quartic_total",
    "symmetric_group_complete",
    "nvars_inhomogeneous_refuted"
   ],
   "note": "Every n, every homogeneous quartic, every answer of the region search; the hypothesis of homogeneity is needed (refuted without)."
  },
  {
   "property": "C50",
   "status": "proved",
   "theorems": [
    "zip_longest_pads"
   ],
   "note": "any number and lengths of inputs"
  },
  {
   "property": "C51",
   "status": "partial",
   "theorems": [
    "clear_free_symbols_active",
    "clear_free_symbols_problem",
    "clear_free_symbols_constant_refuted",
    "clear_free_symbols_infeasible_refuted"
   ],
   "note": "Full for goals with a symbol; for a constant goal kept constraints may use dropped symbols (refuted). Equivalence of the claims needs a feasible point (refuted otherwise)."
  },
  {
   "property": "C52",
   "status": "partial",
   "theorems": [
    "acute_quadratic_exact",
    "acute_quartic_exact",
    "acute_cubic_exact",
    "constrained_acute_exact_partial",
    "acute_zero_axis_refuted",
    "acute_constant_refuted"
   ],
   "note": "Quadratics, quartics and cubics: exact for all coefficients and points (sextic solver as an oracle). The whole solver is exact on runs that do not answer a constant or a zero symmetric axis; on those it is wrong (two refutations). lift_for_six terminates by fuel; division, univariate proof of the axis and the general ternary solver are oracles."
  },
  {
   "property": "C53",
   "status": "proved",
   "theorems": [
    "verify_hom_cyclic_correct"
   ],
   "note": "Slow path (fast=False); the fast path works on sympy's internal dense representation and is not modelled."
  },
  {
   "property": "C54",
   "status": "proved",
   "theorems": [
    "coeff_add_value",
    "coeff_sub_value"
   ],
   "note": ""
  },
  {
   "property": "C55",
   "status": "partial",
   "theorems": [
    "cyclic_quartic_none_partial"
   ],
   "note": "Proved when coeff(a^4) <= 0, when the value at (1,1,1) is negative and when 3m(m+n) >= p^2+pq+q^2; missing: the case decided by numerical candidates."
  },
  {
   "property": "C56",
   "status": "proved",
   "theorems": [
    "dual_row_masking_exact",
    "equal_entries_exact",
    "symmetry_exact"
   ],
   "note": "All three transformations, in both directions."
  },
  {
   "property": "C57",
   "status": "partial",
   "theorems": [
    "xreplace_value_partial",
    "xreplace_split_partial",
    "xreplace_capture_refuted",
    "xreplace_partial_refuted"
   ],
   "note": "Symbol keys. Exact for transitive groups without capture and for groups split by the stabilisers; refuted for captured symbols and for other intransitive groups."
  },
  {
   "property": "C58",
   "status": "partial",
   "theorems": [
    "rewrite_value_partial",
    "rewrite_transversal",
    "rewrite_value_refuted"
   ],
   "note": "Exact when the representatives precede the subgroup; a transversal of right cosets (sympy's documented one) is not enough."
  },
  {
   "property": "C59",
   "status": "partial",
   "theorems": [
    "batch_saved_partial",
    "batch_saved_refuted"
   ],
   "note": "File names without directory, and batches without problems, raise after the work is done."
  },
  {
   "property": "C60",
   "status": "partial",
   "theorems": [
    "constraint_marks_sound_partial",
    "constraint_marks_degree_refuted"
   ],
   "note": "For constraints that are multiples of one symbol. The degree of a monomial constraint is not checked by the code; refuted for degree two."
  },
  {
   "property": "C61",
   "status": "partial",
   "theorems": [
    "latex_sum_partial",
    "latex_sum_short_refuted",
    "latex_sum_bracket_refuted"
   ],
   "note": "One sum or product at the start of the text followed by nothing or by a term of at least four characters; refuted for short tails and inside of brackets."
  },
  {
   "property": "C62",
   "status": "partial",
   "theorems": [
    "triangle_exact_partial",
    "triangle_nonhomogeneous_refuted"
   ],
   "note": "Three variables, homogeneous; refuted without homogeneity. The four variable branch is covered by C03."
  },
  {
   "property": "C63",
   "status": "proved",
   "theorems": [
    "masks_unmask",
    "masks_equivariant",
    "masks_error_iff"
   ],
   "note": "Dictionaries are association lists, the order of entries is not modelled."
  },
  {
   "property": "C64",
   "status": "proved",
   "theorems": [
    "permute_vec_exact",
    "clear_polys_covers",
    "clear_polys_minimal",
    "clear_polys_total",
    "clear_polys_nonhomogeneous_refuted"
   ],
   "note": "For canonical polynomials in at least two variables, homogeneous if the manager is; terms of lower degree are ignored by a homogeneous manager, so different orbits are identified there (refuted on an example)."
  },
  {
   "property": "C65",
   "status": "proved",
   "theorems": [
    "quarternary_quartic_exact"
   ],
   "note": "Every cyclic quartic over every ordered field; proposals of the numerical search are arbitrary."
  },
  {
   "property": "C66",
   "status": "partial",
   "theorems": [
    "quarternary_search_cyclic",
    "quarternary_search_swap_partial",
    "quarternary_search_refuted"
   ],
   "note": "Proved for polynomials invariant under the 4-cycle or under exchange of a and b; refuted for polynomials only cyclic in a, b, c."
  },
  {
   "property": "C67",
   "status": "proved",
   "theorems": [
    "qmodule_sound",
    "multipliers_sound",
    "basis_sound"
   ],
   "note": "For at least two variables and homogeneous constraints."
  },
  {
   "property": "C68",
   "status": "proved",
   "theorems": [
    "linear_sos_sound"
   ],
   "note": "One round with n_plus extra degrees; the linear program, LU solver and content extraction are parameters with the stated conditions."
  },
  {
   "property": "C69",
   "status": "partial",
   "theorems": [
    "symmetric_sos_sound_partial",
    "symmetric_sos_answers_symmetric_forms",
    "nonnegative_vars_sound",
    "new_variable_signs_sound",
    "symmetric_sos_cube_constraints_refuted"
   ],
   "note": "Missing: constraints that are monomials in one symbol of degree above one (refuted: a**3>=0 replaces the mark of a). Oracles: univariate prover, factorisation of binary forms, division, elementary form of the goal."
  },
  {
   "property": "C70",
   "status": "proved",
   "theorems": [
    "qmodule_generators_sound",
    "qmodule_generators_complete",
    "qmodule_progressive_ends_linear",
    "qmodule_generators_distinct_refuted",
    "qmodule_none_refuted"
   ],
   "note": "Constraints as pairs of a polynomial and the value of its expression."
  },
  {
   "property": "C71",
   "status": "proved",
   "theorems": [
    "dense_symmetric_exact",
    "dense_symmetric_total",
    "equal_axis_difference",
    "subtractor1_sound",
    "subtractor2_sound",
    "subtraction_reaches_order_four",
    "order_four_test_passes"
   ],
   "note": "All of dense_symmetric.py; contracts for the univariate prover, the solver of degree < 8 and the division are hypotheses; the division contract is met by the model's own exact division."
  },
  {
   "property": "C72",
   "status": "partial",
   "theorems": [
    "root_nullspaces_sound",
    "binary_nullspaces_keep_certificates",
    "nullspaces_keep_solutions",
    "sdpsos_solutions_are_certificates",
    "findroot_binary_sound",
    "findroot_binary_finds",
    "derivative_loop_stops",
    "elimination_stops",
    "algebraic_coordinates_killed",
    "root_nullspaces_general_refuted"
   ],
   "note": "Proved for all forms, groups, constraints, roots and certificates under the condition that the constraints still hold when a coordinate of a rational root grows; unconditional for monomial constraints and binary roots; the condition is needed (refutation)."
  },
  {
   "property": "C73",
   "status": "partial",
   "theorems": [
    "amgm_exact_partial",
    "sos_struct_sparse_exact_partial",
    "amgm_total",
    "local_ineq_exact",
    "amgm_pure_power_doubled",
    "sparse_certificate_refuted"
   ],
   "note": "All but the multiples of s(a^d), d > 4, whose certificate is proved to be twice the form (sparse_certificate_refuted shows it through sos_struct_common for abc s(a^5)). Solvers of degrees 2, 3, 4 are parameters with a contract. The model does not cancel powers of a, b, c, so equality is stated at points without zero coordinate; non-negativity of the form on the closed orthant is proved."
  },
  {
   "property": "C74",
   "status": "partial",
   "theorems": [
    "pnrms_coeff_exact",
    "hnmr_coeff_exact",
    "half_side_exact",
    "pnrms_expr_exact",
    "pnrms_nonneg",
    "hnmr_expr_exact_partial",
    "hnmr_expr_refuted",
    "hnmr_nonneg_orthant",
    "hnmr_recursion"
   ],
   "note": "Everything except Hnmr.as_expr with m = r = 2n, n >= 2, where the code is wrong (hnmr_expr_refuted, for all such n)."
  },
  {
   "property": "C75",
   "status": "partial",
   "theorems": [
    "heuristic_exact_partial",
    "heuristic_refuted",
    "heuristic_never_raises",
    "separate_product_exact"
   ],
   "note": "Proved except for degree 7n with a monomial a^(5n)b^(2n), n >= 2, where a wrong table entry of Hnmr.as_expr can be used; heuristic_refuted gives such an input."
  },
  {
   "property": "C76",
   "status": "proved",
   "theorems": [
    "septic_quadratic_exact",
    "septic_symmetric_exact",
    "septic_quadratic_raises",
    "septic_axis_determines",
    "restructure_quartic_exact"
   ],
   "note": "prove_univariate, sos_struct_liftfree_for_six's recursion and the division are arbitrary functions under their contracts (C71). Simplifying calls of sympy are omitted."
  },
  {
   "property": "C77",
   "status": "partial",
   "theorems": [
    "sextic_quadratic_exact",
    "sextic_quadratic_defined_partial",
    "sextic_quadratic_real",
    "sextic_quadratic_identity",
    "sextic_axis_determines",
    "sextic_quadratic_defined_refuted",
    "sextic_quadratic_keeps_solution_refuted"
   ],
   "note": "Exactness, non-negativity, ker_coeff and the real case are proved without restriction. The answer is defined off the diagonal except when the rewriting of the quartic gives a remainder with rem_ratio = oo, where the claim is refuted (division by zero). That a solution found is kept is refuted for x = 1."
  },
  {
   "property": "C78",
   "status": "partial",
   "theorems": [
    "factor_form_exact_partial",
    "factor_form_sign_refuted"
   ],
   "note": "Exact up to sign for every group and every list of factors; the sign is right for groups of even order and for factors without negative images; refuted for odd groups otherwise."
  },
  {
   "property": "C79",
   "status": "proved",
   "theorems": [
    "standard_form_exact",
    "standard_form_orbits"
   ],
   "note": "For terms with non-zero coefficients (as given by sympy for a non-zero polynomial), a group and a non-empty list of generators. The formation of the text is not modelled."
  },
  {
   "property": "C80",
   "status": "partial",
   "theorems": [
    "nonic_exact_partial",
    "sextic_hexagram_exact",
    "sextic_tree_exact",
    "sextic_hexagram_raises",
    "sextic_tree_raises",
    "nonic_hexagon_refuted",
    "nonic_tree_refuted"
   ],
   "note": "exact for forms without ab^8 whose accepted x are non-negative; the two restrictions are needed: nonic_hexagon_refuted, nonic_tree_refuted. Roots, contents, square roots and the recursive solver are oracles with contracts"
  },
  {
   "property": "C81",
   "status": "proved",
   "theorems": [
    "pqr_sym_exact",
    "pqr_sym_answers_iff",
    "pqr_cyc_exact",
    "pqr_cyc_answers_iff",
    "pqr_ker_exact",
    "pqr_hypotheses_met"
   ],
   "note": "sp.symmetrize and Poly.div enter through a contract; pqr_hypotheses_met gives functions that satisfy it for every number of variables"
  },
  {
   "property": "C82",
   "status": "partial",
   "theorems": [
    "rationalize_reliable_close",
    "rationalize_exact",
    "rationalize_truncate_refuted",
    "rationalize_array_close",
    "rationalize_bound_sound",
    "rationalize_bound_reaches",
    "rationalize_bound_side_refuted",
    "rationalize_func_sound",
    "rationalize_func_none"
   ],
   "note": "All claims for floats proved; the side asked of rationalize_bound is refuted for rationals, and truncate=None raises. nsimplify is assumed to keep its tolerance."
  },
  {
   "property": "C83",
   "status": "partial",
   "theorems": [
    "square_perturbation_exact",
    "square_perturbation_equal_refuted",
    "try_perturbations_exact",
    "cancel_denominator_divides",
    "cancel_denominator_greatest",
    "cancel_denominator_nonzero",
    "cancel_denominator_single_refuted"
   ],
   "note": "Proved for different positive a, b and lists of at least two rationals; a single fraction refutes the claim on cancel_denominator."
  },
  {
   "property": "C84",
   "status": "partial",
   "theorems": [
    "curve_parametrisation_exact",
    "curve_parametrisation_complete",
    "curve_parametrisation_iff",
    "curve_point_exact",
    "curve_point_shape_refuted",
    "common_region_exact",
    "common_region_negative_constant",
    "common_region_only_constants",
    "common_region_common_line",
    "common_region_proportional_refuted"
   ],
   "note": "All claims proved; the call itself raises on parabolas and on proportional conics (refuted)."
  },
  {
   "property": "C85",
   "status": "partial",
   "theorems": [
    "rpa_point_feasible",
    "rpa_optimal_partial",
    "rpa_optimal_one_variable",
    "rpa_no_iterations_raises",
    "rpa_converged_optimal_refuted"
   ],
   "note": "Feasibility of the reported point is proved in full. Optimality of converged answers is proved when no vertex was dropped only by the test z >= a (always so in one variable); without this it is refuted by an exact run in two variables."
  },
  {
   "property": "C86",
   "status": "partial",
   "theorems": [
    "poly_as_dm_difference",
    "poly_as_dm_difference_none",
    "poly_as_dm_monotone",
    "gmop_point_feasible",
    "gmop_optimal_partial",
    "polyopt_point_partial",
    "polyopt_optimal_partial",
    "polyopt_constraint_ignored_refuted",
    "polyopt_feasible_rejected_refuted",
    "polyopt_empty_box_refuted"
   ],
   "note": "poly_as_dm and the feasibility of rpa_gmop are proved in full. Optimality holds if no vertex was dropped by the test z >= a (C85). For rpa_polyopt the claims are refuted for constraints without the first generator and for contradictory bounds, and proved otherwise."
  },
  {
   "property": "C87",
   "status": "partial",
   "theorems": [
    "grid_values_exact",
    "local_minima_exact",
    "local_minima_cyclic_exact",
    "local_minima_one_rotation",
    "local_minima_beyond_limits",
    "local_minima_centre_refuted",
    "heatmap_index_exact"
   ],
   "note": "All claims proved for all polynomials and sizes, except that with cyc=True and filter_nontrivial=False the centre is lost (refuted)."
  },
  {
   "property": "C88",
   "status": "partial",
   "theorems": [
    "root_cyclic_sum_exact",
    "root_poly_exact",
    "root_uv_equation",
    "root_from_uv_exact",
    "standardize_exact",
    "standardize_orbit_invariant",
    "root_corner_sums_refuted",
    "root_documented_formulas_partial",
    "root_documented_cubic_refuted"
   ],
   "note": "All claims proved for all roots that are not corners and all exponents; corners have no finite coordinates (refuted). The formulas of the class documentation (border root, a/c, cubic of b/c) hold with one sign of y corrected; as documented the cubic is refuted."
  },
  {
   "property": "C89",
   "status": "partial",
   "theorems": [
    "approximate_defined_iff",
    "approximate_near_centre",
    "approximate_near_corner",
    "approximate_interior",
    "approximate_on_border_partial",
    "approximate_on_axis",
    "approximate_near_axis",
    "approximate_border_refuted"
   ],
   "note": "Proved for all roots and tolerances up to 1 (1/2 for the border) except border roots whose quotient of coordinates is near 0, for which the claim is refuted."
  },
  {
   "property": "C90",
   "status": "partial",
   "theorems": [
    "root_calls_exact",
    "root_subs_exact_partial",
    "root_subs_without_field_refuted",
    "root_cyclic_sums_agree"
   ],
   "note": "Proved for all sequences of calls; subs without a common field raises (refuted); quotients in subs are not modelled."
  },
  {
   "property": "C91",
   "status": "partial",
   "theorems": [
    "rootsinfo_selections_exact",
    "filter_tangents_exact",
    "filter_tangents_homogeneous",
    "normal_roots_exact_partial",
    "normal_roots_strict_refuted",
    "rootsinfo_tangents_refuted"
   ],
   "note": "Proved for all roots and tangents; normal_roots needs the strict roots among the roots (refuted otherwise), and given tangents are discarded (refuted)."
  }
 ]
}
