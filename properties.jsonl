{"id": "C01", "title": "generate_partitions enumerates exactly the right exponent tuples", "statement": "generate_partitions(nvars, degree, equal=False) returns exactly the tuples of nvars natural numbers whose sum is at most degree (equal to degree when equal=True), each exactly once, in strictly decreasing lexicographic order.", "quantifier": "every number of variables and every non-negative degree, both values of `equal`", "why_tests_cant": "every nvars and degree gives a different list whose size grows combinatorially; tests look at a few small cases", "anchors": ["triples/utils/monomials.py:generate_partitions"]}
{"id": "C02", "title": "The canonical monomial of an orbit is well defined", "statement": "standard_monom(m) is a permutation image of m, is the same for every monomial in the orbit of m, and is a fixed point of standard_monom; is_standard_monom(m) holds exactly for these fixed points.", "quantifier": "every permutation group on the variables and every exponent tuple", "why_tests_cant": "the groups and the monomials are unbounded in size", "anchors": ["triples/utils/monomials.py:MonomialManager.standard_monom", "triples/utils/monomials.py:MonomialManager.is_standard_monom"]}
{"id": "C03", "title": "Vector representation of a symmetric polynomial loses nothing", "statement": "For a polynomial of the managed degree that is invariant under the group, converting to the coefficient vector and back (arraylize then invarraylize) returns the same polynomial; for any coefficient vector that describes a polynomial of the managed degree, converting to a polynomial and back returns the same vector, and that polynomial is invariant under the group.", "quantifier": "every group, number of variables, degree, homogeneous or not, every symmetric polynomial and every vector", "why_tests_cant": "round trip over an unbounded space of polynomials and groups", "anchors": ["triples/utils/monomials.py:MonomialManager.arraylize", "triples/utils/monomials.py:MonomialManager.invarraylize"]}
{"id": "C04", "title": "expand_cyc vectorisation is the vector of the symmetrised polynomial", "statement": "arraylize(p, expand_cyc=True) equals the vector of the sum of p over all group elements, i.e. its entry at a standard monomial is the sum over the group of the coefficients of p on the monomials mapped there.", "quantifier": "every group and every polynomial, symmetric or not", "why_tests_cant": "depends on how orbits and stabilisers interact for each group", "anchors": ["triples/utils/monomials.py:MonomialManager._arraylize_list", "triples/utils/monomials.py:MonomialManager.arraylize"]}
{"id": "C05", "title": "Checking generators is enough to decide symmetry", "statement": "Coeff.is_cyclic(group) / verify_is_symmetric answer True exactly when the polynomial is unchanged by every element of the group, although only the generators are tested.", "quantifier": "every generating set and every polynomial", "why_tests_cant": "groups have up to n! elements; a test samples a few", "anchors": ["triples/utils/expression/coeff.py:Coeff.is_cyclic", "triples/utils/polytools.py:verify_is_symmetric"]}
{"id": "C06", "title": "Extracting a monomial factor or a power substitution is lossless", "statement": "Coeff.cancel_abc returns exponents d and a polynomial g with p = x^d * g, where no variable divides g; Coeff.cancel_k returns k and g with p(x) = g(x^k) and k is the greatest such.", "quantifier": "every polynomial with at least one term", "why_tests_cant": "all exponent patterns, including constants and single variables", "anchors": ["triples/utils/expression/coeff.py:Coeff.cancel_abc", "triples/utils/expression/coeff.py:Coeff.cancel_k"]}
{"id": "C07", "title": "Simplifying a cyclic sum keeps its value", "statement": "CyclicSum(expr, symbols, group) after automatic simplification (pulling out invariant factors, normalising the term) has the same value as the sum of expr over all group elements.", "quantifier": "every expression, every group, every evaluation point", "why_tests_cant": "infinitely many expressions and groups", "anchors": ["triples/utils/expression/cyclic.py:CyclicSum._eval_simplify_", "triples/utils/expression/cyclic.py:_std_seq"]}
{"id": "C08", "title": "Simplifying a cyclic product keeps its value", "statement": "CyclicProduct(expr, symbols, group) after automatic simplification has the same value as the product of expr over all group elements.", "quantifier": "every expression, every group, every evaluation point", "why_tests_cant": "existing tests only use groups whose order equals the number of symbols", "anchors": ["triples/utils/expression/cyclic.py:CyclicProduct._eval_simplify_", "triples/utils/expression/cyclic.py:CyclicProduct.as_content_primitive"]}
{"id": "C09", "title": "Standard form of the symbol order of a cyclic sum", "statement": "Rewriting a cyclic expression to its standard symbol order changes neither the set of images that are summed nor the value.", "quantifier": "every group and symbol order", "why_tests_cant": "all permutations of all symbol lists", "anchors": ["triples/utils/expression/cyclic.py:_std_seq", "triples/utils/expression/cyclic.py:CyclicExpr"]}
{"id": "C10", "title": "Completion of polynomial text inserts only missing operators", "statement": "The completion step of the text parser returns its input with only '*' and '^' characters inserted: deleting the inserted operators gives back the input, so no symbol, digit or bracket is lost or reordered.", "quantifier": "every input string", "why_tests_cant": "the space of strings is unbounded", "anchors": ["triples/utils/text_process.py:_preprocess_text_completion"]}
{"id": "C11", "title": "Cyclic macros in text mean cyclic sums and products", "statement": "s(...) and p(...) in polynomial text expand to the sum / product of the bracketed text over the variable cycles, also when nested.", "quantifier": "every well bracketed text", "why_tests_cant": "nesting depth and text length are unbounded", "anchors": ["triples/utils/text_process.py:cycle_expansion", "triples/utils/text_process.py:_preprocess_text_expansion"]}
{"id": "C12", "title": "sum_of_squares returns the answer of the first successful method", "statement": "sum_of_squares tries the methods in the configured order and returns the result of the first one that returns a solution, calling none after it; it returns None only if every method returned None; an unknown method name is an error.", "quantifier": "every method order and every outcome of the solvers", "why_tests_cant": "all interleavings of success and failure of the methods", "anchors": ["triples/core/sum_of_squares.py:sum_of_squares"]}
{"id": "C13", "title": "Batch solving accounts for every problem once and in order", "statement": "sum_of_squares_multiple yields one record per input problem, in input order, each with a status that tells whether it was solved exactly, solved inexactly, unsolved, raised an error or failed to parse; one problem failing does not affect the others.", "quantifier": "every list of inputs and every outcome of reading and solving", "why_tests_cant": "all histories of failures in a batch", "anchors": ["triples/core/sum_of_squares.py:sum_of_squares_multiple", "triples/utils/text_process.py:PolyReader"]}
{"id": "C14", "title": "Standardising inequality constraints keeps the feasible set", "statement": "Replacing g >= 0 by its square-free odd part with positive constant keeps the points satisfying the constraint, wherever the removed even factors do not vanish, and the recorded expression equals the new polynomial.", "quantifier": "every constraint polynomial given by its factor list and every point", "why_tests_cant": "all factor patterns and all points", "anchors": ["triples/core/shared.py:_std_ineq_constraints", "triples/core/shared.py:_std_eq_constraints"]}
{"id": "C15", "title": "Inferred symmetry is a true symmetry of the problem", "statement": "The permutation group inferred for a problem maps the goal to itself and permutes the list of constraints, so a solution obtained under this symmetry is a solution of the given problem.", "quantifier": "every goal and every list of constraints", "why_tests_cant": "groups and problems are unbounded", "anchors": ["triples/core/shared.py:identify_symmetry_from_lists", "triples/utils/expression/coeff.py:identify_symmetry"]}
{"id": "C16", "title": "Homogenising and dehomogenising are inverse", "statement": "Homogenising a polynomial with a new variable and substituting 1 for it gives back the polynomial, the homogenised one is homogeneous of the same total degree, and substituting 1 in a certificate of the homogenised problem gives a certificate of the original one.", "quantifier": "every polynomial", "why_tests_cant": "all polynomials", "anchors": ["triples/core/shared.py:homogenize", "triples/core/shared.py:sanitize_input", "triples/core/shared.py:sanitize_output"]}
{"id": "C17", "title": "Degree combinations enumerate each power product once", "statement": "The exponent vectors used to build products of base polynomials up to a degree are exactly those whose weighted degree is at most (or equal to) the requested degree, each once.", "quantifier": "every list of positive degrees and every target degree", "why_tests_cant": "unbounded lists and degrees", "anchors": ["triples/core/linsos/basis.py:_degree_combinations"]}
{"id": "C18", "title": "Exact correction of a numerical LP answer", "statement": "Whatever the floating point LP solver returned, when linear_correction reports success the rational weights satisfy the polynomial identity exactly, and are non-negative.", "quantifier": "every problem, every LP answer (arbitrary numbers)", "why_tests_cant": "the solver's output is arbitrary; only a proof covers all of them", "anchors": ["triples/core/linsos/correction.py:linear_correction"]}
{"id": "C19", "title": "Assembling a linear SOS certificate keeps its value", "statement": "Grouping the weighted basis terms by multiplier, constraint and symmetry in the LinearSOS solution object keeps the total value, so the printed certificate equals the polynomial identity that was solved.", "quantifier": "every list of weighted basis terms", "why_tests_cant": "all groupings of all term lists", "anchors": ["triples/core/linsos/solution.py:SolutionLinear", "triples/core/linsos/linsos.py:LinearSOS"]}
{"id": "C20", "title": "congruence returns a true decomposition with non-negative weights", "statement": "If congruence(M) returns (U, S) for a symmetric M then M = U^T diag(S) U exactly, every S_i >= 0, and U is upper triangular.", "quantifier": "every symmetric matrix of every size over every ordered field", "why_tests_cant": "matrix size and entries unbounded", "anchors": ["triples/sdp/utils.py:congruence"]}
{"id": "C21", "title": "congruence fails exactly on matrices that are not PSD", "statement": "congruence(M) returns None if and only if the symmetric matrix M is not positive semidefinite.", "quantifier": "every symmetric matrix of every size over every ordered field", "why_tests_cant": "matrix size and entries unbounded", "anchors": ["triples/sdp/utils.py:congruence"]}
{"id": "C22", "title": "Fast integer matrix multiplication never overflows", "statement": "The int64 fast path of matmul and of the symmetric bilinear products returns the exact integer product whenever the guard lets it run.", "quantifier": "all integer matrices of all sizes", "why_tests_cant": "the guard must be right at the 2^63 boundary for every shape", "anchors": ["triples/sdp/arithmetic.py:matmul", "triples/sdp/arithmetic.py:matmul_multiple", "triples/sdp/arithmetic.py:symmetric_bilinear_multiple"]}
{"id": "C23", "title": "Underdetermined linear systems are solved completely", "statement": "solve_undetermined_linear(A, b) returns a particular solution and a matrix whose columns span exactly the nullspace of A, and raises an error exactly when the system has no solution.", "quantifier": "every matrix and right hand side", "why_tests_cant": "size and rank patterns unbounded", "anchors": ["triples/sdp/arithmetic.py:solve_undetermined_linear", "triples/sdp/arithmetic.py:_rref"]}
{"id": "C24", "title": "Column separated systems are solved correctly", "statement": "solve_column_separated_linear / solve_csr_linear return x0 with A x0 = b and a matrix spanning the nullspace, and raise an error exactly when there is no solution.", "quantifier": "every matrix with at most one non-zero per column, every right hand side and every grouping of equal unknowns", "why_tests_cant": "zero rows, zero columns and groups interact", "anchors": ["triples/sdp/arithmetic.py:solve_column_separated_linear", "triples/sdp/arithmetic.py:solve_csr_linear"]}
{"id": "C25", "title": "Vector and symmetric matrix layouts are inverse", "statement": "Mat2Vec / the upper triangular layout convert a symmetric matrix to a vector and back without change, for any size.", "quantifier": "every size and every symmetric matrix or vector", "why_tests_cant": "size unbounded", "anchors": ["triples/sdp/utils.py:Mat2Vec"]}
{"id": "C26", "title": "Facial reduction of an SDP is sound", "statement": "A solution y of the child problem produced by a matrix transform maps to a parent solution whose matrix is positive semidefinite whenever the child's is, and which kills the given nullspace vectors.", "quantifier": "every SDP of any size and every nullspace / column space", "why_tests_cant": "matrix sizes unbounded", "anchors": ["triples/sdp/transform.py:DualMatrixTransform", "triples/sdp/transform.py:PrimalMatrixTransform"]}
{"id": "C27", "title": "Inferred zero diagonals are really zero", "statement": "The diagonal entries that the SDP preprocessing removes are zero in every positive semidefinite solution of the equations.", "quantifier": "every SDP of any size", "why_tests_cant": "needs all feasible points", "anchors": ["triples/sdp/transform.py:_get_zero_diagonals"]}
{"id": "C28", "title": "Rationalised SDP answers are exact", "statement": "With the default reg=0 and perturb=False, rationalize_and_decompose returns only a vector whose matrices decompose exactly with non-negative weights (U^T diag(S) U equals the matrix), it returns the first candidate that does, and None exactly when no candidate does; the vector that the solvers accept satisfies the linear system and its decompositions are those of its own blocks; verify_is_pretty accepts exactly the vectors with a common denominator below the bound.", "quantifier": "every numeric answer and every candidate list", "why_tests_cant": "numeric input is arbitrary", "anchors": ["triples/sdp/rationalize.py:rationalize_and_decompose", "triples/sdp/rationalize.py:verify_is_pretty"]}
{"id": "C29", "title": "An SDP solution of the coefficient equations is a certificate", "statement": "Whatever parameters the SDP solver returns, if the Gram matrices are decomposed exactly (as congruence does for positive semidefinite ones), the expression returned by as_solution - the sum over the group of weight * constraint * (linear form in monomials)^2 plus the multiples of the equality constraints - equals the polynomial at every point and is non-negative wherever the constraints hold at the permuted points; so is every answer of the search over the quadratic modules. The constraints must be pairwise different and each monomial must be a multiple of a monomial constraint such as 1 (automatic for even degree, non-trivial symmetry and the default trivial constraint): without these the returned certificate can be wrong.", "quantifier": "every polynomial, constraint list, group and solution", "why_tests_cant": "all problems", "anchors": ["triples/core/sdpsos/sdpsos.py:SOSProblem.construct", "triples/core/sdpsos/sdpsos.py:SOSProblem.as_solution", "triples/core/sdpsos/sdpsos.py:_SDPSOS", "triples/core/sdpsos/solution.py:SolutionSDP.from_decompositions"]}
{"id": "C30", "title": "Symmetry grouping of SDP entries is a partition", "statement": "The groups of matrix entries that SDPSOS forces to be equal are non-empty, disjoint and exactly the orbits of unordered pairs of monomials (of monomials, for the multiplier of an equality) for constraints invariant under the group, and the pairs of off-diagonal entries for other inequalities; every entry of an invariant constraint is covered, of other constraints exactly the off-diagonal ones; consequently every Gram matrix of a solution is symmetric and invariant.", "quantifier": "every monomial list closed under the group", "why_tests_cant": "all groups", "anchors": ["triples/core/sdpsos/sdpsos.py:_get_equal_entries"]}
{"id": "C31", "title": "Symmetric representations are identities", "statement": "The change of variables used by SymmetricSOS represents a symmetric polynomial exactly: substituting back the definitions of the new variables gives the original polynomial times the stated denominator, and the default constraints on the new variables hold at every admissible point.", "quantifier": "every symmetric polynomial in elementary symmetric form and every point", "why_tests_cant": "identities over all points", "anchors": ["triples/core/symsos/symmetric.py:SymmetricReal", "triples/core/symsos/symmetric.py:SymmetricPositive", "triples/core/symsos/basic.py"]}
{"id": "C32", "title": "Recursive pivoting proofs are certificates", "statement": "If prove_by_pivoting returns an expression it equals the polynomial and is non-negative wherever the designated variables are non-negative.", "quantifier": "every polynomial and every set of non-negative variables", "why_tests_cant": "recursion depth unbounded", "anchors": ["triples/core/symsos/basic.py:prove_by_pivoting"]}
{"id": "C33", "title": "quadratic_weighting is sound and complete", "statement": "quadratic_weighting(c1,c2,c3) returns weighted squares equal to c1 a^2 + c2 a b + c3 b^2 with non-negative weights, and returns None exactly when the form takes a negative value.", "quantifier": "all coefficients and all a, b", "why_tests_cant": "continuum of inputs", "anchors": ["triples/core/structsos/utils.py:quadratic_weighting"]}
{"id": "C34", "title": "Extracted non-negative expressions are non-negative", "statement": "The rewriting that marks assumed non-negative symbols returns an expression with the same value when the marks are read as the symbols, and which is non-negative whenever all marks are non-negative and denominators do not vanish; if it cannot, it returns None.", "quantifier": "every expression tree", "why_tests_cant": "tree depth unbounded", "anchors": ["triples/core/structsos/solution.py:SolutionStructural._extract_nonnegative_exprs"]}
{"id": "C35", "title": "Generic linear and quadratic solvers are exact", "statement": "sos_struct_linear and sos_struct_quadratic return expressions equal to the polynomial for every polynomial of degree at most 1 or 2 in any number of variables, non-negative on the non-negative orthant or everywhere; sos_struct_quadratic succeeds iff the polynomial is non-negative on all real points.", "quantifier": "every number of variables and all coefficients", "why_tests_cant": "any number of variables", "anchors": ["triples/core/structsos/sparse.py:sos_struct_linear", "triples/core/structsos/sparse.py:sos_struct_quadratic"]}
{"id": "C36", "title": "Factor extraction composes with any solver", "statement": "sos_struct_extract_factors/sos_struct_common return a certificate of the input polynomial whenever the inner solver returns certificates of the polynomials it is given.", "quantifier": "every inner solver and polynomial", "why_tests_cant": "the solver is arbitrary", "anchors": ["triples/core/structsos/sparse.py:sos_struct_extract_factors", "triples/core/structsos/sparse.py:sos_struct_common"]}
{"id": "C37", "title": "Cyclic ternary quadratics", "statement": "For s(x a^2 + y a b) the solver returns an expression equal to the polynomial and non-negative for a,b,c >= 0 (everywhere if y <= 2x), and answers None exactly when the polynomial takes a negative value on the non-negative orthant.", "quantifier": "all coefficients and all points", "why_tests_cant": "continuum of inputs", "anchors": ["triples/core/structsos/ternary/utils.py:CommonExpr.quadratic", "triples/core/structsos/ternary/quadratic.py:sos_struct_quadratic"]}
{"id": "C38", "title": "Acyclic ternary quadratics (copositive forms)", "statement": "sos_struct_acyclic_quadratic returns a certificate equal to the form and visibly non-negative on the non-negative orthant, and it does so for every form that is non-negative there (copositive forms).", "quantifier": "all six coefficients and all points", "why_tests_cant": "continuum of inputs with many branches", "anchors": ["triples/core/structsos/ternary/quadratic.py:sos_struct_acyclic_quadratic"]}
{"id": "C39", "title": "Cyclic ternary cubics", "statement": "Every certificate returned for a cyclic cubic equals the polynomial at every point with non-zero denominator and is non-negative for a,b,c >= 0, so the cubic is non-negative there. None is returned only for cubics with a negative value in that orthant, whatever the numerical root search proposes.", "quantifier": "all coefficients and all points", "why_tests_cant": "continuum of inputs with many branches", "anchors": ["triples/core/structsos/ternary/cubic.py:sos_struct_cubic"]}
{"id": "C40", "title": "Cyclic ternary quartics", "statement": "Every certificate returned for a cyclic quartic equals the polynomial wherever it is defined, is defined whenever a+b+c is not zero and is built from non-negative pieces, so the quartic is non-negative for a,b,c >= 0, whatever the numerical root search proposes; the core branch is non-negative at all real points; no input makes the solver raise.", "quantifier": "all coefficients and all points", "why_tests_cant": "continuum of inputs with many branches", "anchors": ["triples/core/structsos/ternary/quartic.py:sos_struct_quartic"]}
{"id": "C41", "title": "Tables of classical inequalities are correct", "statement": "Each stored proof of Schur's inequality, its inverse form and the AM-GM differences equals the expression it claims to prove and is non-negative for a,b,c >= 0.", "quantifier": "all points, all table entries", "why_tests_cant": "identities over all points", "anchors": ["triples/core/structsos/ternary/utils.py:CommonExpr"]}
{"id": "C42", "title": "Handling an uncentred cyclic polynomial is exact", "statement": "The wrapper that subtracts the value at (1,1,1) hands the solver a polynomial vanishing at (1,1,1), and what it adds back makes the result equal to the input polynomial.", "quantifier": "every cyclic polynomial of every degree and every solver", "why_tests_cant": "degree unbounded, solver arbitrary", "anchors": ["triples/core/structsos/ternary/utils.py:sos_struct_handle_uncentered"]}
{"id": "C43", "title": "Quarternary cubic solvers are exact", "statement": "Certificates returned for four-variable cubic polynomials equal the polynomial they are given.", "quantifier": "all polynomials accepted by the dispatcher", "why_tests_cant": "continuum of inputs with many branches", "anchors": ["triples/core/structsos/quarternary/cubic.py", "triples/core/structsos/quarternary/solver.py"]}
{"id": "C44", "title": "Univariate certificates are exact", "statement": "prove_univariate returns weighted sums of squares p and q with f = p + x q exactly and non-negative weights, whatever numerical roots were found; prove_univariate_interval returns a certificate on the interval with the documented multipliers.", "quantifier": "every polynomial of every degree, every interval, every numerical root list", "why_tests_cant": "degree unbounded, numerics arbitrary", "anchors": ["triples/core/structsos/pivoting/univariate.py:prove_univariate", "triples/core/structsos/pivoting/univariate.py:prove_univariate_interval"]}
{"id": "C45", "title": "Restoring diagonal entries reproduces the polynomial", "statement": "After _determine_diagonal_entries the Gram matrix represents the polynomial exactly for any off-diagonal entries.", "quantifier": "every degree and every matrix", "why_tests_cant": "size unbounded", "anchors": ["triples/core/structsos/pivoting/univariate.py:_determine_diagonal_entries"]}
{"id": "C46", "title": "Intersection of half planes is kept by two of them", "statement": "After any sequence of additions, the stored (at most two) half planes describe the same cone as all the added ones unless the structure reports degeneracy.", "quantifier": "every sequence of additions", "why_tests_cant": "history of any length", "anchors": ["triples/core/structsos/pivoting/bivariate.py:HalfspaceIntersection2D"]}
{"id": "C47", "title": "Bivariate certificates are exact", "statement": "structural_sos_2vars returns a product equal to the polynomial and non-negative on the constraint cone.", "quantifier": "every factor list and constraint set", "why_tests_cant": "unbounded factor lists", "anchors": ["triples/core/structsos/pivoting/bivariate.py:structural_sos_2vars"]}
{"id": "C48", "title": "A structural solution certifies the stated problem", "statement": "When StructuralSOS reports a solution for a problem without constraints, the goal is non-negative at every real point.", "quantifier": "every homogeneous polynomial", "why_tests_cant": "all polynomials and points", "anchors": ["triples/core/structsos/structsos.py:_structural_sos", "triples/core/structsos/quarternary/solver.py:structural_sos_4vars"]}
{"id": "C49", "title": "Symmetric quartics in any number of variables", "statement": "The parametric certificate for a symmetric quartic equals the polynomial for every number of variables n >= 4 and all parameters.", "quantifier": "all n >= 4, all coefficients, all points", "why_tests_cant": "n unbounded", "anchors": ["triples/core/structsos/nvars.py:_sos_struct_nvars_quartic_symmetric_sdp"]}
{"id": "C50", "title": "zip_longest pads with the last element", "statement": "zip_longest yields as many tuples as the longest input and pads shorter non-empty inputs with their last element.", "quantifier": "every list of inputs of every length", "why_tests_cant": "lengths unbounded", "anchors": ["triples/core/structsos/utils.py:zip_longest"]}
{"id": "C51", "title": "Removing unrelated symbols keeps the problem", "statement": "clear_free_symbols drops exactly the constraints on symbols not connected to the goal; every point satisfying all constraints satisfies the kept ones, and the goal and kept constraints only involve kept symbols.", "quantifier": "every problem", "why_tests_cant": "connectivity graphs unbounded", "anchors": ["triples/core/structsos/utils.py:clear_free_symbols"]}
{"id": "C52", "title": "Acute triangle certificates are exact", "statement": "The certificates for acute triangle constraints equal the polynomial when the marks F(a), F(b), F(c) are read as b^2+c^2-a^2 etc.", "quantifier": "all coefficients and all points", "why_tests_cant": "continuum of inputs", "anchors": ["triples/core/structsos/constrained/acute.py"]}
{"id": "C53", "title": "verify_hom_cyclic decides homogeneity and cyclicity", "statement": "For a polynomial in three variables, verify_hom_cyclic(poly, fast=False) answers (True, True) exactly when all terms have one degree and the polynomial is unchanged by a->b->c->a; its first answer is True exactly when all terms have one degree.", "quantifier": "every polynomial in three variables of every degree", "why_tests_cant": "the loop inspects one representative per orbit of exponents; degrees are unbounded", "anchors": ["triples/utils/polytools.py:verify_hom_cyclic"]}
{"id": "C54", "title": "Coeff arithmetic is polynomial arithmetic", "statement": "Coeff + Coeff and Coeff - Coeff represent the sum and the difference of the polynomials, including when terms cancel.", "quantifier": "all pairs of polynomials and all points", "why_tests_cant": "all cancellation patterns", "anchors": ["triples/utils/expression/coeff.py:Coeff.__operator__"]}
{"id": "C55", "title": "No certificate for a cyclic quartic means it is negative somewhere", "statement": "When the quartic solver answers None, the quartic takes a negative value at some point with a,b,c >= 0.", "quantifier": "all coefficients, all results of the numerical search", "why_tests_cant": "None is compared with nonexistence over a continuum; a missed provable inequality leaves no trace in a test", "anchors": ["triples/core/structsos/ternary/quartic.py:sos_struct_quartic"]}
{"id": "C56", "title": "Row masking and entry constraints of dual problems are exact", "statement": "Masking rows, constrain_equal_entries and constrain_symmetry of a dual SDP problem give a child whose vectors are mapped one to one onto the parent vectors at which the masked rows vanish (the listed entries agree, the matrices are symmetric); positive semidefiniteness is the same in parent and child; an error is raised exactly when no parent vector qualifies.", "quantifier": "all dual problems, masks and entry lists", "why_tests_cant": "the sizes and the number of equations are unbounded, and exactness in both directions speaks about all vectors y", "anchors": ["triples/sdp/transform.py:DualRowMasking", "triples/sdp/transform.py:constrain_equal_entries", "triples/sdp/transform.py:constrain_symmetry"]}
{"id": "C57", "title": "Replacing symbols in a cyclic expression", "statement": "xreplace on a cyclic sum or product gives an expression whose value is the value of the cyclic expression at the replaced symbols.", "quantifier": "every expression, group and replacement of symbols", "why_tests_cant": "the branch taken depends on the rule and the group; wrong branches give a wrong value without an error", "anchors": ["triples/utils/expression/cyclic.py:CyclicExpr._xreplace", "triples/utils/expression/cyclic.py:_is_perm_invariant_dict"]}
{"id": "C58", "title": "Rewriting to another symmetry group", "statement": "rewrite_symmetry keeps the value of every cyclic sum and product it rewrites.", "quantifier": "every pair of groups, every transversal", "why_tests_cant": "needs all pairs of groups and all coset transversals", "anchors": ["triples/utils/expression/cyclic.py:_get_rewriting_replacement", "triples/utils/expression/cyclic.py:rewrite_symmetry"]}
{"id": "C59", "title": "Saving batch results does not lose them", "statement": "After all problems are solved, sum_of_squares_multiple returns the records whatever admissible value save_result has; saving does not change or lose them.", "quantifier": "every list of problems, every save target and source name", "why_tests_cant": "the failure depends on the form of file names and on the list being empty, a finite set of calls does not cover it", "anchors": ["triples/core/sum_of_squares.py:_process_records"]}
{"id": "C60", "title": "Constraint marks: certificates with constraints keep value and sign", "statement": "When symbols assumed non-negative in a certificate are replaced by the recorded expressions of the matching constraints, the final answer has at every feasible point the value of the certificate and is non-negative; None is returned when a symbol was assumed non-negative without a constraint.", "quantifier": "every certificate expression, every list of monomial constraints and every feasible point", "why_tests_cant": "the substitution happens inside arbitrarily nested expressions and matters at all feasible points", "anchors": ["triples/core/structsos/ternary/solver.py:structural_sos_3vars", "triples/core/structsos/quarternary/solver.py:structural_sos_4vars", "triples/core/symsos/symsos.py", "triples/core/structsos/solution.py:_extract_nonnegative_exprs"]}
{"id": "C61", "title": "LaTeX sums end where the summand ends", "statement": "A LaTeX sum or product sign in the text applies to the following term, up to the next sign outside of brackets, the end of the bracket it stands in, or the end of the text.", "quantifier": "every term, every text after it", "why_tests_cant": "the scanner stops a few characters before the end of the text and counts brackets; short and bracketed texts behave differently from long ones", "anchors": ["triples/utils/text_process.py:_preprocess_text_delatex"]}
{"id": "C62", "title": "The coefficient triangle shows every coefficient at its place", "statement": "coefficient_triangle lists, row by row, the coefficients of a^(d-i) b^(i-j) c^j of a homogeneous polynomial of degree d.", "quantifier": "every degree and every polynomial", "why_tests_cant": "one pointer walks through the terms while the loops walk through all positions; degrees are unbounded", "anchors": ["triples/utils/text_process.py:coefficient_triangle"]}
{"id": "C63", "title": "Masked constraints can be unmasked and respect the symmetry", "statement": "When constraints are replaced by abstract function symbols for a solver, replacing the symbols back gives the recorded expressions, permuting the symbols of a mask by an element of the group gives the mask of the permuted constraint, and an error is raised exactly when the constraints are not symmetric.", "quantifier": "every permutation group, every dictionary of constraints", "why_tests_cant": "all groups and constraint sets", "anchors": ["triples/core/shared.py:_get_constraints_wrapper"]}
{"id": "C64", "title": "One polynomial is kept per orbit", "statement": "Removing duplicates by symmetry keeps a subset of the given polynomials such that every given polynomial is a permutation of exactly one kept polynomial.", "quantifier": "every permutation group and every list of polynomials", "why_tests_cant": "all groups and lists", "anchors": ["triples/core/shared.py:clear_polys_by_symmetry", "triples/utils/monomials.py:MonomialManager.permute_vec"]}
{"id": "C65", "title": "Cyclic quartics in four variables are exact", "statement": "Certificates returned for cyclic homogeneous quartics in four variables equal the polynomial at every real point, are defined there, and are sums of non-negative terms on the non-negative orthant, whatever sample points the numerical search proposes.", "quantifier": "all cyclic quartics over every ordered field and all proposals", "why_tests_cant": "a continuum of inputs and long rational parametrisations", "anchors": ["triples/core/structsos/quarternary/quartic.py:_quarternary_quartic_real", "triples/core/structsos/quarternary/quartic.py:_quarternary_quartic_fluroite"]}
{"id": "C66", "title": "The four-variable structural search only returns certificates", "statement": "Whatever the four-variable search returns for a homogeneous polynomial accepted by its dispatcher equals the polynomial and is non-negative on the non-negative orthant, after extraction of monomial factors and common exponents.", "quantifier": "all homogeneous polynomials in four variables, all degrees", "why_tests_cant": "interaction of dispatcher, factor extraction and solvers on unbounded inputs", "anchors": ["triples/core/structsos/quarternary/solver.py:structural_sos_4vars", "triples/core/structsos/sparse.py:sos_struct_common"]}
{"id": "C67", "title": "Members and multipliers of a linear program are what their expressions say", "statement": "Every product of constraints built by _get_qmodule_list, every multiplier built by _get_multipliers and every basis element generated by LinearBasisTangent (including the cached products of squared differences and the negated copies for equations) has a polynomial equal to its expression, has the degree of the program, and is non-negative at every feasible point.", "quantifier": "every constraint list, degree, quad_diff_order and preordering", "why_tests_cant": "The products are generated combinatorially and the polynomials come from a dynamic programming cache while the expressions are built separately", "anchors": ["triples/core/linsos/linsos.py:_get_qmodule_list", "triples/core/linsos/linsos.py:_prepare_basis", "triples/core/linsos/updegree.py:_get_multipliers", "triples/core/linsos/basis.py:LinearBasisTangent.generate_quad_diff"]}
{"id": "C68", "title": "LinearSOS is sound whatever the linear program answers", "statement": "If a round of LinearSOS returns a solution, it is a quotient N/D with N = f*D at every point, N and D are non-negative at every feasible point, and D is positive where the multipliers are, for any non-negative vector returned by the linear program.", "quantifier": "every homogeneous problem in at least two variables, every linear programming answer, every group", "why_tests_cant": "The solver's answer is floating point data from an external library", "anchors": ["triples/core/linsos/linsos.py:_LinearSOS", "triples/core/linsos/solution.py:SolutionLinear"]}
{"id": "C69", "title": "SymmetricSOS answers are exact and sound", "statement": "When SymmetricSOS returns a solution for a symmetric form in three variables, the solution equals the form and is non-negative at every point satisfying the constraints where no denominator vanishes, and the form is non-negative at every point satisfying the constraints.", "quantifier": "every symmetric form in three variables, every set of constraints and every admissible point", "why_tests_cant": "the certificate is built through two changes of variables and a replacement of assumed-nonnegative symbols; tests only see some forms and points", "anchors": ["triples/core/symsos/symsos.py:SymmetricSOS", "triples/core/symsos/representation.py:sym_transform", "triples/core/symsos/symmetric.py", "triples/core/symsos/basic.py:extract_factor"]}
{"id": "C70", "title": "The generators of the quadratic module are products of the constraints", "statement": "Every generator that SDPSOS tries is the product of different linear constraints with at most one other constraint, comes with an expression of the same value, and is non-negative wherever the constraints are; every such product of admissible degree and parity is listed; the progressive search ends with the list of the direct one; preordering='none' with the default trivial constraint raises a TypeError.", "quantifier": "every polynomial and constraint dictionary", "why_tests_cant": "all numbers of constraints and degrees", "anchors": ["triples/core/sdpsos/sdpsos.py:_get_qmodule_list"]}
{"id": "C71", "title": "Dense symmetric ternary forms: reduction by the squared discriminant is exact", "statement": "A certificate returned by sos_struct_dense_symmetric has the value of the symmetric form wherever it is defined, is non-negative on the orthant, and the form is non-negative there; no exception is raised and the recursion ends; two symmetric forms of equal degree with the same symmetric axis f(a,1,1) differ by a multiple of (a-b)^2(b-c)^2(c-a)^2 (the claim on which dropping the remainder of the division rests); each subtractor is non-negative on the orthant and congruent to the Schur-like form named in its comment; after the subtraction the axis is a multiple of (a-1)^4.", "quantifier": "every symmetric ternary form of any degree over any ordered field, every exponent pair of the subtractors", "why_tests_cant": "all degrees and coefficients; the remainder of the division is never looked at by the code", "anchors": ["triples/core/structsos/ternary/dense_symmetric.py:sos_struct_dense_symmetric,_sos_struct_dense_symmetric,_sos_struct_trivial_additive,sym_axis,_homogenize_sym_axis,_homogenize_sym_proof,_sos_struct_lift_for_six,sos_struct_liftfree_for_six,_sos_struct_liftfree_for_six_ord4", "triples/core/structsos/ternary/utils.py:sos_struct_handle_uncentered"]}
{"id": "C72", "title": "Null spaces taken from roots do not cut off sum-of-squares certificates", "statement": "For the polynomial f, its symmetry and its constraints, every column of RootSubspace.nullspace(g) is annihilated by the Gram matrix of g in every sum-of-squares certificate of f, so that the restriction SDPSOS imposes keeps every positive semidefinite solution of its coefficient equations; with the binary roots and monomial constraints this holds with no further condition; _findroot_binary returns non-zero binary roots of f only and every such root up to the symmetry; the loops over derivative orders and over vanishing vectors end; for an algebraic root the rational coordinate vectors are annihilated too.", "quantifier": "every symmetric form of any degree in any number of variables over any ordered field, every permutation group, every list of constraints and roots, every certificate", "why_tests_cant": "the elimination on derivative orders is a heuristic argument in a comment; a vector too many silently makes a feasible problem infeasible", "anchors": ["triples/core/sdpsos/manifold.py:_bilinear,_compute_diff_orders,_compute_nonvanishing_diff_orders,_root_space,_findroot_binary,RootSubspace.nullspace", "triples/utils/roots/roots.py:Root.as_vec,RootAlgebraic.span,_algebraic_extension,_derv", "triples/core/sdpsos/sdpsos.py:_constrain_nullspace"]}
{"id": "C73", "title": "AM-GM certificates of sparse cyclic forms are exact and the search for them ends", "statement": "For a cyclic ternary form of at most two orbits of monomials, every expression returned by sos_struct_sparse has the value of the form at every point without zero coordinate where it is defined, is defined at all positive points and non-negative on the orthant, so that the form is non-negative on the whole orthant; the one exception is a multiple of s(a^d), d > 4, whose double is certified; the mutual recursion of _solve and _solve_spiral2 is at most three calls deep and no exception is raised; local_ineq proves its inequality for all lengths of the two segments.", "quantifier": "every cyclic ternary form of any degree over any ordered field, every order of the set of monomials", "why_tests_cant": "all degrees and all pairs of lattice triangles; the recursion has no explicit measure", "anchors": ["triples/core/structsos/ternary/sparse.py:sos_struct_sparse,CoeffMonom,AMGM3.solve,AMGM3._solve,AMGM3.local_ineq,AMGM3._solve_circumscribing,AMGM3._solve_center,AMGM3._solve_spiral1,AMGM3._solve_spiral2,_sos_struct_sparse_amgm", "triples/core/structsos/sparse.py:sos_struct_extract_factors"]}
{"id": "C74", "title": "The forms subtracted by the heuristic method are what they are called and are non-negative", "statement": "Pnrms.coeff and Hnmr.coeff are the coefficient tables of v s(a^n(b^r-c^r)) s(a^m(b^s-c^s)) and of v H(n,m,r); Pnrms.as_expr and Hnmr.as_expr have the value of these polynomials wherever they are defined; the polynomials are non-negative on a,b,c >= 0 when v >= 0 and n >= r, m >= s (for P), n <= 0 or n + r >= m (for H).", "quantifier": "all exponents (also negative n for H), all v and all real points of the orthant", "why_tests_cant": "The tables are used for unbounded exponents and real points; a wrong entry shows only for special exponents.", "anchors": ["triples/core/structsos/ternary/sparse.py:_acc_dict", "triples/core/structsos/ternary/sparse.py:Pnrms", "triples/core/structsos/ternary/sparse.py:Hnmr"]}
{"id": "C75", "title": "The heuristic method for sparse cyclic forms returns certificates", "statement": "Let the coefficients of a cyclic ternary form be free of zeros. If the dense symmetric solver, the cyclic solver called recursively and prove_univariate return certificates, then any expression returned by sos_struct_heuristic equals the form wherever it is defined without a zero coordinate, it is non-negative on the orthant, and so is the form. This covers forms with all coefficients on one of the two borders and forms from which P(n,r,m,s) or H(n,m,r) is subtracted. No exception is raised by the method itself. The wrapper _separate_product_wrapper does not change the value of a solution.", "quantifier": "for all cyclic forms, of any degree and with any exponents, and all behaviours of the other solvers", "why_tests_cant": "the exponents of the subtracted form are read from the borders, so that tests can only visit a few patterns, while the claim is about all of them; one table entry is wrong only for the patterns (n, 2n, 2n)", "anchors": ["triples/core/structsos/ternary/sparse.py: sos_struct_heuristic, _separate_product_wrapper, _extract_cyclic_prod", "triples/core/structsos/ternary/sparse.py: Pnrms, Hnmr"]}
{"id": "C76", "title": "The quadratic form method for symmetric septics is exact", "statement": "Let p be a symmetric ternary form of degree 7 and let prove_univariate return proofs. Any expression returned by sos_struct_septic_symmetric equals p wherever it is defined and is non-negative on the orthant; therefore p is non-negative on the orthant. The answer of the quadratic form method is defined at every positive point whose coordinates are not all equal. The ker_coeff computed by the method is the right multiple of s(a)p(a-b)^2: two symmetric septics with the same values at (z,1,1) differ by the difference of their coefficients of a^5 b^2 times s(a)p(a-b)^2. _restructure_quartic_polynomial returns three non-negative weights for which the identity of its docstring holds. The method raises only if prove_univariate raises, or raises TypeError if prove_univariate does not write one of the two quartics (sums of squares) as squares alone.", "quantifier": "for all symmetric septics over every ordered field and all behaviours of prove_univariate", "why_tests_cant": "each certificate depends on four real parameters and on numbers found by the univariate prover; the identities have to hold for all their values, and a wrong coefficient shows up only for the parameters that select that solver", "anchors": ["triples/core/structsos/ternary/septic_symmetric.py: sos_struct_septic_symmetric, _sos_struct_septic_symmetric_quadratic_form, _septic_sym_axis", "triples/core/structsos/ternary/sextic_symmetric.py: _restructure_quartic_polynomial"]}
{"id": "C77", "title": "The quadratic form method for symmetric sextics is exact", "statement": "Let p be a symmetric ternary form of degree 6 and let prove_univariate return proofs. Any expression returned by _sos_struct_sextic_symmetric_quadratic_form has the value of p wherever it is defined, is non-negative on the orthant, and p is non-negative there. It is defined at every positive point whose coordinates are not all equal. ker_coeff is the right multiple of p(a-b)^2: two symmetric sextics with the same values at (z,1,1) differ by the difference of their coefficients of a^4 b^2 times p(a-b)^2. When ker_coeff is at least a third of coeff0 a certificate valid for all real a, b, c is returned. A solution found by one of the methods is not lost because a later method fails.", "quantifier": "every symmetric sextic over any ordered field, every answer of prove_univariate, every choice of the parameter z, every list of roots and intervals", "why_tests_cant": "The eight methods use long identities in two free real parameters; a sign error or a division by zero shows only on special parameter lines.", "anchors": ["triples/core/structsos/ternary/sextic_symmetric.py:_sos_struct_sextic_symmetric_quadratic_form,_sextic_sym_axis,_restructure_quartic_polynomial"]}
{"id": "C78", "title": "The factorised form of a polynomial has the value of the polynomial", "statement": "The coefficient, the remaining factors and the cyclic parts returned by _reduce_factor_list (printed by poly_get_factor_form as p(...)) multiply to the factorised polynomial, where a cyclic part stands for the product of its images under the permutation group. Every printed factor is a factor of the polynomial and has a positive power.", "quantifier": "every permutation group, every list of factors and powers, every order of the factors", "why_tests_cant": "All groups, all multiplicities; the sign is right in all the usual examples because their representative happens to be an image of the factor with the right sign.", "anchors": ["triples/utils/expression/form.py:_reduce_factor_list,poly_get_factor_form"]}
{"id": "C79", "title": "The standard form of a polynomial has the value of the polynomial", "statement": "The terms printed by poly_get_standard_form have the value of the polynomial: if they are wrapped as s(...), which happens exactly when the polynomial is invariant under a group that is not trivial, the sum of their images under the group is the polynomial; otherwise their sum is. In the first case there is one term for each orbit of monomials, the largest one, and its coefficient is divided by the number of permutations that fix it. The union-find over the generators ends, finds exactly the orbits, counts each monomial once and never divides by zero.", "quantifier": "every permutation group and every list of generators of it, every polynomial", "why_tests_cant": "All groups and polynomials; whether the root of an orbit becomes a key of the dictionary depends on the order in which the edges are merged.", "anchors": ["triples/utils/expression/form.py:poly_get_standard_form", "triples/utils/expression/coeff.py:Coeff.is_cyclic"]}
{"id": "C80", "title": "Answers for cyclic forms of degree 9 prove the form", "statement": "Let p be a cyclic ternary form of degree 9. Any expression returned by sos_struct_nonic has the value of p wherever it is defined, is non-negative on the orthant, is defined at every positive point whose coordinates are not all equal, and p is therefore non-negative on the orthant. The same holds for the two sextic solvers it calls, _sos_struct_sextic_hexagram_symmetric and _sos_struct_sextic_tree, and these two raise a TypeError only for an explicit family of coefficients.", "quantifier": "every cyclic form of degree 9 over any ordered field, every order of the roots found, every perturbed root", "why_tests_cant": "Nineteen free coefficients; the doubtful cases need a coefficient the dispatch does not test or a rational root on the wrong side.", "anchors": ["triples/core/structsos/ternary/nonic.py:sos_struct_nonic,_sos_struct_nonic_symmetric_tree,_sos_struct_nonic_hexagon_symmetric,_sos_struct_nonic_hexagram_symmetric,_sos_struct_nonic_gear", "triples/core/structsos/ternary/sextic_symmetric.py:_sos_struct_sextic_hexagram_symmetric,_sos_struct_sextic_tree", "triples/core/structsos/utils.py:rationalize_func"]}
{"id": "C81", "title": "pqr_sym and pqr_cyc find the representation in p, q, r for exactly the symmetric and the cyclic polynomials", "statement": "pqr_sym(poly) returns the polynomial f with poly = f(e1,...,en) in the elementary symmetric functions; f is the only such polynomial. It answers if and only if poly is symmetric and the number of symbols fits, otherwise it raises ValueError. pqr_cyc(poly) returns f, g with poly = f(p,q,r) + (a-b)(b-c)(c-a) g(p,q,r), the only such pair, if and only if poly is a cyclic polynomial in three variables, otherwise it raises ValueError. pqr_ker() is ((a-b)(b-c)(c-a))^2.", "quantifier": "every number of variables (pqr_sym), every polynomial of every degree, homogeneous or not", "why_tests_cant": "completeness is the fundamental theorem of symmetric polynomials and the divisibility of alternating polynomials; uniqueness is algebraic independence; no finite set of polynomials shows them", "anchors": ["triples/utils/expression/pqr.py:pqr_sym", "triples/utils/expression/pqr.py:pqr_cyc", "triples/utils/expression/pqr.py:pqr_ker"]}
{"id": "C82", "title": "Rational approximations are close and lie on the asked side", "statement": "rationalize(v, reliable=True) returns a rational number closer than 1e-6 to v for every float v, and rationals unchanged; rationalize_array never raises and each entry is unchanged, zero for entries below the tolerance, or closer than 1e-6; every value yielded by rationalize_bound(v, direction) for a float lies strictly on the asked side, and with compulsory=True one of them is within 1.1e-11 of v; rationalize_func(poly, validation, direction) returns only numbers that pass the validation and where the polynomial has the asked sign, and None only if no rational root passes.", "quantifier": "every float (as an exact rational), every list, every list of positive roundings, every polynomial, every validation", "why_tests_cant": "the distance of a truncated continued fraction from its limit is a statement about all expansions; tests try a few floats", "anchors": ["triples/utils/roots/rationalize.py:rationalize", "triples/utils/roots/rationalize.py:rationalize_array", "triples/utils/roots/rationalize.py:rationalize_bound", "triples/core/structsos/utils.py:rationalize_func"]}
{"id": "C83", "title": "square_perturbation and cancel_denominator", "statement": "For different positive a, b the generator square_perturbation(a, b, times) yields at least times-1 numbers t, each with 0 <= t < min(a,b) and (a-t)/(b-t) a square; try_perturbations returns an exact expression for poly, non-negative where the perturbation and the solver's answer are. cancel_denominator(nums) is the greatest rational of which every entry is an integer multiple.", "quantifier": "all a, b, every number of iterations, every initial guess of the float square root, every list of rationals", "why_tests_cant": "that the Newton iterates stay in the admissible range is an invariant of the iteration; greatest quantifies over all rationals", "anchors": ["triples/utils/roots/rationalize.py:square_perturbation", "triples/utils/roots/rationalize.py:cancel_denominator", "triples/core/structsos/ternary/utils.py:try_perturbations"]}
{"id": "C84", "title": "Points on quadratic curves and in common regions of conics", "statement": "rationalize_quadratic_curve(curve, point=P) parametrises the curve: every value of the parameter gives a point of the curve and every other point off the vertical line through P is reached; it raises exactly for points not on the curve. Without a point the one it finds lies on the curve. common_region_of_conics(polys) returns only points where every polynomial is non-negative, None if a constant is negative, and always a point for two conics with a common line.", "quantifier": "all conics over every ordered field, all parameters, all answers of the external solvers", "why_tests_cant": "the parametrisation is an identity in seven parameters and its completeness quantifies over all points of the curve; numerical solvers feed the candidates", "anchors": ["triples/utils/roots/rationalize.py:rationalize_quadratic_curve", "triples/utils/roots/rationalize.py:common_region_of_conics"]}
{"id": "C85", "title": "The reverse polyblock algorithm for monotone problems", "statement": "rpa_monotonic(f, g, h, a, b) for functions increasing on the box [a, b]: a reported point lies in the box, satisfies g <= 0 exactly and h >= 0 up to the tolerance of the root solver, and the reported value is its value, whatever the random choices and the number of iterations. A result with converged=True is optimal up to tol over all feasible points of the box; without a point nothing feasible lies below the given bound.", "quantifier": "all increasing functions, all boxes, dimensions, tolerances, bounds, random choices, iteration limits, and all root solvers meeting their contract", "why_tests_cant": "optimality quantifies over all points of the box and all random choices; tests see single runs of a randomised search with floats", "anchors": ["triples/utils/roots/monotonic_opt.py:rpa_monotonic", "triples/utils/roots/monotonic_opt.py:_red"]}
{"id": "C86", "title": "Global polynomial optimisation by monotone differences", "statement": "poly_as_dm(poly, a) returns two polynomials whose difference is poly and which both increase on x >= min(a, 0). rpa_gmop and rpa_polyopt report only points of the box that satisfy the constraints (up to the solver's tolerance, equations up to eqtol), with the value of the objective there; a converged answer is optimal up to tol over all points of the box satisfying the constraints, and without a point there is none.", "quantifier": "all polynomials, numbers of variables, boxes, constraints, tolerances, random choices and solvers meeting their contract", "why_tests_cant": "optimality and monotonicity quantify over all points of a box; tests compare a few known minima", "anchors": ["triples/utils/roots/monotonic_opt.py:poly_as_dm", "triples/utils/roots/monotonic_opt.py:rpa_gmop", "triples/utils/roots/monotonic_opt.py:rpa_polyopt"]}
{"id": "C87", "title": "The grid of values and its local minima", "statement": "GridRender.render(poly, size) lists every point of the simplex of the given size once with the exact value of poly there (size <= 60, degree <= 18; otherwise zeros). local_minima(filter_nontrivial, cyc=False) returns exactly the interior points at which poly is smaller than at all neighbours on the grid (only those with distinct coordinates when filtered), and with cyc=True, for cyclic polynomials, exactly one rotation of each of them. save_heatmap colours each pixel by the point it stands for.", "quantifier": "all polynomials in three variables (values: any number of variables), all coefficients and all sizes", "why_tests_cant": "the shortcut cyc=True scans only a prefix of the points; whether a minimum is cut off depends on the size and the polynomial, tests use the default size", "anchors": ["triples/utils/roots/grid.py:GridPoly.local_minima", "triples/utils/roots/grid.py:GridPoly.save_heatmap", "triples/utils/roots/grid.py:GridRender.render", "triples/utils/roots/grid.py:_grid_init_precal"]}
{"id": "C88", "title": "Coordinates, cyclic sums and standard form of ternary roots", "statement": "For a root (a, b, c) with a + b + c != 0, cyclic_sum((i, j, k)) computed from (u, v) alone equals sum(a^i b^j c^k)/(a+b+c)^(i+j+k) over the three rotations; poly() has the scaled entries as roots; a^2 - b^2 + u(ab - ac) + v(bc - ab) = 0; from_uv(u, v) returns a root with uv() == (u, v). standardize(cyc=True) returns the rotation scaled to the sum 3 that starts with its largest entry, the same for all multiples and rotations of a root. The formulas in the documentation of RootTernary hold: for uv = 1 the root is (u, 0, 1), otherwise b/c is a root of t^3 + x t^2 + y t - 1 and a/c follows from b/c.", "quantifier": "all roots, exponents, coordinates u, v (not both -1) whose cubic has three real roots, and all multiples and rotations", "why_tests_cant": "identities in rational functions over all roots and all exponents; tests evaluate a few roots numerically", "anchors": ["triples/utils/roots/roots.py:TernaryMixin.cyclic_sum", "triples/utils/roots/roots.py:TernaryMixin.from_uv", "triples/utils/roots/roots.py:TernaryMixin.poly", "triples/utils/roots/roots.py:TernaryMixin.standardize"]}
{"id": "C89", "title": "Approximation of ternary roots", "statement": "RootTernary.approximate is defined for every root with nonzero sum. A root near the centre becomes (1,1,1), near a corner that corner; a root on the border up to the tolerance becomes a root exactly on the border, a root on or near a symmetric axis one exactly on the axis, with the quotients of the other coordinates changed by less than approximate_tolerance; every other root is only scaled to the sum 3 and changed by less than approximate_tolerance. Rotating a root rotates the result.", "quantifier": "all roots, tolerances and rational approximations", "why_tests_cant": "the loop over the three positions divides and compares changed coordinates, so the result depends on the position; tests approximate a few roots in one position", "anchors": ["triples/utils/roots/roots.py:TernaryMixin.approximate"]}
{"id": "C90", "title": "Cached powers, substitution and cyclic sums of algebraic roots", "statement": "For any sequence of calls on a RootAlgebraic object, including calls that raise, each result is the one computed without the cache of powers: _single_power is the power, subs(poly, gens) the value of the polynomial at the root, cyclic_sum the scaled sum of the rotations. RootTernary, RootAlgebraicTernary and RootRationalTernary compute the same cyclic sums.", "quantifier": "all roots, sequences of calls, polynomials and exponents", "why_tests_cant": "the cache is state shared by all calls; tests call each method a few times on fresh objects", "anchors": ["triples/utils/roots/roots.py:RootAlgebraic._single_power", "triples/utils/roots/roots.py:RootAlgebraic.subs", "triples/utils/roots/roots.py:RootAlgebraicTernary.cyclic_sum", "triples/utils/roots/roots.py:RootRationalTernary.cyclic_sum"]}
{"id": "C91", "title": "RootsInfo: selections of roots and tangents", "statement": "nonborder_roots and nontrivial_roots are the strict roots without zero coordinates, and with moreover distinct coordinates; normal_roots are the roots that are not strict; filter_tangents keeps exactly the tangents that are below the tolerance at all nontrivial roots, independently of the scaling of the roots, and is idempotent; tangents given to the constructor are available afterwards.", "quantifier": "all polynomials' roots, tangents, tolerances and approximations", "why_tests_cant": "statements about all lists of roots and tangents and all scalings; there are no tests of this class", "anchors": ["triples/utils/roots/rootsinfo.py:RootsInfo.__init__", "triples/utils/roots/rootsinfo.py:RootsInfo.filter_tangents", "triples/utils/roots/rootsinfo.py:RootsInfo.normal_roots", "triples/utils/roots/rootsinfo.py:RootsInfo.nontrivial_roots"]}
