# Formal model of Triple-SOS in Rocq: design

Source: `/repo` (Python, read as text, never executed). Model: `/verif/rocq/theories`.

## Approach

* **Numbers.** Exact numbers (sympy `Rational`, real algebraic numbers) are the elements of an
  arbitrary ordered field with decidable order (`OrdField.v`, a `Record`). Theorems are proved for
  every such field, so they hold for Q, for the real algebraic numbers and for R. The instance
  `QcOF` (canonical rationals of the standard library) is used for examples and refutations.
* **Functions.** Each Python function becomes a total computable Gallina function that follows the
  branches of the source. Exceptions become values (`Err ...`) or `None`. Loops become folds,
  structural recursion or recursion on fuel; where fuel is used, a theorem shows that enough fuel
  exists or the result is stated for every fuel.
* **Oracles.** Numerical solvers, root finders, sympy's `factor_list`, `sqf_list`, `div`, and calls
  into sub-solvers that are not modelled are universally quantified arguments. What a theorem needs
  from them is an explicit hypothesis in its statement.
* **Meaning of a certificate.** Polynomials are lists of (exponent tuple, coefficient). A certificate
  is correct when its *value at every point* where it is defined equals the value of the polynomial,
  and when it is non-negative at every point admitted by the constraints.
* **Findings.** Where the faithful model violates the property, the violation is proved
  (`*_refuted`) next to the strongest true statement that was found.
* **Layout.** `Foo.v` holds the model and its lemmas (`FooFacts.v`, `FooLemmas.v` more lemmas),
  `Foo_props.v` holds the property theorems with `Print Assumptions`, small specifications, and the
  examples which show that the hypotheses can be met.
* **Tests of the theorems.** `seeded/LOG.jsonl` records the wrong programs tried: each edit was
  applied to a copy of the model, the copy rebuilt, and the theorems that no longer hold listed.

## Properties: what is modelled, how it is proved, status

| id | title | model files | modelled code | proof | status |
|----|-------|-------------|---------------|-------|--------|
| C01 | generate_partitions enumerates exactly the right exponent tuples | Partitions | `generate_partitions` (monomials.py), recursion over tuples | induction on the number of variables: soundness, completeness, NoDup, strict order | proved |
| C02 | The canonical monomial of an orbit is well defined | Perm, Monomials | `standard_monom` = lexicographic maximum of the orbit, `is_standard_monom`, the memo table; groups are element lists closed under product and inverse | the orbit of an image is the same set, so the maximum is the same; the cache is transparent | proved |
| C03 | Vector representation of a symmetric polynomial loses nothing | Monomials, MonomialsLemmas | `_register_monoms`, `_arraylize_list`, `invarraylize` | dictionary lemmas with C01 and C02 | proved |
| C04 | expand_cyc vectorisation is the vector of the symmetrised polynomial | Monomials, MonomialsLemmas | `_arraylize_list(expand_cyc=True)` | double sum over terms and group elements | proved |
| C05 | Checking generators is enough to decide symmetry | Coeff, PolyId | `Coeff.is_cyclic`, `is_symmetric`, `verify_is_symmetric` | induction on words in the generators; identity theorem for polynomials over an ordered field | proved |
| C06 | Extracting a monomial factor or a power substitution is lossless | Coeff | `cancel_abc`, `cancel_k` | evaluation of shifted and divided exponents, minimality, gcd | proved |
| C07 | Simplifying a cyclic sum keeps its value | Cyclic, CyclicFacts | `CyclicSum._eval_simplify_` on an expression tree; comparison order and fuel are arbitrary | induction over the factor list and the tree | partial |
| C08 | Simplifying a cyclic product keeps its value | Cyclic | `CyclicProduct._eval_simplify_`, `as_content_primitive` | as C07; refuted when the group order is not the number of symbols | partial |
| C09 | Standard form of the symbol order of a cyclic sum | Cyclic | `_std_seq` and the reordering of symbols | translations of a group by its own elements | proved |
| C10 | Completion of polynomial text inserts only missing operators | Text, TextFacts | `_preprocess_text_completion` on character lists | induction on the text | proved |
| C11 | Cyclic macros in text mean cyclic sums and products | Text, TextFacts | `cycle_expansion`, macro expansion with bracket counting, roots | induction over well bracketed trees and their printed form | partial |
| C12 | sum_of_squares returns the answer of the first successful method | Driver | method loop of `sum_of_squares`, with a trace of the calls | induction over the method list | proved |
| C13 | Batch solving accounts for every problem once and in order | Driver | `sum_of_squares_multiple` | induction over the inputs | partial |
| C14 | Standardising inequality constraints keeps the feasible set | Shared | `_std_ineq_constraints`, `_std_eq_constraints` on factor lists | sign of a product, induction on the factor list | proved |
| C15 | Inferred symmetry is a true symmetry of the problem | Shared | `identify_symmetry_from_lists` | checked permutations generate symmetries (C05) | proved |
| C16 | Homogenising and dehomogenising are inverse | Shared | `homogenize`, dehomogenising of solutions | evaluation lemmas | proved |
| C17 | Degree combinations enumerate each power product once | DegreeComb | `_degree_combinations` with its in-place tuple | invariant of the odometer, measure for termination | partial |
| C18 | Exact correction of a numerical LP answer | LinSOS | `linear_correction` and its helpers, arbitrary numbers for the LP answer | case analysis; residual check | partial |
| C19 | Assembling a linear SOS certificate keeps its value | LinSolution | `SolutionLinear`: collecting by multiplier, constraint, symmetry | grouping a sum by keys keeps the sum | proved |
| C20 | congruence returns a true decomposition with non-negative weights | Congruence | `congruence` (exact branch) | induction on the size, Schur complement | proved |
| C21 | congruence fails exactly on matrices that are not PSD | Congruence | as C20 | a negative direction is lifted through the Schur complement | proved |
| C22 | Fast integer matrix multiplication never overflows | Int64 | `matmul`, `matmul_multiple`, `symmetric_bilinear(_multiple)` with int64 as Z modulo 2^64 | bound on the partial sums | partial |
| C23 | Underdetermined linear systems are solved completely | LinSolve | `_rref`, `solve_undetermined_linear` | row operations keep the solutions, shape of the reduced form | proved |
| C24 | Column separated systems are solved correctly | LinSep | `solve_column_separated_linear`, `solve_csr_linear` with union-find groups | direct, and C23 for the general path | partial |
| C25 | Vector and symmetric matrix layouts are inverse | Mat2Vec | `Mat2Vec`, `mat2vec`, `vec2mat`, `S_from_y` | arithmetic on triangular numbers | partial |
| C26 | Facial reduction of an SDP is sound | SdpTransform, SdpPrimal | nullspace and column space transforms of dual and primal problems | quadratic form of U S U^T; complements exist | partial |
| C27 | Inferred zero diagonals are really zero | SdpTransform, SdpPrimal | `get_zero_diagonals`, `constrain_zero_diagonals` | minors of PSD matrices, induction over the passes | partial |
| C28 | Rationalised SDP answers are exact | SdpRationalize | `rationalize_and_decompose`, `verify_is_pretty`, `congruence_with_perturbation`, the candidate loops of the solvers, `register_y` | loop invariants with C20 | proved |
| C29 | An SDP solution of the coefficient equations is a certificate | SdpSos, SdpSosFacts, SdpSosCert, SdpSosExact, SdpDriver | `_define_mapping`, `_form_sdp`, `construct`, `from_full_x0_and_space`, `as_solution`, `from_decompositions`, `_decomp_as_sos`, `_SDPSOS` | each row of the system is a coefficient of the identity; solver lemmas of C23/C24; Gram identity; induction over the modules | proved |
| C30 | Symmetry grouping of SDP entries is a partition | SdpSosGroups | `_get_equal_entries` | every pair of monomials has a representative (i, j) with i standard and i <= j; blocks are composed by offset | proved |
| C31 | Symmetric representations are identities | SymRep, SymRepFacts | `sym_transform`, `sym_representation_inv` for three variables, both methods | `field` identities, evaluation of the elementary form | proved |
| C32 | Recursive pivoting proofs are certificates | PivotProve | `prove_by_pivoting` (basic.py:85-151) | induction on the number of variables | proved |
| C33 | quadratic_weighting is sound and complete | StructUtils | `quadratic_weighting` | case analysis | proved |
| C34 | Extracted non-negative expressions are non-negative | Extract | `_extract_nonnegative_exprs` on an expression tree | structural induction | partial |
| C35 | Generic linear and quadratic solvers are exact | Sparse | `sos_struct_linear`, `sos_struct_quadratic` | C20/C21 and evaluation lemmas for any number of variables | proved |
| C36 | Factor extraction composes with any solver | Sparse, SparseSym | `sos_struct_extract_factors`, `sos_struct_common`, `sos_struct_degree_specified_solver` | C06; any inner solver | partial |
| C37 | Cyclic ternary quadratics | TernaryQuad | cyclic ternary quadratics | `ring`, sign analysis | proved |
| C38 | Acyclic ternary quadratics (copositive forms) | TernaryQuad | `sos_struct_acyclic_quadratic` | all branches; completeness by the criterion for copositive 3x3 forms | proved |
| C39 | Cyclic ternary cubics | TernaryCubic | cubic.py:10-270 (cyclic) | identities by `field`, limits for denominators (CertLimit) | proved |
| C40 | Cyclic ternary quartics | TernaryQuartic | quartic.py:14-560 (cyclic) | as C39 | proved |
| C41 | Tables of classical inequalities are correct | TernaryTables | stored proofs of `CommonExpr` | `field` per entry | partial |
| C42 | Handling an uncentred cyclic polynomial is exact | TernaryCubic, Ternary_props | `sos_struct_handle_uncentered` | evaluation at (1,1,1) | proved |
| C43 | Quarternary cubic solvers are exact | Quarternary, QuarternaryFacts | four-variable cubic solvers | `ring`, decision for symmetric cubics | partial |
| C44 | Univariate certificates are exact | Univariate, UnivariateLemmas | univariate.py (Gram matrices, factor products, interval version) | C20 with antidiagonal sums; products of sums of squares | partial |
| C45 | Restoring diagonal entries reproduces the polynomial | Univariate | `_determine_diagonal_entries` | antidiagonal sums | proved |
| C46 | Intersection of half planes is kept by two of them | Halfspace | `HalfspaceIntersection2D` | invariant over all histories | partial |
| C47 | Bivariate certificates are exact | Bivariate | `structural_sos_2vars` and the provers of the factors | induction over factors and constraints | partial |
| C48 | A structural solution certifies the stated problem | Driver | dispatcher `_structural_sos` | conditional on the sub-solvers | partial |
| C49 | Symmetric quartics in any number of variables | Nvars | nvars.py (symmetric quartics), symbolic n | power sum algebra, symmetric group as generated list | proved |
| C50 | zip_longest pads with the last element | StructUtils | `zip_longest` | induction | proved |
| C51 | Removing unrelated symbols keeps the problem | FreeSyms | `clear_free_symbols` | reachability invariant | partial |
| C52 | Acute triangle certificates are exact | TriPoly, Acute, AcuteFacts | acute.py | `ring`, induction on the lifting fuel | partial |
| C53 | verify_hom_cyclic decides homogeneity and cyclicity | Coeff | `verify_hom_cyclic` (slow path) | C05 | proved |
| C54 | Coeff arithmetic is polynomial arithmetic | Coeff | `Coeff.__add__`, `__sub__` | dictionary lemmas | proved |
| C55 | No certificate for a cyclic quartic means it is negative somewhere | TernaryQuartic | as C40 | explicit negative points | partial |
| C56 | Row masking and entry constraints of dual problems are exact | SdpTransform | row masking, `constrain_equal_entries`, `constrain_symmetry` | two-way correspondence of solutions | proved |
| C57 | Replacing symbols in a cyclic expression | CyclicRw, CyclicFacts | `xreplace` of cyclic expressions | orbit and stabiliser decomposition | partial |
| C58 | Rewriting to another symmetry group | CyclicRw | `rewrite_symmetry` | coset decomposition | partial |
| C59 | Saving batch results does not lose them | Driver | saving in `sum_of_squares_multiple` | case analysis of paths | partial |
| C60 | Constraint marks: certificates with constraints keep value and sign | Extract | replacement of marks by constraints | structural induction | partial |
| C61 | LaTeX sums end where the summand ends | Text | LaTeX sums | induction on the text | partial |
| C62 | The coefficient triangle shows every coefficient at its place | Triangle | `coefficient_triangle` | index arithmetic | partial |
| C63 | Masked constraints can be unmasked and respect the symmetry | Wrapper | `_get_constraints_wrapper` | closure under the group | proved |
| C64 | One polynomial is kept per orbit | ClearSym | `permute_vec`, `clear_polys_by_symmetry` | canonical key of an orbit | proved |
| C65 | Cyclic quartics in four variables are exact | Quarternary, QuarternaryQuartic | cyclic quartics in four variables | `field`, sign analysis | proved |
| C66 | The four-variable structural search only returns certificates | QuarternarySolve | four-variable dispatcher | C36, C43, C65 | partial |
| C67 | Members and multipliers of a linear program are what their expressions say | PolyOps, LinBasis | `_get_qmodule_list`, `_get_multipliers`, `LinearBasisTangent` | evaluation and degree of products | proved |
| C68 | LinearSOS is sound whatever the linear program answers | LinSOS, LinSolution, LinBasis | one round of `_LinearSOS` | C18, C19, C67 | proved |
| C69 | SymmetricSOS answers are exact and sound | SymRep, SymRepCert, CertExact | `SymmetricSOS` for three variables | C31, C32, exactness off a hypersurface extends | partial |
| C70 | The generators of the quadratic module are products of the constraints | SdpSos, SdpQmodule | `_get_qmodule_list` of SDPSOS | induction over the selections | proved |
| C71 | Dense symmetric ternary forms: reduction by the squared discriminant is exact | SymDiv, DenseSym, DenseSymFacts, DenseSymAxis, DenseSymMain, DenseSymTop, DenseSymSub | the whole of ternary/dense_symmetric.py and the centring decorator on a coefficient dictionary; prove_univariate, the solver of degree < 8 and the polynomial division are parameters with contracts (the division contract is met by `div6`) | cancellation of polynomial functions along lines, induction on the recursion depth | proved |
| C72 | Null spaces taken from roots do not cut off sum-of-squares certificates | Manifold, ManifoldSets, ManifoldTaylor, ManifoldMain, ManifoldFacts | the derivative bookkeeping, the elimination, the vectors of roots, the permuted roots, the feasibility test and the binary search of manifold.py; findroot_resultant (any list of roots), column space selection and the scaling of algebraic columns are not modelled | Taylor expansion along a coordinate line, order of vanishing of sums of functions non-negative near 0, kernel of a positive semidefinite form, invariant of the elimination; the remaining condition (constraints hold when a coordinate of a rational root grows) is needed: `root_nullspaces_general_refuted` | partial |
| C73 | AM-GM certificates of sparse cyclic forms are exact and the search for them ends | Amgm, AmgmQuot, AmgmFacts, AmgmSolve, AmgmMain, AmgmTotal | CoeffMonom, AMGM3 and the dispatch of ternary/sparse.py:1-419; together() and merge_cyc_sums keep the value and are not modelled; solvers of degrees 2-4 are parameters | telescoping quotients of d1 x^(d1+d2) - (d1+d2) x^d1 + d2 by (x-1)^2 and (x^2-1)^2 have non-negative coefficients; lattice geometry over Z; hull argument (a point with the least exponent of a vertex is a vertex) for the recursion depth; the case s(a^d) is refuted: `sparse_certificate_refuted` | partial |
| C74 | The forms subtracted by the heuristic method are what they are called and are non-negative | Schur.v, SchurFacts.v, SchurExpr.v, Schur_props.v | `_acc_dict`, `Pnrms.coeff/as_expr/_half_side`, `Hnmr.coeff/as_expr` (sparse.py:423-436, 485-653), all exponents; the flag `is_rational` is not modelled. | Coefficient tables by evaluating the 36 (24) entries symbolically in the exponents. Table entries by `ring`. P: s(a^n(b^r-c^r)) has the sign of the order of a, b, c (double induction on n and r). H: Vornicu-Schur argument at sorted points. **Refuted** for `Hnmr.as_expr` with m = r = 2n, n >= 2 (e.g. H(2,4,4)): the table entry (1, 2) has p(a) s((a-b)^2) for p(a) s((a^2-b^2)^2); proved for every such n (`hnmr_expr_refuted`), all other arguments are exact. | partial |
| C75 | The heuristic method for sparse cyclic forms returns certificates | Heur.v, HeurSep.v, HeurFacts.v, HeurMain.v, Heur_props.v | sparse.py:436-484 and 655-808: the two borders, the univariate polynomial of a border with its two substitutions, the gaps, the forms tried in their order, the recursion on the difference, and the wrapper that separates powers of abc. The order of the dictionary is restored by a sort. sos_struct_dense_symmetric, the recursive solver and prove_univariate are arbitrary functions; `together` is omitted. | sorting in decreasing order; a border is a prefix or a suffix; if three times its length is the length of the form, then its orbits are all monomials (no two coincide, because the position of 0 or of the maximum is unique), so the cyclic sum of the substituted univariate certificate is the form. For the hexagon, every tried form has the degree of the input, is cyclic and non-negative on the orthant, and its expression is exact by C74. Excluded (`_partial`): degree 7n with a monomial a^(5n)b^(2n), where the wrong table entry of C74 can be used; `heuristic_refuted` is such a case. The wrapper: induction on the expression, exponents in Z. | partial |
| C76 | The quadratic form method for symmetric septics is exact | Septic.v, SepticFacts.v, SepticForm.v, SepticMain.v, SepticTop.v, Septic_props.v | septic_symmetric.py (all of it) and sextic_symmetric.py:40-96: the division of the axis by (a-1)^2, the rewriting of the two quartics, ker_coeff, the five solvers for F and the three for G (with the z_type and zw_type that `solve` uses), the search of `solve`, the remainders with ratio oo, the final sum. The formulas were translated from the source by a script. `expand`, `together`, `radsimp` are omitted. nan (weight 0) is a separate result. prove_univariate and sos_struct_liftfree_for_six are functions with the contracts of C71. | each solver is an identity over the field (ring, field) with the signs of its weights from the tests in the code; the denominators are the Schur form and the solved cubic, positive off the diagonal. A quartic written with parts of degree at most 2 (a degree bound on univariate proofs) is a quadratic form in three quantities; the rewriting is its Schur complement followed by a positive semidefinite 2x2 form. A symmetric septic that vanishes on (z,1,1) is its a^5 b^2 coefficient times s(a)p(a-b)^2 (linear system for 8 coefficients), applied to the difference of p and the proposed sum. TypeError: shown to need an unproved sum of squares; `septic_raises_case` is such a case. | proved |
| C77 | The quadratic form method for symmetric sextics is exact | SexticQF.v, SexticQFFacts.v, SexticQFMain.v, SexticForm.v, SexticQFTop.v, SexticQF_props.v | sextic_symmetric.py:1338-1885: the division of the axis, ker_coeff, the eight methods in the order of `solve` with their flags (valid on R or on R+), the two ways to write the remaining terms, the merging of the p(a-b)^2 terms, the border method with exact roots and with intervals. `_F_alternative_find_z` is an arbitrary function and `nroots`/`refine_root` an arbitrary list of exact roots and ordered intervals. The formulas were translated from the source by a script. `expand` and `together` are omitted. Divisions by the number zero inside an expression are kept; comparisons with nan or zoo are TypeError. | identities in the parameters by `ring`/`field`; a symmetric sextic is determined by its axis and one coefficient; closed orthant by continuity along a line. **Refuted**: definedness (rem_ratio = oo), and loss of a solution for x = 1 | partial |
| C78 | The factorised form of a polynomial has the value of the polynomial | FactorForm, FactorFormEx | `_reduce_factor_list`: dictionaries of powers and of representations, loop over the group with break, multiplicities, common power, sign; `factor_list` is an input, the order of `Poly.compare` an arbitrary relation (concrete dense order in the refutation) | invariants of the two loops; product over a group of an image; refutation by a computed example for both directions of the order | partial |
| C79 | The standard form of a polynomial has the value of the polynomial | StdForm, StdFormMain | `poly_get_standard_form`: the dictionary `ufs`, `ufs_find` with path compression, merging over all terms and generators, `ufs_size`, `get_order`, the extracted terms and their division; the text and its order are not modelled | the root function and its change by a merge; links go upwards, which bounds the recursion; the last merge within an orbit closes a cycle of a generator, so that the root is a key; orbit and stabiliser by averaging | proved |
| C80 | Answers for cyclic forms of degree 9 prove the form | Nonic, NonicFacts, NonicTree, NonicMain, NonicGram, NonicGear, NonicTop | `sos_struct_nonic` with its four solvers, `_sos_struct_sextic_hexagram_symmetric`, `_sos_struct_sextic_tree`, `rationalize_func`, `reflect_expression`, `inverse_substitution`; oracles: roots and their perturbations, rational square root, denominators, contents, the recursive solver | the identities of the four families as polynomial identities in coefficients and parameters; certificates closed under sums, products and exact quotients; the missing test of ab^8 and the missing test x >= 1 are refuted | partial |
| C81 | pqr_sym and pqr_cyc find the representation in p, q, r for exactly the symmetric and the cyclic polynomials | Pqr, PqrSym, PqrUniq, PqrDiv, PqrMain | `pqr_sym`, `pqr_cyc`, `pqr_ker`; `sp.symmetrize` and `Poly.div` are parameters with a contract (`symmetrize_ok`, `div_ok`): an exact decomposition whose remainder is zero for symmetric polynomials (for multiples of the divisor) | the contracts are met by reference functions proved correct for every number of variables (fundamental theorem of symmetric polynomials by setting the first variable to zero and dividing by the product of the variables; factor theorem three times), `pqr_hypotheses_met`; uniqueness by algebraic independence, by the same double induction | proved |
| C82 | Rational approximations are close and lie on the asked side | RatApprox | `rationalize` (floats are the exact rationals they stand for; `zoo` is a value), `rationalize_array`, `rationalize_bound`, `rationalize_func` for polynomials; `nsimplify` is an oracle, for the bounds with the contract that it keeps its tolerance; comparisons of a float with a rational are exact; tuples and symbolic entries of `rationalize_array` and `nroots` are not modelled | two numbers with the same two quotients are four times closer than their tails, by induction on the quotients; the loops of `rationalize_bound` by induction on the roundings. Refuted: `truncate=None` (declared optional) raises; rationals are yielded themselves whatever the side | partial |
| C83 | square_perturbation and cancel_denominator | RatCurve | `square_perturbation` (run to its end; the float square root is any natural number), `try_perturbations`, `cancel_denominator` on reduced fractions | Newton step: its square exceeds a/b, hence the range of t; Gauss lemma for the greatest rational. Refuted: equal a, b raise; a single fraction gets 1 | partial |
| C84 | Points on quadratic curves and in common regions of conics | RatCurve | `rationalize_quadratic_curve` (with a point: the secant parametrisation; without: completed squares, with `core`, `sqrt`, `diop_DN` as oracles with contracts), `common_region_of_conics` (centres, gcd, points on lines and intersections are oracles; candidate generators are lazy) | field identities; exactness by the final test and invariance under positive scaling. Refuted: parabolas raise IndexError, curves linear in x give a tuple, proportional conics whose centre fails raise TypeError | partial |
| C85 | The reverse polyblock algorithm for monotone problems | MonoOpt, MonoOptFacts, MonoOptMain | `_red`, `rpa_monotonic` over an ordered field (exact arithmetic; infinity is `None`; the root solver and the random choice are parameters; a ghost flag `lost` records that a vertex was dropped only by the test `np.all(z >= a)`) | invariant: every feasible point better than the bound lies in the current box and above a vertex, as long as nothing was lost; feasibility always; in one variable nothing is lost. Refuted without the flag: a converged run with value 4 where 1 is attained | partial |
| C86 | Global polynomial optimisation by monotone differences | MonoPoly, MonoPolyFacts, MonoPolyMain | `rpa_gmop`, `poly_as_dm`, `rpa_polyopt` (polynomials as lists of terms in lexicographic order; `shift_list` is a parameter with a contract, met by an instance; lambdified functions are exact values; the changes of the caller's lists are not modelled) | the transformed problem is monotone and equivalent; collection of constraints proved sound (for constraints with the first generator) and complete. Refuted: constraints without the first generator are ignored or reject everything; contradictory bounds give an answer | partial |
| C87 | The grid of values and its local minima | Grid, GridFacts, GridMain | `_grid_init_precal`, `_render_grid_value` (value_method='integer'), `render` without colours, `zero_grid`, `local_minima`, the index of `save_heatmap`; exact values instead of floats; the method 'integer_lambdify' and the colours are not modelled | the points are rewritten as rows and the prefix scanned with cyc=True as the first 2n//3 rows; the dictionary always contains the six neighbours. Refuted: the centre with filter_nontrivial=False | partial |
| C88 | Coordinates, cyclic sums and standard form of ternary roots | RootUv, RootUvFacts, RootStd | `TernaryMixin.__init__`, `cyclic_sum`, `poly`, `from_uv`, `standardize` (exact numbers in an ordered field; the cache, `approximate` and complex roots are not modelled; the root finder of `from_uv` is a parameter) | polynomial identities in a, b, c for the table of small exponents; reduction modulo the cubic by induction on the exponent; {u', v'} = {u, v} from sum and product; the leading rotation is unique. Refuted: corners have no finite coordinates | partial |
| C89 | Approximation of ternary roots | RootNear, RootNearFacts | `TernaryMixin.approximate` (exact numbers in an ordered field; the tolerances are parameters and `rationalize` is any function) | case analysis of the loop over the three positions, with totality; the border case needs a quotient of the coordinates that is not near 0, without which it is refuted | partial |
| C90 | Cached powers, substitution and cyclic sums of algebraic roots | RootCache | `_single_power`, `_single_power_monomial`, `_subs_poly`, `subs` of polynomials, `cyclic_sum` of the algebraic and rational classes, with the cache of powers as state and sequences of calls (the sum of the coordinates is not zero; `subs` of quotients and its fallback, `span` are not modelled) | invariant of the cache, induction over the calls; agreement with C88 by the identity of the cyclic sums | partial |
| C91 | RootsInfo: selections of roots and tangents | RootsInfo | `RootsInfo.__init__`, `normal_roots`, `nonborder_roots`, `nontrivial_roots`, `filter_tangents`, `generate_tangents` (sets as lists; the approximation of a root and the generator of tangents are parameters) | reflection of the boolean tests, lemmas on filters, scaling of the norm | partial |

What is missing for each `partial` entry, and which hypotheses the proved ones need, is in the `note` of `MANIFEST.json`.

## Simplifications common to many files

* sympy objects (`Poly`, `Expr`, `Matrix`, `PermutationGroup`) are replaced by lists, expression
  trees and element lists of groups. Printing, simplification by `factor`, `signsimp`, `together`
  are left out where they keep the value.
* Expressions are often represented by their value at a point instead of by a tree; each definition
  says so. Where the shape matters (C07-C09, C34, C57, C58, C60) trees are used.
* Python dictionaries keep the insertion order, as in CPython; sets are used through an arbitrary
  listing function (`order_ok` in SdpSosGroups.v) instead of CPython's order.
* Polynomials are assumed to be in canonical form (no exponent tuple twice, tuples of the right
  length): `wf`. sympy's `Poly` guarantees this.
* Line numbers in comments refer to the pinned commit.

## Not modelled

* Floating point numerics: LP/SDP back ends (`sdp/backend`, `sdp/ipm.py`), numerical roots
  (`utils/roots`), `nsimplify`, `rationalize` of floats. They enter as arbitrary values.
* GUI, web server, LaTeX/typesetting of solutions, plotting.
* Ternary structural solvers of degree five and more, the sparse ternary solvers, the acyclic cubic and
  quartic solvers, the four-variable real transform of SymmetricSOS.
* `linsos/tangents.py` (its polynomials are an arbitrary list of tangents in C67/C68).

## Findings

Each item is a theorem about the model; the model follows the cited source.

Text and expressions
* `unbalanced_text_refuted`: an unmatched `)` is an IndexError.
* `macro_root_names_refuted`: variables called q, r, t clash with the names used for roots.
* `latex_sum_short_refuted`, `latex_sum_bracket_refuted`: `\sum a + b` with a short tail, and a sum inside
  brackets, are read with the wrong extent.
* `cyclic_product_value_refuted`, `product_content_refuted`: invariant factors of a CyclicProduct are raised to
  `len(symbols)` instead of the order of the group (cyclic.py:632).
* `xreplace_capture_refuted`, `xreplace_partial_refuted`: replacement captures symbols, and forgets elements of
  intransitive groups.
* `rewrite_value_refuted`: `rewrite_symmetry` with right cosets is wrong.
* `triangle_nonhomogeneous_refuted`, `zero_vector_roundtrip_refuted`.

Drivers and shared code
* `batch_isolation_refuted`, `batch_saved_refuted`: one polynomial without degree aborts a batch; a file name
  without a directory loses the results.
* `structural_certifies_refuted`: a monomial with odd exponents is reported as proved.
* `std_ineq_feasible_refuted`, `std_eq_expression_refuted`, `std_eq_constant_refuted`: standardised
  constraints can shrink the feasible set, have the wrong sign, or raise.
* `clear_polys_nonhomogeneous_refuted`, `clear_free_symbols_constant_refuted`,
  `clear_free_symbols_infeasible_refuted`.
* `extract_nonnegative_refuted`, `constraint_marks_degree_refuted`: functions are returned unmarked; the degree
  of a monomial constraint is not compared.

Structural solvers
* `struct_quadratic_cubic_refuted`, `struct_common_real_refuted`, `degree_solver_nonhomogeneous_refuted`.
* `schurinv_2_refuted`: the stored proof is twice the claimed expression.
* `prove_univariate_exact_refuted`: matrices of mismatched sizes give a wrong certificate
  (x^3-2x^2+5x+1).
* `halfspace_same_cone_refuted`, `halfspace_zero_normal_refuted`, `halfspace_degenerated_refuted`,
  `bivariate_opposite_raises`.
* `quarternary_search_refuted`: a coefficient is ignored for cubics cyclic in a, b, c only.
* `nvars_inhomogeneous_refuted`, `acute_zero_axis_refuted`, `acute_constant_refuted`.
* `real_denominator_sign_refuted`, `constraint_transform_sign_refuted`,
  `symmetric_sos_cube_constraints_refuted`.
* `amgm_pure_power_doubled`, `sparse_certificate_refuted`: for a single orbit the monomial a^d is added to the list even
  when it is the orbit itself, so that abc s(a^5) gets the certificate 2 abc s(a^5) (abc is removed before the solver runs).
* `hnmr_expr_refuted`: the certificate written for H(n,2n,2n), n >= 2, is not even homogeneous (wrong table entry). `heuristic_refuted`: sos_struct_heuristic returns it, for a recursion that solves the zero polynomial.
* The cyclic cubic solver raises TypeError when no numerical candidate is valid (modelled as `Err`).

Linear and semidefinite programming
* `degree_combinations_single_refuted`, `degree_combinations_single_dup_refuted`: wrong for one base polynomial.
* `linear_correction_sign_refuted`: negative weights are accepted when the LP answer is negative.
* `matmul_int64_min_refuted`, `bilinear_multiple_empty_refuted`.
* `column_separated_zero_row_refuted`, `column_separated_zero_column_refuted`,
  `column_separated_group_refuted`: the fast linear solver drops equations or unknowns.
* `upper_api_refuted`, `upper_length_refuted`: mode UPPER of Mat2Vec raises through the public functions and
  accepts wrong lengths.
* `zero_columnspace_ignored_refuted`, `full_columnspace_fails_refuted`, `primal_zero_diagonals_refuted`.
* `regularised_answer_refuted`, `perturbed_decomposition_refuted`, `projected_vector_not_tested_refuted`,
  `forced_answer_not_unpackable_refuted`.
* `sdpsos_uncovered_monomial_refuted`, `sdpsos_search_wrong_certificate_refuted`: SDPSOS proves a^2 b + b^3 from
  a^2 b >= 0 by the certificate a^2 b, because an equation without unknowns is dropped.
* `sdpsos_repeated_constraint_refuted`, `qmodule_generators_distinct_refuted`: repeated generators (trivial symmetry
  group) shift the blocks of the solution.
* `sdpsos_high_degree_equality_refuted` (KeyError), `qmodule_none_refuted` (TypeError for
  `preordering='none'`), `equal_entries_cover_all_refuted`.
* `root_nullspaces_general_refuted`: with the constraints a and c-b-a the null space of the root (0,1,1,0) of
  a c^2 + (c-b-a) b^2 cuts off its only kind of certificate, because the derivative with respect to a is used although
  the second constraint fails when a grows.
* `sextic_quadratic_defined_refuted`: for F_{2,1} + p(a-b)^2/5 + s(a^2-ab) s(ab)^2/5 the quadratic form method returns an
  expression with a division by zero (`_rem_sos` divides by u2 = 0 when rem_ratio is oo), which is defined nowhere.
* `sextic_quadratic_keeps_solution_refuted`: for x = 1 and 0 <= ker_coeff < coeff0/3 `_F_regular` finds a certificate,
  then `_F_sos2` divides by zero and the comparison with nan raises; the caller swallows the exception, and the
  certificate is lost.
* Not a theorem: in `_F_tighter_bound_border` the test for degenerate roots compares the symbol m, not the root.
- C78 `_reduce_factor_list` computes `sign` for `base` but prints another representative of the orbit. If that is minus an image of `base`, the group has odd order and the power is odd, the sign of the whole form is wrong: (2b-c)(a-2c)(2a-b) is printed as -p(a-2c), which is its negative (`factor_form_sign_refuted`; for the opposite order of the factors (b-2c)(a-2b)(2a-c) fails).
- C80 `nonic_hexagon_refuted`: the dispatch of `sos_struct_nonic` tests (2,7,0) but not (1,8,0) before the hexagon solver, which ignores that coefficient: s(a^6b^3+a^3b^6-ab^8), negative at (10,1,1), gets a non-negative expression as its proof.
- C80 `nonic_tree_refuted`: `rationalize_func` applies `validation_initial` (x >= 1) to irrational roots only. For s(a^9-a^6b^3-a^3b^6-21a^7bc-30a^4b^4c+111a^5b^2c^2)-177a^3b^3c^3 the rational root x = -2 is accepted and the answer contains the factor s(a^2-2bc); the form is negative at (2,1,1). The value of the answer is right, only its sign is not.
- C80 `sextic_hexagram_raises`, `sextic_tree_raises`: the exact families on which the two sextic solvers raise a TypeError (comparison with nan or zoo).
- C82 `rationalize_truncate_refuted`: `truncate` is declared `Optional[int]`, but None raises a TypeError for every float. `rationalize_bound_side_refuted`: for a rational v only v itself is yielded, also when something greater or smaller is asked.
- C83 `square_perturbation_equal_refuted`: a = b raises (0/0 is compared with 0). `cancel_denominator_single_refuted`: a single fraction 1/2 gets 1.
- C84 `common_region_proportional_refuted`: for proportional conics the dictionary of `rationalize_quadratic_curve` is unpacked into its keys, and the comparison of the polynomial in the symbols with 0 raises a TypeError, although the region may be non-empty (x^2+y^2 >= 1). `curve_point_shape_refuted`: a parabola raises IndexError, and xy = 1 gets a tuple instead of a dictionary.
- C85 `rpa_converged_optimal_refuted`: after a reduction of the box vertices below the new corner `a` are dropped by `np.all(z >= a)` instead of being raised to it, so the search may end with converged=True far from the optimum (in two variables). `rpa_no_iterations_raises`: max_iter=0 raises (unbound `k`).
- C86 `polyopt_constraint_ignored_refuted`, `polyopt_feasible_rejected_refuted`: `ineq.degree()` is the degree in the first generator, so y - 1 >= 0 is ignored in a problem in x, y, and with 1 - y >= 0 every problem is reported infeasible with converged=True. `polyopt_empty_box_refuted`: min x with x >= 2 and x <= 1 converges to x = 2.
- C87 `local_minima_centre_refuted`: with cyc=True and filter_nontrivial=False the row through the centre is cut off, so a strict minimum at (m, m, m) on the grid of size 3m is never reported; with the filter nothing is lost for any size (`local_minima_cyclic_exact`).
- C88 `root_documented_cubic_refuted`: the documentation of `RootTernary` (roots.py:588-592) gives y = ((u - v)(uv + u + v - 2) - v^3 - 1)/(1 - uv), for which b/c is not a root of t^3 + xt^2 + yt - 1 (e.g. the root (3, 1, 2)); `root_documented_formulas_partial` proves the cubic with v - u in place of u - v, and the other formulas as documented.
- C88 `root_corner_sums_refuted`: for a corner such as (1, 0, 0) `uv()` is (oo, oo), so `ker()` and every `cyclic_sum` of degree two or more are nan in sympy, although the sums are defined (1 for a^n).
- C89 `approximate_border_refuted`: with the default tolerances the border root (0, 2000, 1) becomes (1, 2000, 1), which is not on the border, whereas its rotation (2000, 1, 0) becomes (1, 1/2000, 0): the loop compares the coordinate 1/2000 that it has just rescaled with the zero coordinate.
- C90 `root_subs_without_field_refuted`: if the coordinates have no common simple field (such as (sqrt(2), sqrt(3), 1)), `RootAlgebraic.__init__` leaves `self.K = None`, and `subs` with its default `to_sympy=True` then calls `self.K.to_sympy` and raises AttributeError for every polynomial.
- C91 `rootsinfo_tangents_refuted`: the constructor assigns `self.tangents = tangents` and then overwrites it with `self.generate_tangents(with_tangents)`, which is empty by default: given tangents are discarded.
- C91 `normal_roots_strict_refuted`: `normal_roots` is a symmetric difference, so strict roots that are not among `roots` are reported as roots that are not strict. The documentation of `filter_tangents` ("if abs(tangent(root)) < tolerance, then the tangent is removed") states the opposite of what is done (`filter_tangents_exact`).

## Trusted base

* Coq 8.16.1 kernel (`coqc`, rechecked by `coqchk`), including its bytecode machine for `vm_compute`.
* `Print Assumptions` of every property theorem answers "Closed under the global context": no axiom is
  used, not even those of the standard library. Only the standard library is imported.
* The reading of the Python source, cited by file and line at each definition, with the
  simplifications listed above and at the definitions.
* The statements in the `_props.v` files, with the specifications they use.

