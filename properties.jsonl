{"id": "C01", "title": "Three-valued logic is sound", "statement": "Combining two three-valued answers with lor/land/lnot never claims more than the operands justify, loses nothing that is determined, and `stronger_eq` is exactly 'carries at least as much information'.", "quantifier": "all Bool3 operands and all Boolean interpretations they admit", "why_tests_cant": "the claim is about every interpretation of MAYBE, i.e. about sets of possible truth values, not about single calls", "anchors": ["src/Bool3.inlines.hh: lor, land, lnot, is_strong, stronger, stronger_eq"]}
{"id": "C02", "title": "gcd of machine integers", "statement": "gcd(n,m) terminates for every pair of ints, its absolute value is the greatest common divisor of n and m, and no intermediate operation is undefined except for the pairs (INT_MIN, -1) and (-1, INT_MIN).", "quantifier": "all pairs of 32-bit ints (unbounded integers in the functional part)", "why_tests_cant": "2^64 input pairs; termination is for all of them", "anchors": ["src/util.cc: gcd(int,int)"]}
{"id": "C03", "title": "partial_factor reconstructs its argument", "statement": "For every non-zero integer n, partial_factor returns bases/exponents whose product of powers is |n|; exponents are positive, the bases are distinct and pairwise coprime, and each base other than the last is prime; a returned base divisible by a prime below 100 is that prime.", "quantifier": "all non-zero integers of any size", "why_tests_cant": "arbitrary-precision input", "anchors": ["src/util.cc: partial_factor"]}
{"id": "C04", "title": "find_divisors is exact below its threshold", "statement": "For n < 121 find_divisors returns true and appends exactly the positive divisors of n, each once; for larger n it returns false and leaves the vector as it was.", "quantifier": "all strictly positive integers and every previous content of the vector", "why_tests_cant": "unbounded n and arbitrary previous content", "anchors": ["src/util.cc: find_divisors"]}
{"id": "C05", "title": "Closed form of the sum of polynomial times exponential", "statement": "For every polynomial p and number alpha, the expression sum_poly returns equals sum_{k=0}^{n} p(k) alpha^k at every n >= 0.", "quantifier": "all polynomials, all alpha (1 included), all n", "why_tests_cant": "infinitely many polynomials, bases and upper limits", "anchors": ["src/sum_poly.cc: falling_product, sum_falling_prod_times_exp, poly_dec, sum_poly"]}
{"id": "C06", "title": "Sums of polynomial times exponential times cosine or sine", "statement": "sum_poly_times_exponentials_times_cos (resp. _sin) returns, for n>=0, sum_{k=0}^{n} p(k) alpha^k cos(k theta) (resp. sin).", "quantifier": "all alpha, theta with non-vanishing denominator, all n", "why_tests_cant": "real-valued parameters", "anchors": ["src/sum_poly.cc: sum_poly_times_exponentials_times_cos, sum_poly_times_exponentials_times_sin"]}
{"id": "C07", "title": "Blackboard caches are transparent", "statement": "After any sequence of insert_definition / substitute / rewrite / size_norm calls, rewriting a symbol or an expression gives exactly the expansion that would be computed from the current definitions with no cache at all.", "quantifier": "all histories of blackboard operations", "why_tests_cant": "staleness depends on the interleaving of cached reads and later substitutions", "anchors": ["src/Blackboard.cc, src/Blackboard.inlines.hh, src/Blackboard.defs.hh"]}
{"id": "C08", "title": "Blackboard::find_symbol returns a symbol with the requested definition", "statement": "If find_symbol(e) returns an existing symbol z then z is defined to be e; otherwise it returns a fresh symbol defined to be e.", "quantifier": "all histories", "why_tests_cant": "needs two different orders (insertion and name order) to disagree", "anchors": ["src/Blackboard.inlines.hh: find_symbol"]}
{"id": "C09", "title": "System symbols are renamed apart", "statement": "The display names given to system-generated symbols are pairwise distinct for all indices, and the chosen name never coincides with a symbol already occurring in the expression.", "quantifier": "all indices, all finite sets of occupied names", "why_tests_cant": "infinitely many indices", "anchors": ["src/Cached_Expr.cc: new_symbol_name, replace_system_generated_symbols"]}
{"id": "C10", "title": "Expression size is positive and additive", "statement": "size_norm of an expression is at least one and is the sum over its nodes; on a blackboard it equals the size of the expanded expression.", "quantifier": "all expressions, all blackboards", "why_tests_cant": "recursive structure of unbounded depth", "anchors": ["src/Expr.inlines.hh: size_norm", "src/Blackboard.cc: size_norm"]}
{"id": "C11", "title": "Evaluation of floor, mod and binom on numbers", "statement": "When floor(x), mod(a,b) or binom(m,k) is evaluated automatically on numbers the result is the mathematical value (largest integer not exceeding x; a minus b times floor(a/b); binomial coefficient).", "quantifier": "all numeric arguments", "why_tests_cant": "infinite domain including negatives", "anchors": ["src/Expr.cc: floor_eval, mod_eval, binom_eval"]}
{"id": "C12", "title": "Automatic evaluation of sums", "statement": "Automatic evaluation of sum(k,lo,up,e) preserves its value: numeric bounds are expanded, an empty range gives 0, an upper limit n+j is shifted, and factors not containing the index are taken out.", "quantifier": "all index ranges and summands", "why_tests_cant": "ranges of unbounded length", "anchors": ["src/Expr.cc: sum_eval, get_out_factors_from_argument"]}
{"id": "C13", "title": "Automatic evaluation of products", "statement": "Automatic evaluation of prod(k,lo,up,e) preserves its value for numeric ranges, for empty ranges and for upper limits of the form n+j.", "quantifier": "all index ranges and factors", "why_tests_cant": "ranges of unbounded length", "anchors": ["src/Expr.cc: prod_eval, get_out_factors_from_argument"]}
{"id": "C14", "title": "max and min of numbers", "statement": "max(a,b) and min(a,b) of two numbers evaluate to the larger (smaller) of the two.", "quantifier": "all pairs of numbers", "why_tests_cant": "close pairs; infinite domain", "anchors": ["src/Expr.cc: max_eval, min_eval"]}
{"id": "C15", "title": "Scalar, polynomial and numeric-kind predicates are sound", "statement": "is_scalar_representation(x) implies the value does not depend on x; is_polynomial(x) implies the value is a polynomial function of x; is_integer/rational_scalar_representation(x) imply the value is an integer/rational whenever the parameters are.", "quantifier": "all expressions and all valuations of the symbols", "why_tests_cant": "expressions of arbitrary depth, all valuations", "anchors": ["src/Expr.cc: is_scalar_representation, is_polynomial, is_integer_scalar_representation, is_rational_scalar_representation"]}
{"id": "C16", "title": "Substitution acts on values", "statement": "Substituting r for a symbol s in e gives an expression whose value is that of e with s bound to the value of r.", "quantifier": "all expressions, symbols, replacements and valuations", "why_tests_cant": "bound indices of sums/products interact with free symbols of the replacement at arbitrary depth", "anchors": ["src/Expr.cc: substitute"]}
{"id": "C17", "title": "Distributing products over sums preserves the value", "statement": "distribute_mul_over_add(e) has the same value as e under every valuation and its result has no product with a sum among its factors at the top level.", "quantifier": "all expressions and valuations", "why_tests_cant": "arbitrary nesting", "anchors": ["src/Expr.cc: distribute_mul_over_add"]}
{"id": "C18", "title": "A recurrence object forgets nothing and remembers nothing stale", "statement": "Answers read from a Recurrence always concern the recurrence currently stored in it, for every history of constructors, replace_recurrence, replace_initial_conditions, compute_* and accessors.", "quantifier": "all call histories", "why_tests_cant": "depends on interleaving of mutation and cached answers", "anchors": ["src/Recurrence.inlines.hh: replace_recurrence, reset_initial_conditions", "src/Recurrence.cc: compute_exact_solution, compute_lower_bound, compute_upper_bound"]}
{"id": "C19", "title": "Initial conditions are accepted exactly when usable", "statement": "set_initial_conditions accepts a map exactly when it has the number and the positions of initial conditions the classified recurrence needs, and after a rejection the old conditions are kept.", "quantifier": "all maps, all recurrence types and orders", "why_tests_cant": "unbounded maps and orders", "anchors": ["src/Recurrence.cc: set_initial_conditions"]}
{"id": "C20", "title": "Evaluation of the solution at an index", "statement": "evaluate_exact_solution at a number returns the initial condition if one is given there, otherwise the value of the solution formula at that number, provided the index lies in the domain of the solution; other indices are rejected.", "quantifier": "all indices and all maps of initial conditions", "why_tests_cant": "unbounded indices", "anchors": ["src/Recurrence.cc: check_number_for_evaluation, evaluate"]}
{"id": "C21", "title": "First-order constant-coefficient solution", "statement": "The returned formula for x(n) = a x(n-1) + p(n) satisfies the recurrence for every n greater than the first valid index and takes the initial value there.", "quantifier": "all a, all inhomogeneous terms, all initial values, all n", "why_tests_cant": "unbounded n", "anchors": ["src/compute_exact_solution.cc: solve_constant_coeff_order_1", "src/finite_order.cc"]}
{"id": "C22", "title": "First-order variable-coefficient solution", "statement": "The returned formula prod a(k) * (x(i0) + sum p(k)/prod a(j)) satisfies x(n) = a(n) x(n-1) + p(n) for all n beyond the first valid index whenever a does not vanish there, and the first valid index skips all zeros and poles.", "quantifier": "all coefficient functions without zeros after the first valid index, all n", "why_tests_cant": "arbitrary coefficient functions and n", "anchors": ["src/compute_exact_solution.cc: solve_variable_coeff_order_1", "src/util.cc: find_domain_in_N"]}
{"id": "C23", "title": "Higher-order constant-coefficient solution", "statement": "The formula assembled from the fundamental solution g and the initial conditions satisfies the recurrence of order k for every n and matches all k initial conditions.", "quantifier": "all orders k, coefficients, inhomogeneous terms and n", "why_tests_cant": "unbounded order and index", "anchors": ["src/compute_exact_solution.cc: compute_term_about_initial_conditions, solve_constant_coeff_order_2, solve_constant_coeff_order_k", "src/finite_order.cc: find_g_n, compute_non_homogeneous_part"]}
{"id": "C24", "title": "Order reduction", "statement": "Solving the order-reduced recurrence (decrements with gcd d>1) and mapping back gives a solution of the original recurrence at every n, using initial condition n mod d.", "quantifier": "all orders, all gcds, all n", "why_tests_cant": "unbounded", "anchors": ["src/finite_order.cc: write_reduced_order_recurrence, come_back_to_original_variable, write_expanded_solution", "src/rr_classifier.cc: gcd_among_decrements"]}
{"id": "C25", "title": "Weighted-average transformation", "statement": "The first-order linear recurrence built from x(n)=f(n) sum_{k} x(k) + g(n) has exactly the same solutions for n>=2, and the value at n=1 is the one the original equation gives.", "quantifier": "all weights, inhomogeneous terms, lower limits, n", "why_tests_cant": "unbounded histories of the sum", "anchors": ["src/rr_classifier.cc: rewrite_weighted_average_recurrence", "src/Recurrence.cc: compute_weighted_average_recurrence"]}
{"id": "C26", "title": "Weighted-average classification is faithful", "statement": "A recurrence is classified as weighted-average only if its right-hand side really is weight(n) times the sum of the x(k) plus x-free terms.", "quantifier": "all right-hand sides", "why_tests_cant": "arbitrary summands", "anchors": ["src/rr_classifier.cc: find_weighted_average_recurrence, rewrite_weighted_average_recurrence"]}
{"id": "C27", "title": "Non-linear recurrences through logarithms", "statement": "The solution obtained by solving the linear recurrence for the logarithm and exponentiating satisfies x(n) = c prod x(n-d_i)^{a_i} for positive data.", "quantifier": "all positive constants, exponents, decrements, n", "why_tests_cant": "unbounded n", "anchors": ["src/rr_classifier.cc: classification of non linear recurrences", "src/Recurrence.cc: compute_non_linear_recurrence"]}
{"id": "C28", "title": "Divide-and-conquer upper bounds", "statement": "For x(n)=a x(n/b)+n^k the upper bound reported is >= every solution at every n>=1.", "quantifier": "all a>0, integer b>=2, k>=0, n, initial values", "why_tests_cant": "unbounded n and parameters", "anchors": ["src/compute_bounds.cc: compute_bounds_for_power_of_n, compute_term_about_initial_condition"]}
{"id": "C29", "title": "Divide-and-conquer lower bounds", "statement": "For x(n)=a x(n/b)+n^k the lower bound reported is <= every solution at every n>=1.", "quantifier": "all a>0, integer b>=2, k>=0, n, initial values", "why_tests_cant": "unbounded n and parameters", "anchors": ["src/compute_bounds.cc: compute_bounds_for_power_of_n"]}
{"id": "C30", "title": "Monotonicity test for the inhomogeneous term", "statement": "If is_non_negative_non_decreasing accepts p then p(n) >= 0 and p(n) <= p(n+1) for every n from the returned condition on.", "quantifier": "all accepted expressions and all n", "why_tests_cant": "unbounded n", "anchors": ["src/functional_equation.cc: is_non_negative_non_decreasing, is_non_decreasing_poly, is_non_decreasing_no_poly"]}
{"id": "C31", "title": "PROVABLY_CORRECT is sound for finite-order recurrences", "statement": "If verification of an exact solution of a finite-order linear recurrence answers PROVABLY_CORRECT then the expression satisfies the recurrence at every index beyond the initial conditions and matches all initial conditions.", "quantifier": "all recurrences, all candidate solutions, all n", "why_tests_cant": "unbounded n", "anchors": ["src/verify.cc: verify_finite_order, traditional_step_3, validate_initial_conditions, verify_new_method_const_coeff"]}
{"id": "C32", "title": "Finite testing of exponential sums is conclusive", "statement": "An exponential sum with m distinct bases that vanishes at the m test points chosen vanishes everywhere.", "quantifier": "all numbers of bases, all bases, all coefficients, all n", "why_tests_cant": "infinite family", "anchors": ["src/verify.cc: verify_new_method_const_coeff"]}
{"id": "C33", "title": "PROVABLY_CORRECT is sound for weighted-average recurrences", "statement": "If verification answers PROVABLY_CORRECT then the expression satisfies the weighted-average recurrence at every n >= 1.", "quantifier": "all weights, candidates, n", "why_tests_cant": "unbounded n", "anchors": ["src/verify.cc: verify_weighted_average"]}
{"id": "C34", "title": "PROVABLY_CORRECT bounds are bounds", "statement": "If verification of a bound answers PROVABLY_CORRECT then the bound holds for every n for which the recurrence is defined.", "quantifier": "all candidate bounds, all n", "why_tests_cant": "unbounded n", "anchors": ["src/verify.cc: verify_bound, ok_inequalities"]}
{"id": "C35", "title": "Roots of quadratics, cubics and quartics", "statement": "The radicals/trigonometric expressions computed for monic equations of degree 2, 3, 4 are roots of the equation and all of them (with multiplicity).", "quantifier": "all real coefficients", "why_tests_cant": "real parameters, delicate case splits on signs", "anchors": ["src/alg_eq_solver.cc: solve_equation_2, solve_equation_3, solve_equation_4"]}
{"id": "C36", "title": "Nested polynomials", "statement": "is_nested_polynomial(p) returns the largest n with p(x) = q(x^n) together with that q.", "quantifier": "all polynomials", "why_tests_cant": "unbounded degree", "anchors": ["src/alg_eq_solver.cc: is_nested_polynomial"]}
{"id": "C37", "title": "Rational roots are found", "statement": "Every rational root of an integer polynomial whose leading and trailing coefficients are below the divisor threshold is found, and everything reported as rational root is one.", "quantifier": "all integer polynomials", "why_tests_cant": "unbounded degree and coefficients", "anchors": ["src/alg_eq_solver.cc: find_roots", "src/util.cc: find_divisors"]}
{"id": "C38", "title": "Roots are reported with their multiplicity", "statement": "When find_roots succeeds, the product of (x - root)^multiplicity is the given polynomial up to a constant.", "quantifier": "all polynomials", "why_tests_cant": "unbounded degree", "anchors": ["src/alg_eq_solver.cc: find_roots, PURRS::find_roots"]}
{"id": "C39", "title": "Pure power equations", "statement": "For a factor a x^n + k the solver reports the n complex roots of that factor.", "quantifier": "all a, k, n", "why_tests_cant": "unbounded n", "anchors": ["src/alg_eq_solver.cc: solve_monomial_irrational and its call"]}
{"id": "C40", "title": "Eliminating negative decrements preserves the equation", "statement": "Rewriting x(n) = ... + c x(n+m) ... into standard form keeps exactly the same set of solutions.", "quantifier": "all right-hand sides, sequences and n", "why_tests_cant": "quantifies over sequences", "anchors": ["src/rr_classifier.cc: eliminate_negative_decrements"]}
{"id": "C41", "title": "Eliminating null decrements preserves the equation", "statement": "Rewriting x(n) = a x(n) + ... into standard form keeps exactly the same set of solutions (or reports unsolvable/indeterminate when there are none/all).", "quantifier": "all right-hand sides, sequences and n", "why_tests_cant": "quantifies over sequences", "anchors": ["src/rr_classifier.cc: eliminate_null_decrements"]}
{"id": "C42", "title": "Classification keeps every term", "statement": "The coefficients recorded for finite-order and functional-equation recurrences, together with the inhomogeneous term, sum up to the right-hand side that was given.", "quantifier": "all right-hand sides with repeated, unordered, constant or variable coefficients", "why_tests_cant": "unbounded numbers of terms", "anchors": ["src/rr_classifier.cc: insert_coefficients, classify_summand, classify_basic, classify_mul"]}
{"id": "C43", "title": "Gosper summation telescopes", "statement": "When Gosper's algorithm returns a closed form it equals sum_{k=lower}^{upper} t(k), for every lower limit and every upper = m + d, as long as the term ratio and c(k) have no poles or zeros in the range (or c is cancelled against t).", "quantifier": "all hypergeometric terms, all limits", "why_tests_cant": "unbounded ranges", "anchors": ["src/gosper.cc: gosper_step_two, gosper_step_three, gosper_step_four, gosper_algorithm"]}
{"id": "C44", "title": "Gosper's algorithm is complete", "statement": "If the key equation has a polynomial solution, it has degree at most the bound used in step three and step three finds one; the symbolic sum is returned only if no rational multiple of the term is an antidifference.", "quantifier": "all polynomials a, b, c; all ratios of coprime polynomials f/g; all candidate rational functions", "why_tests_cant": "unbounded degree", "anchors": ["src/gosper.cc: gosper_step_three"]}
{"id": "C45", "title": "Closed forms of products", "statement": "compute_product(k, lower, e) equals prod_{k=lower}^{n} e for every n >= lower.", "quantifier": "all supported factors, lower limits, n", "why_tests_cant": "unbounded ranges", "anchors": ["src/compute_prod.cc: comp_prod, compute_product"]}
{"id": "C46", "title": "Closed forms of sums", "statement": "compute_sum applied to sum(k,lower,upper,e) returns an expression of the same value.", "quantifier": "all lower limits (negative too), upper limits, n", "why_tests_cant": "unbounded ranges", "anchors": ["src/simplify.cc: split_sum, compute_sum"]}
{"id": "C47", "title": "Polynomial part isolation", "statement": "isolate_polynomial_part(e,x,p,q) gives e = p + q with p a polynomial in x.", "quantifier": "all expressions and valuations", "why_tests_cant": "arbitrary expressions", "anchors": ["src/util.cc: isolate_polynomial_part"]}
{"id": "C48", "title": "Exponential-polynomial decomposition", "statement": "exp_poly_decomposition(e) gives distinct bases alpha_i and coefficients with e = sum alpha_i^x (p_i + q_i), p_i polynomial.", "quantifier": "all expressions and valuations", "why_tests_cant": "arbitrary expressions", "anchors": ["src/ep_decomp.cc: exp_poly_decomposition"]}
{"id": "C49", "title": "Factorial decomposition", "statement": "The decomposition of an expression by factorial factors sums back to the expression.", "quantifier": "all expressions and valuations", "why_tests_cant": "arbitrary expressions", "anchors": ["src/fact_decomp.cc: factorial_decomposition"]}
{"id": "C50", "title": "Common factor extraction", "statement": "factorize(e) gives common factor and remainder whose product is e.", "quantifier": "all sums and valuations", "why_tests_cant": "arbitrary expressions", "anchors": ["src/factorize.cc: factorize"]}
{"id": "C51", "title": "Numerator and denominator", "statement": "numerator_denominator_purrs(e,num,den) gives num/den = e whenever den is not zero.", "quantifier": "all expressions and valuations", "why_tests_cant": "arbitrary expressions", "anchors": ["src/numerator_denominator.cc: numerator_denominator_purrs"]}
{"id": "C52", "title": "Big integer to long conversion", "statement": "Converting factor coefficients of polynomial factorisation to machine integers is exact.", "quantifier": "all representable values", "why_tests_cant": "2^64 values", "anchors": ["src/poly_factor.cc: ZZ_to_long"]}
{"id": "C53", "title": "Roots of rational numbers in standard form", "statement": "Writing r^(1/k) in standard form, and multiplying two such roots, preserves the value.", "quantifier": "all rationals r and orders k", "why_tests_cant": "infinite domain", "anchors": ["src/simplify.cc: to_std_form, reduce_to_standard_form, red_prod"]}
{"id": "C54", "title": "Perfect powers are recognised", "statement": "is_perfect_power(c,a,b) answers yes with exponent b exactly when c = a^b.", "quantifier": "all natural numbers", "why_tests_cant": "unbounded", "anchors": ["src/simplify.cc: is_perfect_power"]}
{"id": "C55", "title": "Factorials and binomials are rewritten correctly", "statement": "Rewriting (a n + b)! and binom(m,k) preserves the value at all n where both sides are defined.", "quantifier": "all offsets b, all n", "why_tests_cant": "unbounded", "anchors": ["src/simplify.cc: decompose_factorial, rewrite_factorials, rewrite_binomials"]}
{"id": "C56", "title": "Logarithm simplifications", "statement": "Simplification of quotients of logarithms and of powers containing logarithms preserves the value.", "quantifier": "all positive bases and numbers of factors", "why_tests_cant": "arbitrary products", "anchors": ["src/simplify.cc: simpl_quotient_of_logs, prepare_simpl_power_in_logarithm, apply_elementary_prop"]}
{"id": "C57", "title": "Collecting equal bases and exponents", "statement": "collect_same_base and collect_same_exponents preserve the value of a product of powers with positive bases.", "quantifier": "all products", "why_tests_cant": "unbounded numbers of factors", "anchors": ["src/simplify.cc: collect_same_base, collect_same_exponents"]}
{"id": "C58", "title": "Resultants", "statement": "The resultant computed vanishes exactly when the two polynomials have a common root; the Euclidean loop computes the same value as the Sylvester determinant.", "quantifier": "all polynomial pairs", "why_tests_cant": "unbounded degrees", "anchors": ["src/util.cc: resultant, sylvester_matrix_resultant"]}
{"id": "C59", "title": "Recurrences defined by a maximum", "statement": "The exact solution reported for x(n) = max(a x(n-1)+b, c) satisfies the equation for all n.", "quantifier": "all a, b, c, initial values, n", "why_tests_cant": "unbounded n", "anchors": ["src/Recurrence.cc: compute_exact_solution_max"]}
{"id": "C60", "title": "Coinciding bounds give the exact solution", "statement": "When lower and upper bound of a functional equation coincide, the exact solution reported is that common expression.", "quantifier": "all functional equations whose bounds coincide", "why_tests_cant": "needs every history of bound computation", "anchors": ["src/compute_bounds.cc: approximate_functional_equation"]}
{"id": "C61", "title": "Renaming a symbol on the blackboard is invisible in expansions", "statement": "After substitute(old, new) on a blackboard every expression still expands to what it expanded to before, up to that renaming, and expansion still terminates.", "quantifier": "all histories of definitions and renamings, all expressions", "why_tests_cant": "depends on every history of definitions and on which definitions mention which symbols", "anchors": ["src/Blackboard.inlines.hh: substitute, src/Blackboard.cc: rewrite, src/Cached_Expr.cc: replace_system_generated_symbols"]}
{"id": "C62", "title": "Recurrence objects own their memory", "statement": "No history of constructions, copies, assignments, replacements, classifications, uses and destructions of Recurrence objects frees the same structure twice or uses a freed one, and when all objects are destroyed nothing stays allocated.", "quantifier": "all histories over any number of objects", "why_tests_cant": "ownership mistakes show only in particular interleavings of copies and destructions", "anchors": ["src/Recurrence.inlines.hh: copy constructor, operator=, ~Recurrence, src/rr_classifier.cc: classify"]}
{"id": "C63", "title": "Success means a result can be read", "statement": "When computing an exact solution or a bound reports SUCCESS, reading it does not throw; when the classifier refuses the recurrence the status reported is the one of the refusal.", "quantifier": "all states of a Recurrence object, all right-hand sides", "why_tests_cant": "depends on which results earlier calls left in the object", "anchors": ["src/Recurrence.cc: compute_exact_solution, compute_lower_bound, compute_upper_bound, exact_solution, lower_bound, upper_bound, map_status"]}
{"id": "C64", "title": "The index from which on an expression is defined", "statement": "When the search for the domain of an expression in n accepts, the index returned is not below the index given, and the expression has a value at every larger integer; for rational functions it is the least index that is at least the given one and every root found; for log(log(n)) the value is not negative from the index on.", "quantifier": "all expressions, starting indices and integers after the result", "why_tests_cant": "infinitely many integers after the index returned", "anchors": ["src/util.cc: find_domain_in_N, find_domain_in_N_on_expanded_ex"]}
{"id": "C65", "title": "Simplifying nested powers keeps the value", "statement": "Collapsing nested powers and raising products factor by factor keeps the value of the expression for every assignment of the symbols under which it has one.", "quantifier": "all nested powers, all assignments", "why_tests_cant": "values of symbols range over all numbers; sign conditions matter", "anchors": ["src/simplify.cc: simplify_powers, simplify_powers_with_bases_mul, return_power, find_real_base_and_build_exponent, split_exponent, erase_factor, perfect_root"]}
{"id": "C66", "title": "Solutions honour the initial conditions given", "statement": "After initial conditions have been accepted, the exact solution (or bound) read from the object satisfies the recurrence, takes the given values at the last k indices (k the order), and contains no symbolic initial condition or auxiliary symbol any more.", "quantifier": "all orders, coefficients, accepted sets of initial conditions and indices n", "why_tests_cant": "every index after the conditions, every accepted set of conditions", "anchors": ["src/Recurrence.cc: compute_solution_linear_finite_order_on_i_c, compute_solution_non_linear_finite_order_on_i_c, compute_solution_weighted_average_on_i_c, compute_bound_functional_equation_on_i_c"]}
{"id": "C67", "title": "Simplifying a whole expression keeps its value", "statement": "Each of the simplifications for input and for output, the one of fractions, and their composition returns an expression that has the value of the argument, for every assignment of the symbols under which the argument has one.", "quantifier": "all expressions (any nesting of sums, products, powers, functions and symbolic sums), all assignments", "why_tests_cant": "nesting is unbounded and a rule may be applied to a part whose value is negative or zero for some assignment only", "anchors": ["src/simplify.cc: simplify_ex_for_input, simplify_ex_for_output, simplify_expanded_ex_for_input, simplify_expanded_ex_for_output, manip_factor, reduce_product, simplify_numer_denom, simplify_all"]}
{"id": "C68", "title": "Recurrences found for hypergeometric sums hold", "statement": "When coefficients a_0, ..., a_J are found for the term F(m, k), then a_0 F(m, k) + ... + a_J F(m+J, k) is the difference G(k+1) - G(k) of a rational multiple of F, and the sums over k satisfy the recurrence with these coefficients whenever G vanishes at the ends; orders 1 to 9 are tried in turn, and failure means that none of them has a solution.", "quantifier": "all hypergeometric terms, all orders, all m and k", "why_tests_cant": "an identity for every m and k, and the absence of solutions", "anchors": ["src/zeilberger.cc: zeilberger_step_one, parametric_gosper_step_two, parametric_gosper_step_three, zeilberger_for_fixed_order, zeilberger_algorithm"]}
{"id": "C69", "title": "Closed forms of hypergeometric sums are the sums", "statement": "When the algorithm for definite hypergeometric sums returns a closed form, its value at n is the sum of F(n, k) over all natural numbers k, for every n from the first initial condition on.", "quantifier": "all terms with finitely many non-zero values for each n, all n", "why_tests_cant": "every n; depends on where the terms vanish", "anchors": ["src/zeilberger.cc: zeilberger_for_fixed_order, zeilberger_algorithm"]}
{"id": "C70", "title": "Order reduction keeps the recurrence and its solution", "statement": "When all x() in a recurrence are x(n - d c), the right-hand side rewritten for the order reduction has at m the value of the original one at d m + r (r = 0, ..., d-1), and a solution of the reduced recurrence, rewritten for the original variable, has at n the value of the reduced one at floor(n/d) with initial conditions x(d k + n mod d): it solves the original recurrence.", "quantifier": "all right-hand sides whose x() have decrements with a common divisor d, all d, n and initial conditions", "why_tests_cant": "every index and every remainder; n may be anywhere in the right-hand side", "anchors": ["src/finite_order.cc: rewrite_factor, rewrite_term, write_reduced_order_recurrence, come_back_to_original_variable", "src/Recurrence.cc: apply_order_reduction"]}
{"id": "C71", "title": "The general bounds for functional equations are bounds", "statement": "For x(n) = a x(n/b) + g(n), when no sharper bound is known for an addend of g, the lower and upper bounds built from the sums of a^(q-k) g(b^k) and a^(q-k) g(b^k - 1) enclose x(n) for every n and every non-negative choice of the initial values; the closed forms used for these sums have their values.", "quantifier": "all addends accepted as non-negative and non-decreasing, all positive a, all integers b >= 2, all n and initial values", "why_tests_cant": "every n, every g; the bounds are evaluated at log(n)/log(b), between the integers", "anchors": ["src/compute_bounds.cc: compute_sum, try_to_compute_sum, compute_poly_or_no_poly, compute_non_homogeneous_part, compute_term_about_initial_condition, approximate_functional_equation"]}
{"id": "C72", "title": "Bounds for non-linear functional equations are bounds", "statement": "For x(n) = g(n) x(n/b)^a, the lower and upper bounds obtained from the linear equation for the logarithms to base a enclose x(n), for every n and every choice of the initial values that is accepted.", "quantifier": "all exponents a, all integers b >= 2, all positive g, all n and initial values", "why_tests_cant": "every n and every initial value; the exponent may be below 1 and the logarithms of the initial values may be negative", "anchors": ["src/Recurrence.cc: compute_non_linear_recurrence", "src/rr_classifier.cc: rewrite_non_linear_recurrence"]}
{"id": "C73", "title": "Factors of a polynomial multiply to it", "statement": "When a polynomial with integer coefficients is split into factors to find its roots, the product of the factors reported is the polynomial up to a nonzero constant, whatever the size of the coefficients.", "quantifier": "all square-free polynomials with integer coefficients, all coefficients of their factors", "why_tests_cant": "coefficients of any size; conversions between integer types", "anchors": ["src/poly_factor.cc: poly_factor, ZZ_to_long", "src/alg_eq_solver.cc: find_roots"]}
{"id": "C74", "title": "Conversion to integer coefficients gives the primitive polynomial", "statement": "A nonzero polynomial with rational coefficients is converted into the one polynomial with integer coefficients proportional to it that has a positive leading coefficient and coefficients without common factor; the factor returned times it is the original polynomial; the greatest common divisor computed from the conversions is one over the rational numbers.", "quantifier": "all polynomials with rational coefficients, of any degree, zero included", "why_tests_cant": "all degrees and coefficients; uniqueness and divisibility are statements about all polynomials", "anchors": ["src/util.cc: convert_to_integer_polynomial, general_gcd", "src/gosper.cc: gosper_step_two"]}
{"id": "C75", "title": "The square-free factorisation keeps the value of the expression", "statement": "Factorising an expression that contains logarithms, roots, other functions or symbolic powers neither fails nor changes its value: parts that are not polynomial are put back unchanged, the parts hidden do not depend on the unknowns, and only rational expressions are given to the factorisation.", "quantifier": "all expressions polynomial in the unknowns listed (all expressions when none is listed), all values of the symbols", "why_tests_cant": "every expression and every value of its symbols; the names of new symbols depend on the history", "anchors": ["src/Expr.cc: sqrfree, substitute_critical_ex", "src/Blackboard.cc: rewrite"]}
{"id": "C76", "title": "Recurrences in several variables", "statement": "When the driver for multivariate recurrences prints x(k,{v_1,...,v_p}) = e, every function of p integers that satisfies the recurrence has the value of e at every point where the recurrence has been applicable; initial conditions that are inserted do not change values.", "quantifier": "all right-hand sides, all numbers of variables, all functions satisfying the recurrence, all points, all initial conditions", "why_tests_cant": "functions of several integers and points are infinitely many; the wrong answers need particular argument patterns", "anchors": ["tests/multivar_driver.cc: multivar_solve, restore_arity, insert_initial_conditions_recursive, find_terms_with_x"]}
{"id": "C77", "title": "Verification of non-linear recurrences", "statement": "When verify_exact_solution() answers PROVABLY_CORRECT for a non-linear recurrence whose associated linear recurrence has order at least 1, the solution has the initial values (given, or symbolic) and satisfies the recurrence; when it answers PARTIAL_PROVABLY_CORRECT, the solution obtained from the logarithms is the general solution for positive initial values; x(n) = c x(n-1)^a is declared provably correct without a check, and its solution is right for positive x(0); verification does not break down.", "quantifier": "all non-linear recurrences and candidate solutions, all values of the initial conditions, all indices, all sound simplifications", "why_tests_cant": "solutions, conditions and indices are infinitely many, and an answer obtained from symbolic simplification concerns all of them at once", "anchors": ["src/verify.cc: Recurrence::verify_exact_solution, verify_finite_order, validate_initial_conditions, traditional_step_3", "src/Recurrence.inlines.hh: applied_order_reduction"]}
{"id": "C78", "title": "End to end: the solution returned for a linear recurrence with constant coefficients is its solution", "statement": "When a linear recurrence with constant coefficients is classified and the exact solver returns a solution, then for every choice of initial values there is a sequence with these values that satisfies the recurrence as it was given, and the solution returned has its value at every index from the first valid one on.", "quantifier": "every right-hand side classified as linear of finite order with constant coefficients, every values of the parameters with last coefficient nonzero, every first valid index, all initial values and all indices", "why_tests_cant": "the claim composes classification, decomposition of the inhomogeneous term, characteristic equation, linear systems and sums over infinitely many inputs; tests check finitely many recurrences at finitely many indices", "anchors": ["src/compute_exact_solution.cc: solve_linear_finite_order", "src/finite_order.cc: characteristic_equation_and_its_roots", "src/rr_classifier.cc: classify_summand", "src/ep_decomp.cc: exp_poly_decomposition", "src/alg_eq_solver.cc: find_roots"]}
{"id": "C79", "title": "The first valid index marks where the recurrence is defined", "statement": "When classification of a linear recurrence of finite order k > 0 succeeds, the first valid index z it stores is a non-negative integer such that the inhomogeneous term has a value at every index from z + k on; for first-order recurrences with a variable coefficient the coefficient is moreover defined and different from zero there; for functional equations the index is at least 1 and the coefficients are defined after it; for order 0 it is 0.", "quantifier": "every classified recurrence, every index from the first valid index plus the order on, every value of the parameters", "why_tests_cant": "the claim ranges over infinitely many indices and all inhomogeneous terms; a test sees finitely many values", "anchors": ["src/rr_classifier.cc:1515-1560 Recurrence::classify", "src/util.cc:489-582 find_domain_in_N"]}
{"id": "C80", "title": "Classification is cached, rewrites soundly and stores what it reports", "statement": "classify_and_catch_special_cases answers the same, without changing the recurrence, when called again; never answers 'negative decrement' or 'null decrement'; marks the recurrence as rewritten exactly if decrements were eliminated; the right-hand side it leaves behind has the same solutions as the one given (shifted by the decrements eliminated); and on success the stored order, coefficients, inhomogeneous term and first valid index are those of the stored right-hand side, even after a failed attempt.", "quantifier": "all right-hand sides, all sequences of eliminations and retries, all sequences x and indices", "why_tests_cant": "the number of eliminations and retries is unbounded and equality of solution sets ranges over all sequences", "anchors": ["src/rr_classifier.cc:1615-1683 classify_and_catch_special_cases", "src/rr_classifier.cc:1441-1570 classify"]}
{"id": "C81", "title": "First-order linear recurrences with a variable coefficient are solved correctly", "statement": "For a right-hand side a(n) x(n-1) + p(n) classified as a first-order linear recurrence with variable coefficient whose coefficient is defined and not zero after the first valid index f, the exact solution returned has, at every n >= f, the value of the sequence with the given x(f) that satisfies the recurrence from f+1 on.", "quantifier": "every right-hand side classified as linear of order 1 with variable coefficient, every environment, every value of x(f), every n >= f", "why_tests_cant": "the coefficients, terms and indices are unbounded; tests see finitely many recurrences and indices", "anchors": ["src/compute_exact_solution.cc:solve_variable_coeff_order_1", "src/compute_prod.cc:compute_product", "src/finite_order.cc"]}
{"id": "C82", "title": "Order reduction gives the sequence", "statement": "For a linear recurrence with constant coefficients whose decrements have a common divisor d > 1, compute_exact_solution rewrites it as a recurrence of order k/d with the symbol r for mod(n,d), solves that one and comes back to the original variable. The value found at n is that of the sequence with the given k initial values, for every n and whatever the initial values are; without a common divisor the recurrence is solved as it is, with the same result.", "quantifier": "all right-hand sides, all environments, all initial values, all n", "why_tests_cant": "the claim quantifies over all recurrences, all remainders and all n; tests compare a few values of a few recurrences", "anchors": ["src/Recurrence.cc:apply_order_reduction", "src/Recurrence.cc:compute_exact_solution_finite_order", "src/finite_order.cc:write_reduced_order_recurrence", "src/finite_order.cc:come_back_to_original_variable", "src/compute_exact_solution.cc:solve_linear_finite_order"]}
{"id": "C83", "title": "Solutions of weighted-average recurrences end to end", "statement": "For a weighted-average recurrence x(n) = f(n) sum(k,lo,n-1,x(k)) + g(n) (or with upper limit n and a weight other than 1) that compute_exact_solution solves, the answer is the sequence: for every value of x(lo), the expression returned has the value of the sequence at every index beyond lo, given that the solution of the associated first order recurrence is right.", "quantifier": "all right-hand sides, all lower limits, all environments, all values of x(lo), all n > lo", "why_tests_cant": "the claim quantifies over all recurrences, all initial values and all n; tests check one index of a few recurrences", "anchors": ["src/Recurrence.cc:compute_weighted_average_recurrence", "src/rr_classifier.cc:rewrite_weighted_average_recurrence"]}
{"id": "C84", "title": "Predicates and set operations of intervals", "statement": "For well formed intervals of the interval library, is_empty, && with a value, &= and |= are emptiness, membership, intersection and hull; subset, subset_eq and == are the relations between the sets of values; the three-valued comparisons answer ALWAYS exactly if the relation holds between all values of the two intervals and NEVER exactly if it holds between none (for == and !=, the answer NEVER, resp. ALWAYS, is right when given).", "quantifier": "all intervals with boundaries that are open, closed or infinite, of reals and of integers, all values", "why_tests_cant": "the claim is about sets of real numbers and all pairs of intervals; tests check a few literals", "anchors": ["src/Intervals/Interval.inlines.hh: is_empty, subset, subset_eq, ==, lt, gt, le, ge, eq, ne, &=, |=, &&", "src/Intervals/Boundary.inlines.hh: comparisons", "src/Bool3.inlines.hh"]}
{"id": "C85", "title": "Inclusion of interval arithmetic", "statement": "With directed rounding (or a unit that marks inexact results), if a is a value of the interval x and b one of y, then a + b, a - b, a * b, a / b (b not 0), -a, |a|, a * a, exp a, sqrt a, log a, floor, ceiling and truncation of a, quotient and remainder, min and max are values of the interval the corresponding operation gives; so an expression evaluated over intervals contains all its values.", "quantifier": "all intervals, all values in them, all arithmetic units that round in the right direction, all expressions", "why_tests_cant": "the claim quantifies over real numbers and all intervals; tests check a few literals", "anchors": ["src/Intervals/Interval.cc: *=, /=", "src/Intervals/Interval.inlines.hh: +=, -=, *=, /=, negate, abs_assign, sqr_assign, sqrt_assign, exp_assign, log_assign, floor_assign, ceil_assign, integer_assign, div_assign, mod_assign, min_assign, max_assign", "src/Intervals/Boundary.inlines.hh: +=, -=, *=, /=, floor_assign, ceil_assign, exp_assign"]}
{"id": "C86", "title": "Empty intervals are recognised", "statement": "The constructor, the intersection and the hull give well formed intervals: with values, and boundaries that are integers if they are intervals of integers, or the one empty interval. Operations on the empty interval give an interval that ok() and is_empty() accept and that has no values.", "quantifier": "all intervals, all arithmetic units", "why_tests_cant": "the claim quantifies over all intervals; tests check a few literals", "anchors": ["src/Intervals/Interval.inlines.hh: Interval(LBoundary, UBoundary, Type), set_integer, set_maybe_real, set_empty, is_empty, ok, &=, |=, negate, exp_assign"]}
{"id": "C87", "title": "Widening and narrowing", "statement": "Widening gives an interval that contains the given one, and a sequence of intervals in which each one is the widening of an interval that contains its predecessor stops after a bounded number of steps; narrowing gives an interval between the new and the old one, and a sequence of narrowings stops after a bounded number of steps.", "quantifier": "all intervals, all infinite sequences of intervals", "why_tests_cant": "termination quantifies over infinite sequences; tests check single steps", "anchors": ["src/Intervals/Interval.cc: widen_assign, narrow_assign, widen_stop_points", "src/Intervals/Boundary.inlines.hh: set_gt, set_lt"]}
{"id": "C88", "title": "contains_multiple", "statement": "contains_multiple(offset, period) returns true if there is an integer k such that offset + k * period is between the boundaries of the interval, and, if the quotients are computed exactly, only then.", "quantifier": "all intervals, all offsets and periods, all arithmetic units that round in the right direction", "why_tests_cant": "the claim quantifies over all intervals and all integers k; tests check a few literals", "anchors": ["src/Intervals/Interval.cc: contains_multiple", "src/Intervals/Boundary.inlines.hh: floor_assign, is_integer"]}
{"id": "C89", "title": "MathML output is well-formed", "statement": "For every expression, Expr::mathml_output writes one well-formed XML document whose root is the math element: all elements are nested and closed, and the text contains no markup characters.", "quantifier": "all expressions (any nesting, any number of operands, any class of GiNaC object), all texts of numbers and names", "why_tests_cant": "the nesting depends on the shape of the whole expression; tests look at a few outputs", "anchors": ["src/Expr.cc: mathml_print, Expr::mathml_output", "src/Expr.defs.hh: mathml_output"]}
{"id": "C90", "title": "MathML output is MathML", "statement": "The document written by Expr::mathml_output is presentation MathML: text occurs only within mi, mn and mo, and these contain nothing but text; every msup and mfrac has exactly two children.", "quantifier": "all expressions", "why_tests_cant": "a renderer that tolerates the tests need not tolerate other expressions; the number of children depends on the expression", "anchors": ["src/Expr.cc: mathml_print"]}
{"id": "C91", "title": "MathML output can be read back", "statement": "Two different expressions have different MathML output, also when blanks and line breaks are ignored: no expression is shown in a way that stands for another one.", "quantifier": "all pairs of expressions", "why_tests_cant": "injectivity speaks about all pairs of expressions", "anchors": ["src/Expr.cc: mathml_print"]}
{"id": "C92", "title": "Numerator over denominator", "statement": "numerator(e) divided by denominator(e), and transform_in_single_fraction(e), have the value of e wherever e has a value, and the denominator is not zero there.", "quantifier": "all expressions, all values of the symbols", "why_tests_cant": "values at every point cannot be tested", "anchors": ["src/numerator_denominator.cc: numerator, denominator, transform_in_single_fraction"]}
{"id": "C93", "title": "Values over an interval", "statement": "Asking for the exact solution or a bound over [begin, end) writes, in order, exactly what the single calls at begin, begin+1, ... return, one value for each number of the interval, each the initial condition given there or the value of the formula; a backwards interval and a begin outside the domain are refused with nothing written.", "quantifier": "all recurrence objects, kinds (solution, lower, upper bound), rational ends, sets of initial conditions", "why_tests_cant": "tests evaluate a few intervals of fixed recurrences; the number of calls, their order and the state of the object between them depend on the ends and on the object", "anchors": ["src/Recurrence.inlines.hh: evaluate_exact_solution, evaluate_lower_bound, evaluate_upper_bound (begin, end, oi)", "src/Recurrence.defs.hh: their documentation"]}
{"id": "C94", "title": "Powers of differences are rewritten through the characteristic equation", "statement": "Replacing the negative powers of lambda - alpha by powers of (lambda + alpha - c)/(-alpha^2 + alpha c + d) keeps the value of every expression whenever lambda is a root of v^2 = c v + d and alpha is not.", "quantifier": "all expressions, coefficients c and d, values of the symbols, and interpretations of the functions", "why_tests_cant": "the rewriting descends through every constructor and two spellings of the difference; tests only see the final solutions of a few recurrences", "anchors": ["src/compute_exact_solution.cc: substitute_pwr_diff_symbols, solve_constant_coeff_order_2"]}
{"id": "C95", "title": "Classified recurrences have their structures, and OK() agrees", "statement": "After any history of constructions, copies, assignments, replacements and classifications, a recurrence classified with success has the structure that the accessors of its type read, and OK() accepts it.", "quantifier": "all histories of calls on any number of recurrence objects and all decisions of the classifier", "why_tests_cant": "the pointers depend on the order in which the summands are classified, on rewritings and on earlier classifications of the same object; tests classify fresh objects and never call OK()", "anchors": ["src/Recurrence.cc: OK", "src/rr_classifier.cc: classification_summand, classify, classify_and_catch_special_cases", "src/Recurrence.inlines.hh: constructors, copies, replace_recurrence, set_..."]}
{"id": "C96", "title": "Cosine, sine and tangent of intervals", "statement": "If a is a value of the interval x, then cos a, sin a and tan a (a not a pole) are values of the intervals cos_assign, sin_assign and tan_assign give, and the values of the first two are between -1 and 1.", "quantifier": "all intervals (open, closed, infinite), all values in them, all correctly rounding arithmetic units, all numbers standing for pi", "why_tests_cant": "the claim quantifies over real numbers, and depends on where the extrema are with respect to the boundaries", "anchors": ["src/Intervals/Interval.cc: cos_assign, sin_assign, tan_assign, contains_multiple", "src/Intervals/Boundary.inlines.hh: cos_assign, sin_assign, tan_assign"]}
{"id": "C97", "title": "The power of an interval encloses the powers of its values", "statement": "For intervals x and y and a power function of the C library that rounds in the direction asked for, pow(x, y) has every real number a^b with a in x and b in y in three cases: y has more than one value; y is one natural number; y is one number that is not an integer and x is not marked as an interval of integers (and, for a negative exponent, does not start at 0). Outside these cases values are lost, for every arithmetic unit: [1..2]^-1 does not have 1/2 (a negative integer exponent does not exchange the boundaries), (0..1]^(-1/2) comes out without values, and [2..2]^(1/2) stays marked as an interval of integers.", "quantifier": "all pairs of well formed intervals (closed, open, unbounded, on either side of 0 and 1), all arithmetic units with directed rounding, all pairs of values", "why_tests_cant": "enclosure is a statement about all pairs of real numbers in two intervals and every rounding unit; tests compute a few powers with the rounding of one machine", "anchors": ["src/Intervals/Interval.cc: Interval::pow_assign", "src/Intervals/Boundary.inlines.hh: LBoundary::pow_assign, UBoundary::pow_assign"]}
{"id": "C98", "title": "The first step of Gosper's and Zeilberger's algorithms computes the right ratios", "statement": "When the first step of Gosper's algorithm accepts t(m), the expression it returns has the value t(m+1)/t(m) wherever t is defined and not zero, and that ratio is a quotient of two polynomials in m. When the first step of Zeilberger's algorithm accepts F(m,k), the three expressions it returns satisfy t(k+1)/t(k) = p(k+1)/p(k) * r(k)/s(k) for t(k) = a_0 F(m,k) + ... + a_J F(m+J,k), for any number of coefficients; an accepted F is a hypergeometric term, both ratios being rational functions of both m and k.", "quantifier": "all terms F and t, all symbols, any number of coefficients, all values of the symbols where the term is defined and not zero", "why_tests_cant": "the identity has to hold for every term, every number of coefficients and every value of the symbols", "anchors": ["src/gosper.cc:gosper_step_one", "src/zeilberger.cc:zeilberger_step_one", "src/Expr.cc:Expr::is_rational_function"]}
{"id": "C99", "title": "The non-homogeneous part computed from the fundamental solution is right", "statement": "For a linear recurrence of order two or more with constant coefficients whose inhomogeneous term p(n) is a sum of polynomials times exponentials, the closed form computed from the fundamental solution g (Newton-form sums for every pair of a base and a root, with the bases that coincide with a root treated apart) is the sum of g(n-h) p(h) for h from the first valid index plus the order up to n, so that together with the part coming from the initial conditions it solves the recurrence. This holds for any number of bases and roots, whatever the order in which the exponentials of g are listed, for simple roots and any first valid index, and for multiple roots when the first valid index is 0; for multiple roots and another first valid index it does not.", "quantifier": "all fields of characteristic zero, all orders, all lists of roots, all lists of bases and polynomials, all first valid indices and all n from there on", "why_tests_cant": "tests try a few orders, bases and roots; the pairing of coefficients with roots and bases and the behaviour for every n are a statement about all of them", "anchors": ["src/finite_order.cc: compute_symbolic_sum, subs_to_sum_roots_and_bases, prepare_for_symbolic_sum, compute_non_homogeneous_part", "src/compute_exact_solution.cc: solve_constant_coeff_order_2, solve_constant_coeff_order_k"]}
{"id": "C100", "title": "What the searches in an expression find", "statement": "The tests whether an expression contains a symbolic sum or product, a function x, a symbol, or a function x with a symbol in its argument answer yes exactly when such a subexpression occurs at any depth; the largest index of the constants x(i) of an expression is the largest i among the x(i) outside arguments of x or the given lower value, and an exception is raised only when an index exceeds INT_MAX; an expression accepted as polynomial with rational coefficients is a polynomial in the symbol and has rational values at rational points (refuted for symbolic exponents: (-1)^x is accepted).", "quantifier": "all expressions, symbols and start values between 0 and INT_MAX", "why_tests_cant": "The statements are about every expression of any depth; tests cover a few shapes.", "anchors": ["src/Expr.cc: Expr::has_sum_or_prod_function", "src/Expr.cc: Expr::is_rational_polynomial", "src/Expr.cc: Expr::has_x_function", "src/Recurrence.cc: get_max_index_symbolic_i_c", "src/Number.inlines.hh: Number::to_unsigned_int"]}
{"id": "C101", "title": "The factorisation returned through giac keeps the value", "statement": "The two expressions returned for giac's factorisation of an expression have, as their product, the value of giac's result for every value of the symbols, and translating any tree of giac whose integers fit in an int and whose sums and products have vectors of operands succeeds with an expression of the same value; the numeric part does not depend on the symbols (refuted when an inverse such as 1/n is among the factors: it is counted as numeric); a product or sum with one operand outside a vector is lost (refuted).", "quantifier": "all trees of giac, all values of the symbols, all interpretations of functions and all value-preserving multiplications of giac", "why_tests_cant": "Trees are of any depth and size, and giac's choice of factors is not under the tests' control.", "anchors": ["src/factorize_giac.cc: factorize_giac_recursive", "src/factorize_giac.cc: translate", "src/factorize_giac.cc: factorize_giac"]}
{"id": "C102", "title": "Replacing the arguments of x keeps the meaning of a right-hand side", "statement": "Adding a number to the argument of every x in an expression gives an expression whose value, for any sequence, is that of the original for the shifted sequence, when no x occurs within an argument of x (refuted otherwise: x(x(n)) becomes x(x(n) + num)); replacing a symbol by an expression in the arguments of x only gives, when the symbol occurs nowhere else, the value for the replaced symbol (refuted otherwise), and leaves the value of an expression without x unchanged.", "quantifier": "all expressions, sequences, shifts, symbols and replacements, all values of the symbols", "why_tests_cant": "The claim is about every sequence and every nesting of sums, powers, functions and symbolic sums.", "anchors": ["src/Recurrence.cc: increase_argument_x_function", "src/rr_classifier.cc: change_variable_function_x"]}
