import re
# Generates /verif/properties.jsonl (run from /verif).
import json
P=[]
def p(title,statement,quant,why,*anchors):
    P.append(dict(id="C%02d"%(len(P)+1),title=title,statement=statement,quantifier=quant,why_tests_cant=why,anchors=[x for a in anchors for x in re.split(r';\s*(?=src/|tests/|demos/)',a)]))

p("Three-valued logic is sound",
  "Combining two three-valued answers with lor/land/lnot never claims more than the operands justify, loses nothing that is determined, and `stronger_eq` is exactly 'carries at least as much information'.",
  "all Bool3 operands and all Boolean interpretations they admit",
  "the claim is about every interpretation of MAYBE, i.e. about sets of possible truth values, not about single calls",
  "src/Bool3.inlines.hh: lor, land, lnot, is_strong, stronger, stronger_eq")
p("gcd of machine integers",
  "gcd(n,m) terminates for every pair of ints, its absolute value is the greatest common divisor of n and m, and no intermediate operation is undefined except for the pairs (INT_MIN, -1) and (-1, INT_MIN).",
  "all pairs of 32-bit ints (unbounded integers in the functional part)",
  "2^64 input pairs; termination is for all of them",
  "src/util.cc: gcd(int,int)")
p("partial_factor reconstructs its argument",
  "For every non-zero integer n, partial_factor returns bases/exponents whose product of powers is |n|; exponents are positive, the bases are distinct and pairwise coprime, and each base other than the last is prime; a returned base divisible by a prime below 100 is that prime.",
  "all non-zero integers of any size",
  "arbitrary-precision input",
  "src/util.cc: partial_factor")
p("find_divisors is exact below its threshold",
  "For n < 121 find_divisors returns true and appends exactly the positive divisors of n, each once; for larger n it returns false and leaves the vector as it was.",
  "all strictly positive integers and every previous content of the vector",
  "unbounded n and arbitrary previous content",
  "src/util.cc: find_divisors")
p("Closed form of the sum of polynomial times exponential",
  "For every polynomial p and number alpha, the expression sum_poly returns equals sum_{k=0}^{n} p(k) alpha^k at every n >= 0.",
  "all polynomials, all alpha (1 included), all n",
  "infinitely many polynomials, bases and upper limits",
  "src/sum_poly.cc: falling_product, sum_falling_prod_times_exp, poly_dec, sum_poly")
p("Sums of polynomial times exponential times cosine or sine",
  "sum_poly_times_exponentials_times_cos (resp. _sin) returns, for n>=0, sum_{k=0}^{n} p(k) alpha^k cos(k theta) (resp. sin).",
  "all alpha, theta with non-vanishing denominator, all n",
  "real-valued parameters",
  "src/sum_poly.cc: sum_poly_times_exponentials_times_cos, sum_poly_times_exponentials_times_sin")
p("Blackboard caches are transparent",
  "After any sequence of insert_definition / substitute / rewrite / size_norm calls, rewriting a symbol or an expression gives exactly the expansion that would be computed from the current definitions with no cache at all.",
  "all histories of blackboard operations",
  "staleness depends on the interleaving of cached reads and later substitutions",
  "src/Blackboard.cc, src/Blackboard.inlines.hh, src/Blackboard.defs.hh")
p("Blackboard::find_symbol returns a symbol with the requested definition",
  "If find_symbol(e) returns an existing symbol z then z is defined to be e; otherwise it returns a fresh symbol defined to be e.",
  "all histories",
  "needs two different orders (insertion and name order) to disagree",
  "src/Blackboard.inlines.hh: find_symbol")
p("System symbols are renamed apart",
  "The display names given to system-generated symbols are pairwise distinct for all indices, and the chosen name never coincides with a symbol already occurring in the expression.",
  "all indices, all finite sets of occupied names",
  "infinitely many indices",
  "src/Cached_Expr.cc: new_symbol_name, replace_system_generated_symbols")
p("Expression size is positive and additive",
  "size_norm of an expression is at least one and is the sum over its nodes; on a blackboard it equals the size of the expanded expression.",
  "all expressions, all blackboards",
  "recursive structure of unbounded depth",
  "src/Expr.inlines.hh: size_norm; src/Blackboard.cc: size_norm")
p("Evaluation of floor, mod and binom on numbers",
  "When floor(x), mod(a,b) or binom(m,k) is evaluated automatically on numbers the result is the mathematical value (largest integer not exceeding x; a minus b times floor(a/b); binomial coefficient).",
  "all numeric arguments",
  "infinite domain including negatives",
  "src/Expr.cc: floor_eval, mod_eval, binom_eval")
p("Automatic evaluation of sums",
  "Automatic evaluation of sum(k,lo,up,e) preserves its value: numeric bounds are expanded, an empty range gives 0, an upper limit n+j is shifted, and factors not containing the index are taken out.",
  "all index ranges and summands",
  "ranges of unbounded length",
  "src/Expr.cc: sum_eval, get_out_factors_from_argument")
p("Automatic evaluation of products",
  "Automatic evaluation of prod(k,lo,up,e) preserves its value for numeric ranges, for empty ranges and for upper limits of the form n+j.",
  "all index ranges and factors",
  "ranges of unbounded length",
  "src/Expr.cc: prod_eval, get_out_factors_from_argument")
p("max and min of numbers",
  "max(a,b) and min(a,b) of two numbers evaluate to the larger (smaller) of the two.",
  "all pairs of numbers",
  "close pairs; infinite domain",
  "src/Expr.cc: max_eval, min_eval")
p("Scalar, polynomial and numeric-kind predicates are sound",
  "is_scalar_representation(x) implies the value does not depend on x; is_polynomial(x) implies the value is a polynomial function of x; is_integer/rational_scalar_representation(x) imply the value is an integer/rational whenever the parameters are.",
  "all expressions and all valuations of the symbols",
  "expressions of arbitrary depth, all valuations",
  "src/Expr.cc: is_scalar_representation, is_polynomial, is_integer_scalar_representation, is_rational_scalar_representation")
p("Substitution acts on values",
  "Substituting r for a symbol s in e gives an expression whose value is that of e with s bound to the value of r.",
  "all expressions, symbols, replacements and valuations",
  "bound indices of sums/products interact with free symbols of the replacement at arbitrary depth",
  "src/Expr.cc: substitute")
p("Distributing products over sums preserves the value",
  "distribute_mul_over_add(e) has the same value as e under every valuation and its result has no product with a sum among its factors at the top level.",
  "all expressions and valuations",
  "arbitrary nesting",
  "src/Expr.cc: distribute_mul_over_add")
p("A recurrence object forgets nothing and remembers nothing stale",
  "Answers read from a Recurrence always concern the recurrence currently stored in it, for every history of constructors, replace_recurrence, replace_initial_conditions, compute_* and accessors.",
  "all call histories",
  "depends on interleaving of mutation and cached answers",
  "src/Recurrence.inlines.hh: replace_recurrence, reset_initial_conditions; src/Recurrence.cc: compute_exact_solution, compute_lower_bound, compute_upper_bound")
p("Initial conditions are accepted exactly when usable",
  "set_initial_conditions accepts a map exactly when it has the number and the positions of initial conditions the classified recurrence needs, and after a rejection the old conditions are kept.",
  "all maps, all recurrence types and orders",
  "unbounded maps and orders",
  "src/Recurrence.cc: set_initial_conditions")
p("Evaluation of the solution at an index",
  "evaluate_exact_solution at a number returns the initial condition if one is given there, otherwise the value of the solution formula at that number, provided the index lies in the domain of the solution; other indices are rejected.",
  "all indices and all maps of initial conditions",
  "unbounded indices",
  "src/Recurrence.cc: check_number_for_evaluation, evaluate")
p("First-order constant-coefficient solution",
  "The returned formula for x(n) = a x(n-1) + p(n) satisfies the recurrence for every n greater than the first valid index and takes the initial value there.",
  "all a, all inhomogeneous terms, all initial values, all n",
  "unbounded n",
  "src/compute_exact_solution.cc: solve_constant_coeff_order_1; src/finite_order.cc")
p("First-order variable-coefficient solution",
  "The returned formula prod a(k) * (x(i0) + sum p(k)/prod a(j)) satisfies x(n) = a(n) x(n-1) + p(n) for all n beyond the first valid index whenever a does not vanish there, and the first valid index skips all zeros and poles.",
  "all coefficient functions without zeros after the first valid index, all n",
  "arbitrary coefficient functions and n",
  "src/compute_exact_solution.cc: solve_variable_coeff_order_1; src/util.cc: find_domain_in_N")
p("Higher-order constant-coefficient solution",
  "The formula assembled from the fundamental solution g and the initial conditions satisfies the recurrence of order k for every n and matches all k initial conditions.",
  "all orders k, coefficients, inhomogeneous terms and n",
  "unbounded order and index",
  "src/compute_exact_solution.cc: compute_term_about_initial_conditions, solve_constant_coeff_order_2, solve_constant_coeff_order_k; src/finite_order.cc: find_g_n, compute_non_homogeneous_part")
p("Order reduction",
  "Solving the order-reduced recurrence (decrements with gcd d>1) and mapping back gives a solution of the original recurrence at every n, using initial condition n mod d.",
  "all orders, all gcds, all n",
  "unbounded",
  "src/finite_order.cc: write_reduced_order_recurrence, come_back_to_original_variable, write_expanded_solution; src/rr_classifier.cc: gcd_among_decrements")
p("Weighted-average transformation",
  "The first-order linear recurrence built from x(n)=f(n) sum_{k} x(k) + g(n) has exactly the same solutions for n>=2, and the value at n=1 is the one the original equation gives.",
  "all weights, inhomogeneous terms, lower limits, n",
  "unbounded histories of the sum",
  "src/rr_classifier.cc: rewrite_weighted_average_recurrence; src/Recurrence.cc: compute_weighted_average_recurrence")
p("Weighted-average classification is faithful",
  "A recurrence is classified as weighted-average only if its right-hand side really is weight(n) times the sum of the x(k) plus x-free terms.",
  "all right-hand sides",
  "arbitrary summands",
  "src/rr_classifier.cc: find_weighted_average_recurrence, rewrite_weighted_average_recurrence")
p("Non-linear recurrences through logarithms",
  "The solution obtained by solving the linear recurrence for the logarithm and exponentiating satisfies x(n) = c prod x(n-d_i)^{a_i} for positive data.",
  "all positive constants, exponents, decrements, n",
  "unbounded n",
  "src/rr_classifier.cc: classification of non linear recurrences; src/Recurrence.cc: compute_non_linear_recurrence")
p("Divide-and-conquer upper bounds",
  "For x(n)=a x(n/b)+n^k the upper bound reported is >= every solution at every n>=1.",
  "all a>0, integer b>=2, k>=0, n, initial values",
  "unbounded n and parameters",
  "src/compute_bounds.cc: compute_bounds_for_power_of_n, compute_term_about_initial_condition")
p("Divide-and-conquer lower bounds",
  "For x(n)=a x(n/b)+n^k the lower bound reported is <= every solution at every n>=1.",
  "all a>0, integer b>=2, k>=0, n, initial values",
  "unbounded n and parameters",
  "src/compute_bounds.cc: compute_bounds_for_power_of_n")
p("Monotonicity test for the inhomogeneous term",
  "If is_non_negative_non_decreasing accepts p then p(n) >= 0 and p(n) <= p(n+1) for every n from the returned condition on.",
  "all accepted expressions and all n",
  "unbounded n",
  "src/functional_equation.cc: is_non_negative_non_decreasing, is_non_decreasing_poly, is_non_decreasing_no_poly")
p("PROVABLY_CORRECT is sound for finite-order recurrences",
  "If verification of an exact solution of a finite-order linear recurrence answers PROVABLY_CORRECT then the expression satisfies the recurrence at every index beyond the initial conditions and matches all initial conditions.",
  "all recurrences, all candidate solutions, all n",
  "unbounded n",
  "src/verify.cc: verify_finite_order, traditional_step_3, validate_initial_conditions, verify_new_method_const_coeff")
p("Finite testing of exponential sums is conclusive",
  "An exponential sum with m distinct bases that vanishes at the m test points chosen vanishes everywhere.",
  "all numbers of bases, all bases, all coefficients, all n",
  "infinite family",
  "src/verify.cc: verify_new_method_const_coeff")
p("PROVABLY_CORRECT is sound for weighted-average recurrences",
  "If verification answers PROVABLY_CORRECT then the expression satisfies the weighted-average recurrence at every n >= 1.",
  "all weights, candidates, n",
  "unbounded n",
  "src/verify.cc: verify_weighted_average")
p("PROVABLY_CORRECT bounds are bounds",
  "If verification of a bound answers PROVABLY_CORRECT then the bound holds for every n for which the recurrence is defined.",
  "all candidate bounds, all n",
  "unbounded n",
  "src/verify.cc: verify_bound, ok_inequalities")
p("Roots of quadratics, cubics and quartics",
  "The radicals/trigonometric expressions computed for monic equations of degree 2, 3, 4 are roots of the equation and all of them (with multiplicity).",
  "all real coefficients",
  "real parameters, delicate case splits on signs",
  "src/alg_eq_solver.cc: solve_equation_2, solve_equation_3, solve_equation_4")
p("Nested polynomials",
  "is_nested_polynomial(p) returns the largest n with p(x) = q(x^n) together with that q.",
  "all polynomials",
  "unbounded degree",
  "src/alg_eq_solver.cc: is_nested_polynomial")
p("Rational roots are found",
  "Every rational root of an integer polynomial whose leading and trailing coefficients are below the divisor threshold is found, and everything reported as rational root is one.",
  "all integer polynomials",
  "unbounded degree and coefficients",
  "src/alg_eq_solver.cc: find_roots; src/util.cc: find_divisors")
p("Roots are reported with their multiplicity",
  "When find_roots succeeds, the product of (x - root)^multiplicity is the given polynomial up to a constant.",
  "all polynomials",
  "unbounded degree",
  "src/alg_eq_solver.cc: find_roots, PURRS::find_roots")
p("Pure power equations",
  "For a factor a x^n + k the solver reports the n complex roots of that factor.",
  "all a, k, n",
  "unbounded n",
  "src/alg_eq_solver.cc: solve_monomial_irrational and its call")
p("Eliminating negative decrements preserves the equation",
  "Rewriting x(n) = ... + c x(n+m) ... into standard form keeps exactly the same set of solutions.",
  "all right-hand sides, sequences and n",
  "quantifies over sequences",
  "src/rr_classifier.cc: eliminate_negative_decrements")
p("Eliminating null decrements preserves the equation",
  "Rewriting x(n) = a x(n) + ... into standard form keeps exactly the same set of solutions (or reports unsolvable/indeterminate when there are none/all).",
  "all right-hand sides, sequences and n",
  "quantifies over sequences",
  "src/rr_classifier.cc: eliminate_null_decrements")
p("Classification keeps every term",
  "The coefficients recorded for finite-order and functional-equation recurrences, together with the inhomogeneous term, sum up to the right-hand side that was given.",
  "all right-hand sides with repeated, unordered, constant or variable coefficients",
  "unbounded numbers of terms",
  "src/rr_classifier.cc: insert_coefficients, classify_summand, classify_basic, classify_mul")
p("Gosper summation telescopes",
  "When Gosper's algorithm returns a closed form it equals sum_{k=lower}^{upper} t(k), for every lower limit and every upper = m + d, as long as the term ratio and c(k) have no poles or zeros in the range (or c is cancelled against t).",
  "all hypergeometric terms, all limits",
  "unbounded ranges",
  "src/gosper.cc: gosper_step_two, gosper_step_three, gosper_step_four, gosper_algorithm")
p("Gosper's algorithm is complete",
  "If the key equation has a polynomial solution, it has degree at most the bound used in step three and step three finds one; the symbolic sum is returned only if no rational multiple of the term is an antidifference.",
  "all polynomials a, b, c; all ratios of coprime polynomials f/g; all candidate rational functions",
  "unbounded degree",
  "src/gosper.cc: gosper_step_three")
p("Closed forms of products",
  "compute_product(k, lower, e) equals prod_{k=lower}^{n} e for every n >= lower.",
  "all supported factors, lower limits, n",
  "unbounded ranges",
  "src/compute_prod.cc: comp_prod, compute_product")
p("Closed forms of sums",
  "compute_sum applied to sum(k,lower,upper,e) returns an expression of the same value.",
  "all lower limits (negative too), upper limits, n",
  "unbounded ranges",
  "src/simplify.cc: split_sum, compute_sum")
p("Polynomial part isolation",
  "isolate_polynomial_part(e,x,p,q) gives e = p + q with p a polynomial in x.",
  "all expressions and valuations",
  "arbitrary expressions",
  "src/util.cc: isolate_polynomial_part")
p("Exponential-polynomial decomposition",
  "exp_poly_decomposition(e) gives distinct bases alpha_i and coefficients with e = sum alpha_i^x (p_i + q_i), p_i polynomial.",
  "all expressions and valuations",
  "arbitrary expressions",
  "src/ep_decomp.cc: exp_poly_decomposition")
p("Factorial decomposition",
  "The decomposition of an expression by factorial factors sums back to the expression.",
  "all expressions and valuations",
  "arbitrary expressions",
  "src/fact_decomp.cc: factorial_decomposition")
p("Common factor extraction",
  "factorize(e) gives common factor and remainder whose product is e.",
  "all sums and valuations",
  "arbitrary expressions",
  "src/factorize.cc: factorize")
p("Numerator and denominator",
  "numerator_denominator_purrs(e,num,den) gives num/den = e whenever den is not zero.",
  "all expressions and valuations",
  "arbitrary expressions",
  "src/numerator_denominator.cc: numerator_denominator_purrs")
p("Big integer to long conversion",
  "Converting factor coefficients of polynomial factorisation to machine integers is exact.",
  "all representable values",
  "2^64 values",
  "src/poly_factor.cc: ZZ_to_long")
p("Roots of rational numbers in standard form",
  "Writing r^(1/k) in standard form, and multiplying two such roots, preserves the value.",
  "all rationals r and orders k",
  "infinite domain",
  "src/simplify.cc: to_std_form, reduce_to_standard_form, red_prod")
p("Perfect powers are recognised",
  "is_perfect_power(c,a,b) answers yes with exponent b exactly when c = a^b.",
  "all natural numbers",
  "unbounded",
  "src/simplify.cc: is_perfect_power")
p("Factorials and binomials are rewritten correctly",
  "Rewriting (a n + b)! and binom(m,k) preserves the value at all n where both sides are defined.",
  "all offsets b, all n",
  "unbounded",
  "src/simplify.cc: decompose_factorial, rewrite_factorials, rewrite_binomials")
p("Logarithm simplifications",
  "Simplification of quotients of logarithms and of powers containing logarithms preserves the value.",
  "all positive bases and numbers of factors",
  "arbitrary products",
  "src/simplify.cc: simpl_quotient_of_logs, prepare_simpl_power_in_logarithm, apply_elementary_prop")
p("Collecting equal bases and exponents",
  "collect_same_base and collect_same_exponents preserve the value of a product of powers with positive bases.",
  "all products",
  "unbounded numbers of factors",
  "src/simplify.cc: collect_same_base, collect_same_exponents")
p("Resultants",
  "The resultant computed vanishes exactly when the two polynomials have a common root; the Euclidean loop computes the same value as the Sylvester determinant.",
  "all polynomial pairs",
  "unbounded degrees",
  "src/util.cc: resultant, sylvester_matrix_resultant")
p("Recurrences defined by a maximum",
  "The exact solution reported for x(n) = max(a x(n-1)+b, c) satisfies the equation for all n.",
  "all a, b, c, initial values, n",
  "unbounded n",
  "src/Recurrence.cc: compute_exact_solution_max")
p("Coinciding bounds give the exact solution",
  "When lower and upper bound of a functional equation coincide, the exact solution reported is that common expression.",
  "all functional equations whose bounds coincide",
  "needs every history of bound computation",
  "src/compute_bounds.cc: approximate_functional_equation")
p("Renaming a symbol on the blackboard is invisible in expansions",
  "After substitute(old, new) on a blackboard every expression still expands to what it expanded to before, up to that renaming, and expansion still terminates.",
  "all histories of definitions and renamings, all expressions",
  "depends on every history of definitions and on which definitions mention which symbols",
  "src/Blackboard.inlines.hh: substitute, src/Blackboard.cc: rewrite, src/Cached_Expr.cc: replace_system_generated_symbols")
p("Recurrence objects own their memory",
  "No history of constructions, copies, assignments, replacements, classifications, uses and destructions of Recurrence objects frees the same structure twice or uses a freed one, and when all objects are destroyed nothing stays allocated.",
  "all histories over any number of objects",
  "ownership mistakes show only in particular interleavings of copies and destructions",
  "src/Recurrence.inlines.hh: copy constructor, operator=, ~Recurrence, src/rr_classifier.cc: classify")
p("Success means a result can be read",
  "When computing an exact solution or a bound reports SUCCESS, reading it does not throw; when the classifier refuses the recurrence the status reported is the one of the refusal.",
  "all states of a Recurrence object, all right-hand sides",
  "depends on which results earlier calls left in the object",
  "src/Recurrence.cc: compute_exact_solution, compute_lower_bound, compute_upper_bound, exact_solution, lower_bound, upper_bound, map_status")
p("The index from which on an expression is defined",
  "When the search for the domain of an expression in n accepts, the index returned is not below the index given, and the expression has a value at every larger integer; for rational functions it is the least index that is at least the given one and every root found; for log(log(n)) the value is not negative from the index on.",
  "all expressions, starting indices and integers after the result",
  "infinitely many integers after the index returned",
  "src/util.cc: find_domain_in_N, find_domain_in_N_on_expanded_ex")
p("Simplifying nested powers keeps the value",
  "Collapsing nested powers and raising products factor by factor keeps the value of the expression for every assignment of the symbols under which it has one.",
  "all nested powers, all assignments",
  "values of symbols range over all numbers; sign conditions matter",
  "src/simplify.cc: simplify_powers, simplify_powers_with_bases_mul, return_power, find_real_base_and_build_exponent, split_exponent, erase_factor, perfect_root")
p("Solutions honour the initial conditions given",
  "After initial conditions have been accepted, the exact solution (or bound) read from the object satisfies the recurrence, takes the given values at the last k indices (k the order), and contains no symbolic initial condition or auxiliary symbol any more.",
  "all orders, coefficients, accepted sets of initial conditions and indices n",
  "every index after the conditions, every accepted set of conditions",
  "src/Recurrence.cc: compute_solution_linear_finite_order_on_i_c, compute_solution_non_linear_finite_order_on_i_c, compute_solution_weighted_average_on_i_c, compute_bound_functional_equation_on_i_c")
p("Simplifying a whole expression keeps its value",
  "Each of the simplifications for input and for output, the one of fractions, and their composition returns an expression that has the value of the argument, for every assignment of the symbols under which the argument has one.",
  "all expressions (any nesting of sums, products, powers, functions and symbolic sums), all assignments",
  "nesting is unbounded and a rule may be applied to a part whose value is negative or zero for some assignment only",
  "src/simplify.cc: simplify_ex_for_input, simplify_ex_for_output, simplify_expanded_ex_for_input, simplify_expanded_ex_for_output, manip_factor, reduce_product, simplify_numer_denom, simplify_all")
p("Recurrences found for hypergeometric sums hold",
  "When coefficients a_0, ..., a_J are found for the term F(m, k), then a_0 F(m, k) + ... + a_J F(m+J, k) is the difference G(k+1) - G(k) of a rational multiple of F, and the sums over k satisfy the recurrence with these coefficients whenever G vanishes at the ends; orders 1 to 9 are tried in turn, and failure means that none of them has a solution.",
  "all hypergeometric terms, all orders, all m and k",
  "an identity for every m and k, and the absence of solutions",
  "src/zeilberger.cc: zeilberger_step_one, parametric_gosper_step_two, parametric_gosper_step_three, zeilberger_for_fixed_order, zeilberger_algorithm")
p("Closed forms of hypergeometric sums are the sums",
  "When the algorithm for definite hypergeometric sums returns a closed form, its value at n is the sum of F(n, k) over all natural numbers k, for every n from the first initial condition on.",
  "all terms with finitely many non-zero values for each n, all n",
  "every n; depends on where the terms vanish",
  "src/zeilberger.cc: zeilberger_for_fixed_order, zeilberger_algorithm")
p("Order reduction keeps the recurrence and its solution",
  "When all x() in a recurrence are x(n - d c), the right-hand side rewritten for the order reduction has at m the value of the original one at d m + r (r = 0, ..., d-1), and a solution of the reduced recurrence, rewritten for the original variable, has at n the value of the reduced one at floor(n/d) with initial conditions x(d k + n mod d): it solves the original recurrence.",
  "all right-hand sides whose x() have decrements with a common divisor d, all d, n and initial conditions",
  "every index and every remainder; n may be anywhere in the right-hand side",
  "src/finite_order.cc: rewrite_factor, rewrite_term, write_reduced_order_recurrence, come_back_to_original_variable; src/Recurrence.cc: apply_order_reduction")
p("The general bounds for functional equations are bounds",
  "For x(n) = a x(n/b) + g(n), when no sharper bound is known for an addend of g, the lower and upper bounds built from the sums of a^(q-k) g(b^k) and a^(q-k) g(b^k - 1) enclose x(n) for every n and every non-negative choice of the initial values; the closed forms used for these sums have their values.",
  "all addends accepted as non-negative and non-decreasing, all positive a, all integers b >= 2, all n and initial values",
  "every n, every g; the bounds are evaluated at log(n)/log(b), between the integers",
  "src/compute_bounds.cc: compute_sum, try_to_compute_sum, compute_poly_or_no_poly, compute_non_homogeneous_part, compute_term_about_initial_condition, approximate_functional_equation")
p("Bounds for non-linear functional equations are bounds",
  "For x(n) = g(n) x(n/b)^a, the lower and upper bounds obtained from the linear equation for the logarithms to base a enclose x(n), for every n and every choice of the initial values that is accepted.",
  "all exponents a, all integers b >= 2, all positive g, all n and initial values",
  "every n and every initial value; the exponent may be below 1 and the logarithms of the initial values may be negative",
  "src/Recurrence.cc: compute_non_linear_recurrence; src/rr_classifier.cc: rewrite_non_linear_recurrence")
p("Factors of a polynomial multiply to it",
  "When a polynomial with integer coefficients is split into factors to find its roots, the product of the factors reported is the polynomial up to a nonzero constant, whatever the size of the coefficients.",
  "all square-free polynomials with integer coefficients, all coefficients of their factors",
  "coefficients of any size; conversions between integer types",
  "src/poly_factor.cc: poly_factor, ZZ_to_long; src/alg_eq_solver.cc: find_roots")
p("Conversion to integer coefficients gives the primitive polynomial",
  "A nonzero polynomial with rational coefficients is converted into the one polynomial with integer coefficients proportional to it that has a positive leading coefficient and coefficients without common factor; the factor returned times it is the original polynomial; the greatest common divisor computed from the conversions is one over the rational numbers.",
  "all polynomials with rational coefficients, of any degree, zero included",
  "all degrees and coefficients; uniqueness and divisibility are statements about all polynomials",
  "src/util.cc: convert_to_integer_polynomial, general_gcd; src/gosper.cc: gosper_step_two")
p("The square-free factorisation keeps the value of the expression",
  "Factorising an expression that contains logarithms, roots, other functions or symbolic powers neither fails nor changes its value: parts that are not polynomial are put back unchanged, the parts hidden do not depend on the unknowns, and only rational expressions are given to the factorisation.",
  "all expressions polynomial in the unknowns listed (all expressions when none is listed), all values of the symbols",
  "every expression and every value of its symbols; the names of new symbols depend on the history",
  "src/Expr.cc: sqrfree, substitute_critical_ex; src/Blackboard.cc: rewrite")
p("Recurrences in several variables",
  "When the driver for multivariate recurrences prints x(k,{v_1,...,v_p}) = e, every function of p integers that satisfies the recurrence has the value of e at every point where the recurrence has been applicable; initial conditions that are inserted do not change values.",
  "all right-hand sides, all numbers of variables, all functions satisfying the recurrence, all points, all initial conditions",
  "functions of several integers and points are infinitely many; the wrong answers need particular argument patterns",
  "tests/multivar_driver.cc: multivar_solve, restore_arity, insert_initial_conditions_recursive, find_terms_with_x")
p("Verification of non-linear recurrences",
  "When verify_exact_solution() answers PROVABLY_CORRECT for a non-linear recurrence whose associated linear recurrence has order at least 1, the solution has the initial values (given, or symbolic) and satisfies the recurrence; when it answers PARTIAL_PROVABLY_CORRECT, the solution obtained from the logarithms is the general solution for positive initial values; x(n) = c x(n-1)^a is declared provably correct without a check, and its solution is right for positive x(0); verification does not break down.",
  "all non-linear recurrences and candidate solutions, all values of the initial conditions, all indices, all sound simplifications",
  "solutions, conditions and indices are infinitely many, and an answer obtained from symbolic simplification concerns all of them at once",
  "src/verify.cc: Recurrence::verify_exact_solution, verify_finite_order, validate_initial_conditions, traditional_step_3;src/Recurrence.inlines.hh: applied_order_reduction")
p("End to end: the solution returned for a linear recurrence with constant coefficients is its solution",
  "When a linear recurrence with constant coefficients is classified and the exact solver returns a solution, then for every choice of initial values there is a sequence with these values that satisfies the recurrence as it was given, and the solution returned has its value at every index from the first valid one on.",
  "every right-hand side classified as linear of finite order with constant coefficients, every values of the parameters with last coefficient nonzero, every first valid index, all initial values and all indices",
  "the claim composes classification, decomposition of the inhomogeneous term, characteristic equation, linear systems and sums over infinitely many inputs; tests check finitely many recurrences at finitely many indices",
  "src/compute_exact_solution.cc: solve_linear_finite_order; src/finite_order.cc: characteristic_equation_and_its_roots; src/rr_classifier.cc: classify_summand; src/ep_decomp.cc: exp_poly_decomposition; src/alg_eq_solver.cc: find_roots")
p("The first valid index marks where the recurrence is defined",
  "When classification of a linear recurrence of finite order k > 0 succeeds, the first valid index z it stores is a non-negative integer such that the inhomogeneous term has a value at every index from z + k on; for first-order recurrences with a variable coefficient the coefficient is moreover defined and different from zero there; for functional equations the index is at least 1 and the coefficients are defined after it; for order 0 it is 0.",
  "every classified recurrence, every index from the first valid index plus the order on, every value of the parameters",
  "the claim ranges over infinitely many indices and all inhomogeneous terms; a test sees finitely many values",
  "src/rr_classifier.cc:1515-1560 Recurrence::classify;src/util.cc:489-582 find_domain_in_N")
p("Classification is cached, rewrites soundly and stores what it reports",
  "classify_and_catch_special_cases answers the same, without changing the recurrence, when called again; never answers 'negative decrement' or 'null decrement'; marks the recurrence as rewritten exactly if decrements were eliminated; the right-hand side it leaves behind has the same solutions as the one given (shifted by the decrements eliminated); and on success the stored order, coefficients, inhomogeneous term and first valid index are those of the stored right-hand side, even after a failed attempt.",
  "all right-hand sides, all sequences of eliminations and retries, all sequences x and indices",
  "the number of eliminations and retries is unbounded and equality of solution sets ranges over all sequences",
  "src/rr_classifier.cc:1615-1683 classify_and_catch_special_cases;src/rr_classifier.cc:1441-1570 classify")
p("First-order linear recurrences with a variable coefficient are solved correctly",
  "For a right-hand side a(n) x(n-1) + p(n) classified as a first-order linear recurrence with variable coefficient whose coefficient is defined and not zero after the first valid index f, the exact solution returned has, at every n >= f, the value of the sequence with the given x(f) that satisfies the recurrence from f+1 on.",
  "every right-hand side classified as linear of order 1 with variable coefficient, every environment, every value of x(f), every n >= f",
  "the coefficients, terms and indices are unbounded; tests see finitely many recurrences and indices",
  "src/compute_exact_solution.cc:solve_variable_coeff_order_1;src/compute_prod.cc:compute_product;src/finite_order.cc")
p("Order reduction gives the sequence",
  "For a linear recurrence with constant coefficients whose decrements have a common divisor d > 1, compute_exact_solution rewrites it as a recurrence of order k/d with the symbol r for mod(n,d), solves that one and comes back to the original variable. The value found at n is that of the sequence with the given k initial values, for every n and whatever the initial values are; without a common divisor the recurrence is solved as it is, with the same result.",
  "all right-hand sides, all environments, all initial values, all n",
  "the claim quantifies over all recurrences, all remainders and all n; tests compare a few values of a few recurrences",
  "src/Recurrence.cc:apply_order_reduction;src/Recurrence.cc:compute_exact_solution_finite_order;src/finite_order.cc:write_reduced_order_recurrence;src/finite_order.cc:come_back_to_original_variable;src/compute_exact_solution.cc:solve_linear_finite_order")
p("Solutions of weighted-average recurrences end to end",
  "For a weighted-average recurrence x(n) = f(n) sum(k,lo,n-1,x(k)) + g(n) (or with upper limit n and a weight other than 1) that compute_exact_solution solves, the answer is the sequence: for every value of x(lo), the expression returned has the value of the sequence at every index beyond lo, given that the solution of the associated first order recurrence is right.",
  "all right-hand sides, all lower limits, all environments, all values of x(lo), all n > lo",
  "the claim quantifies over all recurrences, all initial values and all n; tests check one index of a few recurrences",
  "src/Recurrence.cc:compute_weighted_average_recurrence;src/rr_classifier.cc:rewrite_weighted_average_recurrence")
p("Predicates and set operations of intervals",
  "For well formed intervals of the interval library, is_empty, && with a value, &= and |= are emptiness, membership, intersection and hull; subset, subset_eq and == are the relations between the sets of values; the three-valued comparisons answer ALWAYS exactly if the relation holds between all values of the two intervals and NEVER exactly if it holds between none (for == and !=, the answer NEVER, resp. ALWAYS, is right when given).",
  "all intervals with boundaries that are open, closed or infinite, of reals and of integers, all values",
  "the claim is about sets of real numbers and all pairs of intervals; tests check a few literals",
  "src/Intervals/Interval.inlines.hh: is_empty, subset, subset_eq, ==, lt, gt, le, ge, eq, ne, &=, |=, &&; src/Intervals/Boundary.inlines.hh: comparisons; src/Bool3.inlines.hh")
p("Inclusion of interval arithmetic",
  "With directed rounding (or a unit that marks inexact results), if a is a value of the interval x and b one of y, then a + b, a - b, a * b, a / b (b not 0), -a, |a|, a * a, exp a, sqrt a, log a, floor, ceiling and truncation of a, quotient and remainder, min and max are values of the interval the corresponding operation gives; so an expression evaluated over intervals contains all its values.",
  "all intervals, all values in them, all arithmetic units that round in the right direction, all expressions",
  "the claim quantifies over real numbers and all intervals; tests check a few literals",
  "src/Intervals/Interval.cc: *=, /=; src/Intervals/Interval.inlines.hh: +=, -=, *=, /=, negate, abs_assign, sqr_assign, sqrt_assign, exp_assign, log_assign, floor_assign, ceil_assign, integer_assign, div_assign, mod_assign, min_assign, max_assign; src/Intervals/Boundary.inlines.hh: +=, -=, *=, /=, floor_assign, ceil_assign, exp_assign")
p("Empty intervals are recognised",
  "The constructor, the intersection and the hull give well formed intervals: with values, and boundaries that are integers if they are intervals of integers, or the one empty interval. Operations on the empty interval give an interval that ok() and is_empty() accept and that has no values.",
  "all intervals, all arithmetic units",
  "the claim quantifies over all intervals; tests check a few literals",
  "src/Intervals/Interval.inlines.hh: Interval(LBoundary, UBoundary, Type), set_integer, set_maybe_real, set_empty, is_empty, ok, &=, |=, negate, exp_assign")
p("Widening and narrowing",
  "Widening gives an interval that contains the given one, and a sequence of intervals in which each one is the widening of an interval that contains its predecessor stops after a bounded number of steps; narrowing gives an interval between the new and the old one, and a sequence of narrowings stops after a bounded number of steps.",
  "all intervals, all infinite sequences of intervals",
  "termination quantifies over infinite sequences; tests check single steps",
  "src/Intervals/Interval.cc: widen_assign, narrow_assign, widen_stop_points; src/Intervals/Boundary.inlines.hh: set_gt, set_lt")
p("contains_multiple",
  "contains_multiple(offset, period) returns true if there is an integer k such that offset + k * period is between the boundaries of the interval, and, if the quotients are computed exactly, only then.",
  "all intervals, all offsets and periods, all arithmetic units that round in the right direction",
  "the claim quantifies over all intervals and all integers k; tests check a few literals",
  "src/Intervals/Interval.cc: contains_multiple; src/Intervals/Boundary.inlines.hh: floor_assign, is_integer")
p("MathML output is well-formed",
  "For every expression, Expr::mathml_output writes one well-formed XML document whose root is the math element: all elements are nested and closed, and the text contains no markup characters.",
  "all expressions (any nesting, any number of operands, any class of GiNaC object), all texts of numbers and names",
  "the nesting depends on the shape of the whole expression; tests look at a few outputs",
  "src/Expr.cc: mathml_print, Expr::mathml_output;src/Expr.defs.hh: mathml_output")
p("MathML output is MathML",
  "The document written by Expr::mathml_output is presentation MathML: text occurs only within mi, mn and mo, and these contain nothing but text; every msup and mfrac has exactly two children.",
  "all expressions",
  "a renderer that tolerates the tests need not tolerate other expressions; the number of children depends on the expression",
  "src/Expr.cc: mathml_print")
p("MathML output can be read back",
  "Two different expressions have different MathML output, also when blanks and line breaks are ignored: no expression is shown in a way that stands for another one.",
  "all pairs of expressions",
  "injectivity speaks about all pairs of expressions",
  "src/Expr.cc: mathml_print")
p("Numerator over denominator",
  "numerator(e) divided by denominator(e), and transform_in_single_fraction(e), have the value of e wherever e has a value, and the denominator is not zero there.",
  "all expressions, all values of the symbols",
  "values at every point cannot be tested",
  "src/numerator_denominator.cc: numerator, denominator, transform_in_single_fraction")
p("Values over an interval",
  "Asking for the exact solution or a bound over [begin, end) writes, in order, exactly what the single calls at begin, begin+1, ... return, one value for each number of the interval, each the initial condition given there or the value of the formula; a backwards interval and a begin outside the domain are refused with nothing written.",
  "all recurrence objects, kinds (solution, lower, upper bound), rational ends, sets of initial conditions",
  "tests evaluate a few intervals of fixed recurrences; the number of calls, their order and the state of the object between them depend on the ends and on the object",
  "src/Recurrence.inlines.hh: evaluate_exact_solution, evaluate_lower_bound, evaluate_upper_bound (begin, end, oi);src/Recurrence.defs.hh: their documentation")
p("Powers of differences are rewritten through the characteristic equation",
  "Replacing the negative powers of lambda - alpha by powers of (lambda + alpha - c)/(-alpha^2 + alpha c + d) keeps the value of every expression whenever lambda is a root of v^2 = c v + d and alpha is not.",
  "all expressions, coefficients c and d, values of the symbols, and interpretations of the functions",
  "the rewriting descends through every constructor and two spellings of the difference; tests only see the final solutions of a few recurrences",
  "src/compute_exact_solution.cc: substitute_pwr_diff_symbols, solve_constant_coeff_order_2")
p("Classified recurrences have their structures, and OK() agrees",
  "After any history of constructions, copies, assignments, replacements and classifications, a recurrence classified with success has the structure that the accessors of its type read, and OK() accepts it.",
  "all histories of calls on any number of recurrence objects and all decisions of the classifier",
  "the pointers depend on the order in which the summands are classified, on rewritings and on earlier classifications of the same object; tests classify fresh objects and never call OK()",
  "src/Recurrence.cc: OK;src/rr_classifier.cc: classification_summand, classify, classify_and_catch_special_cases;src/Recurrence.inlines.hh: constructors, copies, replace_recurrence, set_...")
p("Cosine, sine and tangent of intervals",
  "If a is a value of the interval x, then cos a, sin a and tan a (a not a pole) are values of the intervals cos_assign, sin_assign and tan_assign give, and the values of the first two are between -1 and 1.",
  "all intervals (open, closed, infinite), all values in them, all correctly rounding arithmetic units, all numbers standing for pi",
  "the claim quantifies over real numbers, and depends on where the extrema are with respect to the boundaries",
  "src/Intervals/Interval.cc: cos_assign, sin_assign, tan_assign, contains_multiple;src/Intervals/Boundary.inlines.hh: cos_assign, sin_assign, tan_assign")
p("The power of an interval encloses the powers of its values",
  "For intervals x and y and a power function of the C library that rounds in the direction asked for, pow(x, y) has every real number a^b with a in x and b in y in three cases: y has more than one value; y is one natural number; y is one number that is not an integer and x is not marked as an interval of integers (and, for a negative exponent, does not start at 0). Outside these cases values are lost, for every arithmetic unit: [1..2]^-1 does not have 1/2 (a negative integer exponent does not exchange the boundaries), (0..1]^(-1/2) comes out without values, and [2..2]^(1/2) stays marked as an interval of integers.",
  "all pairs of well formed intervals (closed, open, unbounded, on either side of 0 and 1), all arithmetic units with directed rounding, all pairs of values",
  "enclosure is a statement about all pairs of real numbers in two intervals and every rounding unit; tests compute a few powers with the rounding of one machine",
  "src/Intervals/Interval.cc: Interval::pow_assign;src/Intervals/Boundary.inlines.hh: LBoundary::pow_assign, UBoundary::pow_assign")
p("The first step of Gosper's and Zeilberger's algorithms computes the right ratios",
  "When the first step of Gosper's algorithm accepts t(m), the expression it returns has the value t(m+1)/t(m) wherever t is defined and not zero, and that ratio is a quotient of two polynomials in m. When the first step of Zeilberger's algorithm accepts F(m,k), the three expressions it returns satisfy t(k+1)/t(k) = p(k+1)/p(k) * r(k)/s(k) for t(k) = a_0 F(m,k) + ... + a_J F(m+J,k), for any number of coefficients; an accepted F is a hypergeometric term, both ratios being rational functions of both m and k.",
  "all terms F and t, all symbols, any number of coefficients, all values of the symbols where the term is defined and not zero",
  "the identity has to hold for every term, every number of coefficients and every value of the symbols",
  "src/gosper.cc:gosper_step_one;src/zeilberger.cc:zeilberger_step_one;src/Expr.cc:Expr::is_rational_function")
p("The non-homogeneous part computed from the fundamental solution is right",
  "For a linear recurrence of order two or more with constant coefficients whose inhomogeneous term p(n) is a sum of polynomials times exponentials, the closed form computed from the fundamental solution g (Newton-form sums for every pair of a base and a root, with the bases that coincide with a root treated apart) is the sum of g(n-h) p(h) for h from the first valid index plus the order up to n, so that together with the part coming from the initial conditions it solves the recurrence. This holds for any number of bases and roots, whatever the order in which the exponentials of g are listed, for simple roots and any first valid index, and for multiple roots when the first valid index is 0; for multiple roots and another first valid index it does not.",
  "all fields of characteristic zero, all orders, all lists of roots, all lists of bases and polynomials, all first valid indices and all n from there on",
  "tests try a few orders, bases and roots; the pairing of coefficients with roots and bases and the behaviour for every n are a statement about all of them",
  "src/finite_order.cc: compute_symbolic_sum, subs_to_sum_roots_and_bases, prepare_for_symbolic_sum, compute_non_homogeneous_part;src/compute_exact_solution.cc: solve_constant_coeff_order_2, solve_constant_coeff_order_k")
p("What the searches in an expression find",
  "The tests whether an expression contains a symbolic sum or product, a function x, a symbol, or a function x with a symbol in its argument answer yes exactly when such a subexpression occurs at any depth; the largest index of the constants x(i) of an expression is the largest i among the x(i) outside arguments of x or the given lower value, and an exception is raised only when an index exceeds INT_MAX; an expression accepted as polynomial with rational coefficients is a polynomial in the symbol and has rational values at rational points (refuted for symbolic exponents: (-1)^x is accepted).",
  "all expressions, symbols and start values between 0 and INT_MAX",
  "The statements are about every expression of any depth; tests cover a few shapes.",
  "src/Expr.cc: Expr::has_sum_or_prod_function;src/Expr.cc: Expr::is_rational_polynomial;src/Expr.cc: Expr::has_x_function;src/Recurrence.cc: get_max_index_symbolic_i_c;src/Number.inlines.hh: Number::to_unsigned_int")
p("The factorisation returned through giac keeps the value",
  "The two expressions returned for giac's factorisation of an expression have, as their product, the value of giac's result for every value of the symbols, and translating any tree of giac whose integers fit in an int and whose sums and products have vectors of operands succeeds with an expression of the same value; the numeric part does not depend on the symbols (refuted when an inverse such as 1/n is among the factors: it is counted as numeric); a product or sum with one operand outside a vector is lost (refuted).",
  "all trees of giac, all values of the symbols, all interpretations of functions and all value-preserving multiplications of giac",
  "Trees are of any depth and size, and giac's choice of factors is not under the tests' control.",
  "src/factorize_giac.cc: factorize_giac_recursive;src/factorize_giac.cc: translate;src/factorize_giac.cc: factorize_giac")
p("Replacing the arguments of x keeps the meaning of a right-hand side",
  "Adding a number to the argument of every x in an expression gives an expression whose value, for any sequence, is that of the original for the shifted sequence, when no x occurs within an argument of x (refuted otherwise: x(x(n)) becomes x(x(n) + num)); replacing a symbol by an expression in the arguments of x only gives, when the symbol occurs nowhere else, the value for the replaced symbol (refuted otherwise), and leaves the value of an expression without x unchanged.",
  "all expressions, sequences, shifts, symbols and replacements, all values of the symbols",
  "The claim is about every sequence and every nesting of sums, powers, functions and symbolic sums.",
  "src/Recurrence.cc: increase_argument_x_function;src/rr_classifier.cc: change_variable_function_x")
with open("properties.jsonl","w") as f:
    for x in P: f.write(json.dumps(x)+"\n")
print(len(P))
