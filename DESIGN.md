# Formal model of PURRS (aprove-developers/LoAT-purrs) in Coq 8.16

## Method

* The C++ code under /repo/src is read as text and re-written function by function as total,
  computable Gallina definitions (`rocq/theories/*Model.v`).  Each definition cites file and lines.
* Loops become structural recursion or recursion on explicit fuel; exhaustion of the fuel is a
  distinct outcome and the theorems show it is not reached (or state the exact guard).
* `assert` failure, undefined behaviour and exceptions are distinct outcomes of the models.
* Specifications (`*Spec.v` or the top of the property files) do not use the helpers of the model:
  plain sums, products, divisibility, satisfaction of a recurrence by a sequence, etc.
* The files `*Props.v` contain only the property theorems, each closed by `exact lemma`, with
  `Print Assumptions` beneath it and an `Example` showing that its hypotheses are met by a
  non-trivial case.
* If the faithful model violates the English property, a theorem with suffix `_refuted` exhibits a
  witness computed by the model, and the strongest guarded version of the property that does hold is
  proved next to it.

## Trusted base

* Coq's kernel (8.16.1) incl. its VM; the OCaml runtime.
* What `Print Assumptions` lists: nothing ("Closed under the global context") for the theorems over
  Z, Q, lists and Booleans; for those over the standard library's real numbers the axioms
  `ClassicalDedekindReals.sig_forall_dec`, `ClassicalDedekindReals.sig_not_dec` and
  `FunctionalExtensionality.functional_extensionality_dep` (and, where `Classical` is used,
  `Classical_Prop.classic`).  All are standard-library axioms.
* mathcomp (ssreflect, algebra, fingroup) is used in the files `Gosper*`, `Res*` and `PolyRing`; it adds no
  axioms: these theorems are closed under the global context.
* ASSUMPTIONS.md (generated by tools/assumptions.py) lists the axioms theorem by theorem.
* Faithfulness of the reading of the C++ sources.
* GiNaC (arithmetic of `numeric`, canonicalisation of `add`/`mul`/`power`, `gcd`, `sqrfree`,
  `expand`, `normal`, linear solving), NTL/giac factorisation and GMP are not modelled: their
  results are values (exact numbers or expressions denoting values).  Where a function of PURRS
  consumes such a result the model takes it as a parameter with its documented contract as a
  hypothesis of the theorem.

## Plan per property

| id | what is modelled | how it is proved |
|----|------------------|------------------|
| C01 | the six functions on an enum of three values | sets of possible Booleans, finite case analysis |
| C02 | the while loop with truncated `%` (Z.rem) and 32-bit UB outcome | well-founded induction on \|m\|, Z.gcd |
| C03 | the two loops on Z with fuel | invariant product*m=\|n\|, coprimality/primality |
| C04 | the loop, vector as list | exhaustive computation below 121 lifted to all n |
| C05 | falling products, coefficient lists over Q, closed forms as functions of n | induction on n, telescoping |
| C06 | value of returned expression over R | induction on n; sin refuted |
| C07/C08/C10 | blackboard as a record (definitions, index map, timestamps) with history fold | invariant over all histories; find_symbol refuted |
| C09 | name function on strings | injectivity by decimal representation |
| C11-C17 | expression trees with a real-valued semantics | structural induction |
| C18-C20 | Recurrence object as a state machine | invariants over histories; refutations |
| C21-C27 | solver formulas as functions on sequences over a field | induction on n |
| C28-C30 | bound formulas over R | strong induction on n |
| C31-C34 | verification procedures with an abstract zero test | soundness of induction |
| C35-C39 | root formulas over R/C, integer polynomials as lists | ring/field identities, Gauss-type argument |
| C40-C42 | right hand sides as linear forms in x(n-d) with function coefficients | equivalence of solution sets |
| C43, C44 | Gosper's steps two to four on mathcomp polynomials over the rationals | gcd and shift algebra, degree argument, telescoping, maximal dispersion argument |
| C45, C46 | products and sums as functions | telescoping |
| C47-C51 | decompositions on expression trees | structural induction with value semantics |
| C52 | byte loop with C int shifts | arithmetic on Z |
| C53-C57 | simplification kernels | value semantics |
| C58 | Sylvester matrix and Euclidean loop over any field | determinants of lists of rows; refutation + guarded theorem |
| C59, C60 | formulas/state updates | refutation + guarded theorem |
| C61-C63 | blackboard and Recurrence objects as state machines | invariants over histories |
| C64 | the recursive domain search on expression trees | structural induction with value semantics; refutations |
| C66 | solutions as functions of the symbolic conditions, lsolve by contract (instance: Gaussian elimination) | uniqueness forwards and backwards along the recurrence; refutations |
| C67 | drivers as fuelled recursions that record each rule application (with the summation variables it is below); rules by the models of C53, C57, C65; simplify_all composes the models of C51, C55, C46, C56 | induction on the fuel: the value is kept if every recorded application is valid; a boolean sufficient test; refutations for roots of squares, lost signs |
| C68 | polynomials in k over any field; ratios of step one given; gcd, fractions, lsolve by contract | ratio invariant of the loop over h; linear system = key equation (enough equations); telescoping; refutations (dispersion, degree) |
| C69 | recurrence and initial conditions as equations for sequences | induction along the recurrence; refutations (sum cut at 10, boundary terms), with the runs for binomial coefficients |
| C70 | the two rewritings on expression trees | simultaneous evaluation of both sides at n = d m + r; refutations (n in a sum below a power or function is not rewritten) |
| C71 | addends as functions of n; decomposition and summation by contract | induction along n -> n/b encloses the contribution of g; invariant over the loops (what is added is on the right side); refutations (a power c^n forgotten, a < 1, condition above 1) |
| C72 | values in place of expressions; the associated linear bound is that of C28/C29 | the logarithms solve the linear equation; a^y is monotone in y; refutations (a < 1, an initial value below 1) |
| C73 | bytes, shifts and wrap-around on Z, for 32- and 64-bit long; NTL's factor by contract | induction over the bytes gives the exact result of the conversion; refutations (64 bits: shift of an int by 48; 32 bits: one byte dropped) |
| C74 | mathcomp polynomials over rat and int; GiNaC's gcd by contract (a greatest common divisor in Z[x]) | every denominator divides the lcm; Gauss's lemma for contents; uniqueness of the primitive polynomial; C43 with these functions |
| C75 | substitute_critical_ex and sqrfree on expressions with the blackboard of C07; GiNaC::sqrfree by contract on rational expressions | invariant of the dictionary (flat, fresh names, defined values), extended valuation, expansion of rational expressions; a repeated part gets two symbols: refuted |
| C76 | multivar_solve with its dummy analysis, the three reductions to one variable, restore_arity and the insertion of initial conditions; the one-variable solver by contract | substitution of equal values, invariant of the walk over the operands; one true variable and one condition without capture: partial; number arguments, variable outside x(), constant difference and sum, x(.) below powers, two conditions, capture: refuted |
| C77 | verify_exact_solution's choice of method, verify_finite_order on non-linear recurrences, composition with the rewriting by logarithms (C27) and with the verification of the linear recurrence (C31) | the residual at every index is the difference of the values; the linear verification in partial mode never answers PROVABLY_CORRECT; decrements with gcd 1 and first valid index 0 in the PARTIAL case: partial; call of a function for linear recurrences: refuted |
| C78 | solve_linear_finite_order from the classified recurrence: order zero, order one, several, with and without non-polynomial parts; characteristic equation and roots | composition of C42 (classification), C48 (decomposition), C21/C23 (solvers), C38 (roots) over a field containing the real numbers; uniqueness by induction; x(n) = -2x(n-1) - 3x(n-2) - 4x(n-3) - 2x(n-4) refutes it without the restriction on pure powers |
| C79 | the last part of classify(): first valid index from find_domain_in_N (DrvModel) | on top of C64: partial for tame denominators; refuted for undefined numerators (log(n-2)) and for coefficients of order >= 2 |
| C80 | classify_and_catch_special_cases as a state machine with loop, recursion, cache and a log of the steps (DrvModel) | induction on the fuel; a simulation shows that classifying again with a left-over type never succeeds where a fresh one fails; steps composed from C40 and C41; every failure is traced to a classification that reported it |
| C81 | the expressions built by solve_variable_coeff_order_1 (product factor, divided inhomogeneous term) on top of the classification, compute_product and the decomposition | C79's condition on the coefficient gives the factors of C45, whose product gives C22; uniqueness of the solution; a refutation: x(n) = 2^n x(n-1) + 1/(n-1), whose first valid index is 1 |
| C82 | classification, rewriting of the recurrence (C70), reduced coefficients (C24), solver (C78) and the way back put together; the dispatch on gcd_among_decrements | every d-th value of the true sequence solves the reduced recurrence; uniqueness. Coefficients at indices that are no multiples of d are shown to be 0 by evaluating the rewritten right-hand side at a sequence with one nonzero value. Refuted for n inside a sum in a denominator; first valid index > 0: see C24 ; the result for an arbitrary first valid index f is C82_first_index_partial |
| C83 | compute_weighted_average_recurrence on expressions: the special case of weight -1, the shift of the solution of the first order recurrence, the replacement of x(0); with the classification of C26 | the shifted sequence solves the associated first order recurrence; replacing x(0) changes the sequence that x() stands for (induction on expressions). Refuted: weight -1 with a positive lower limit (shifted inhomogeneous term), weight -1 at the index 1, associated recurrence whose first valid index is not 0 |
| C84 | the boundaries (value, open/closed flag) and intervals of src/Intervals (not built by default: SUBDIRS is empty in src/Makefile.am); a floating point number is a rational with a sign bit for 0, an infinity or a NaN | a real number is above, below a boundary; order of boundaries = inclusion of half lines; integers between boundaries by floor and ceiling |
| C85 | the arithmetic unit is a parameter: what it gives for an exact result when rounding for a lower or an upper boundary, and whether the boundary becomes open (USE_DIRECTED_ROUNDING, CHECK_INEXACT_RESULT) | a boundary operation gives a bound of the exact result (one lemma for both directions); the sign cases of * and / by real arithmetic; induction on expressions. Refuted: squares of negative intervals (the upper boundary is multiplied by the new lower one), intervals of integers that contain 0 as divisors, zeros of the wrong sign, min and max of a real and an integer interval, a unit without directed rounding; IvlTight*: the sum and the difference of two intervals contain no value that is not a sum or difference of members |
| C86 | as C84 | case analysis; refuted for operations on the empty interval (negate, * 0, +, exp) and for open integer intervals beyond BOUNDARY_MAX_FRACT |
| C87 | widen_assign, narrow_assign with the stop points | every changing step decreases the number of stop points beyond the boundaries. Refuted for widening of intervals of integers beyond BOUNDARY_MAX_ODD (set_gt, set_lt leave the boundary) |
| C88 | contains_multiple | the quotients of the boundaries bound k; floor of the lower one < k. Refuted for negative periods |
| C89 | mathml_print as a string function on GiNaC's view of an expression | a list of XML elements whose text is the output, by induction; refuted for names with markup (not escaped) by counting brackets |
| C90 | as C89 | the elements built are MathML; refuted for floating point numbers and constants with a reader that accepts text in tokens only |
| C91 | as C89 | the output of an operand determines the operand and where it ends (prefix code), by induction; refuted when a symbol has the name of a function |
| C92 | numerator, denominator, transform_in_single_fraction | composition of the distribution (C17), C50 and C51 |
| C93 | the three range versions of evaluate_... on top of the state machine of RecModel | induction on the number of steps (ceiling of end - begin); reading twice gives the same answer (renaming is idempotent); refuted: an interval without numbers throws nothing even when nothing was computed, and a begin inside the domain is not enough |
| C94 | substitute_pwr_diff_symbols and the expression it substitutes | structural induction; (l-a)(l+a-c) = -a^2+ac+d at a root l; refuted when alpha is only different from lambda: the other root |
| C95 | type, status and null pointers of the objects along histories; the classifier is an arbitrary sequence of decisions and runs | invariant over histories, by induction; refuted: OK() rejects every recurrence of order zero (missing break) and objects refused after a first decision; the default constructor leaves no structure; an exception inside the classification leaves a half classified object | 
| C96 | cos_assign, sin_assign, tan_assign with directed rounding; the values of the C library are a parameter (correctly rounded, marked if inexact), the number for pi/2 another | monotonicity of the real functions between two extrema, case analysis on the swap of the boundaries; refuted: without the inexact flag a value is lost; any number for pi misses a minimum of some interval |
| C97 | Interval::pow_assign with the two Boundary::pow_assign; the C function pow is a parameter with directed rounding and the limits of the C standard | monotony of the power in the base and in the exponent on both sides of 1 and of 0, side by side for lower and upper boundaries; odd powers by induction; closedness followed through; refutations for every unit |
| C98 | gosper_step_one, zeilberger_step_one and is_rational_function over abstract simplifiers that keep values where they are used (fine_quotient) | the ratio through the values of substitution (shift of a symbol); p_0 by induction on the number of coefficients with products of ratios; the acceptance of (-1)^(m*k), whose ratio in k is not rational in m, is proved as a refutation (alternating signs are not the values of a quotient of polynomials) |
| C99 | the four functions on values, entries of the two vectors as functions of alpha, lambda and n; access past the end of a vector is None | every pair of base and root contributes its convolution sum (C05); double sum exchanged, terms above n vanish since g(-1) = ... = g(1-k) = 0; C23 for the fundamental solution. Multiple roots: index 0 proved, others refuted. Only reached from the branches of solve_constant_coeff_order_2/k for polynomial-exponential terms, which today's caller sends to the new method instead |
| C100 | structural searches; symbols as subexpression relation | induction on expressions, both directions against an inductive relation of occurrence; the maximum by composing passes that preserve 'upper bound and attained'; polynomials as C15; (-1)^x refutes the unrestricted claim |
| C101 | giac's trees with values; its multiplication and the function table are parameters | induction on trees; splitting preserves the product; 1/n refutes the claim on the numeric part, a product outside a vector the translation; the translation to giac and the factorisation itself are not modelled |
| C102 | one traversal with the new argument as a parameter; sequences as interpretations of x | induction on expressions between two interpretations; C16 for the replacement in arguments; counterexamples x(x(n)) and n |
| C65 | power rules on expression trees, GiNaC's constructors as parameters | value semantics, two modes (positive bases, integer exponents); refutations |

## What is modelled, and what is left out

General conventions. Numbers: GiNaC's exact rationals are Qc or Z (no overflow), reals are the standard library's
R, complex numbers are pairs (CplxF); fields are an interface (Fld) with instances R, Qc and C, or mathcomp's
`fieldType`. Expressions are trees (Ast) with a partial real-valued semantics `eval` (`None` = no value: division by
zero, logarithm of a non-positive number, even root of a negative number, a pole). GiNaC's automatic
canonicalisation is a parameter (`ginac`, contract `ginac_ok`: values are preserved); the concrete instances G0, G1,
Gc, Gi, Gk in the Props files show that the contract can be met. Assertion failures, exceptions, out-of-bounds
accesses and exhausted fuel are distinct outcomes.

| files | C++ source | abstracted or left out |
|-------|------------|------------------------|
| Bool3 | Bool3.* | nothing |
| IntUtil | util.cc number functions, factor loops | machine ints of gcd as Z with an overflow outcome; trial division limit as in the code |
| SumPoly | sum_poly.cc | coefficient lists; the returned expression is its value as a function of n |
| Trig | sum_poly.cc trigonometric sums | real values; `diff` is Derive_n; a pole is `None` |
| Solver, OrderRed, SeqSpec, GenSol, LinSolve | compute_exact_solution.cc, finite_order.cc | roots and their multiplicities are given (contract: they are the roots); linear systems are solved exactly; expressions are their values |
| Expr, Ast | Expr.cc predicates, substitution | GiNaC's canonical order is a parameter |
| Blackboard, Names | Blackboard.*, size_norm*, Cached_Expr.cc and Symbol.cc names | ex-substitution as replacement of symbols; histories of calls are lists |
| NumForm | simplify.cc and poly_factor.cc number kernels | C `int` shifts on Z |
| Rec, RecMem | Recurrence.* state machine, copy/assignment/destruction | the solver is an abstract engine with a contract; heap cells as a map; exception points at every allocation |
| Decomp, Fact, NumDen | ep_decomp.cc, fact_decomp.cc, factorize.cc, numerator_denominator.cc, util.cc | `simplify`, `prep`, `num_den` are parameters that preserve the value; re-splitting hypotheses are stated |
| Max | Recurrence.cc linear infinite order | the auxiliary recurrence's solution is a contract (`aux_rec`) |
| WAvg | weighted-average recurrences: rr_classifier.cc, Recurrence.cc, verify.cc | simplifier and zero test are parameters (`solver_ok`) |
| NonLin | non-linear recurrences: rr_classifier.cc, Recurrence.cc, util.cc | `simp_in`/`simp_log` parameters; negative factors, auxiliary symbols, x(n/d)^a and the functional type-0 result (SUCCESS with 0) are not modelled |
| Elim | rr_classifier.cc eliminations | expand/collect are value-preserving parameters; unbounded integers; `no_new_binders` |
| Class | rr_classifier.cc (linear part) | pre-simplification, domain checks; outcomes of the non-linear and weighted classifiers; `has_non_rational_numbers` is false |
| WClass | rr_classifier.cc (weighted average, infinite order) | simplify_input/simplify_all/expand/domain are parameters; `degree_in` models is_polynomial/degree; `unit_clash`, `term_of` are hypotheses |
| Root, FindRoot, Nested, RatRoot, Search, PolyMore | alg_eq_solver.cc | values instead of expressions; principal roots; sqrfree and poly_factor have contracts; fuel |
| FuncEq | compute_bounds.cc | integer divisor; exact comparison; gamma branch not modelled, fallback sums: see GenBnd; non-negative initial values (Recurrence.cc:199-238) |
| Mono | functional_equation.cc | find_domain_in_N and the simplified difference are parameters |
| Verify | verify.cc (exact solutions) | real values; simplifiers preserve values and freedom from x; non-linear case and the verdict on the reduced recurrence are parameters; an assertion failure or out-of-bounds access is `Broken` |
| BoundV | verify.cc (bounds) | simplifiers are parameters; validation of initial conditions not called; `n_survives` |
| Prod | compute_prod.cc | is_polynomial, content/primpart, numden, expand, factorize, simplify, sum_poly_times_exponentials have contracts; factorial of a non-natural number throws; h is a fresh symbol |
| SumSimp | simplify.cc sums | sum_pe/gosper/expand/simplify have contracts (`sums_powers`, `telescopes`); GiNaC symbols are unique |
| FactRw | simplify.cc factorials, binomials, exponentials | expand is a parameter; rational numbers only: complex results are a symbol I |
| Collect | simplify.cc collection of bases and exponents | vectors as one list of pairs; simplify_numer_denom is a parameter; guard `absorbs_single` |
| Log | simplify.cc logarithms | numer/denom/simplify_powers are parameters; canon = GiNaC's order of factors; assertions = `None` |
| Gosper, PolyRing | gosper.cc steps two to four and the driver | rational coefficients only (no parameters in t); the ratio f/g of step one is given with f, g coprime; general_gcd, convert_to_integer_polynomial, find_divisors and lsolve have contracts; term values in any field containing the rationals; unknowns left free by lsolve have any value; the dead loop gosper.cc:114-121 |
| Dom | util.cc:446-573 | numerator, denominator, expand and the root finder are parameters; root sets as given by find_roots |
| Pow | simplify.cc:72-291 | values are real; the numeric part of an exponent is rational; exponents that are numbers are multiplied as numbers |
| SimpDrv | simplify.cc:728-1032, 1962-2049 drivers | results with the imaginary unit, failed assertions and lack of fuel are `None`; expand and the inner simplify_numer_denom are parameters; the first argument of sum/prod stays as it is |
| Cond | Recurrence.cc:877-1080 | expressions are their values; lsolve has a contract; final simplifications left out; real positive values for non-linear recurrences |
| Zeil | zeilberger.cc | coefficients in any field (rational functions of m, or numbers for a fixed m); ratios given, simplifications left out; gcd, numerator_denominator and lsolve have contracts; unknowns left free get the value 1; the recurrence solver is replaced by its equation |
| OrdRw | finite_order.cc 120-168, 625-660, 685-743 | GiNaC constructors as parameters; a sum or product whose index is n or r is rejected; the reduced recurrence is solved by hypothesis (the coefficients are modelled in OrderRed) |
| GenBnd | compute_bounds.cc 534-979 | values in place of expressions; exp_poly_decomposition, sum_poly_times_exponentials, Gosper and the test for non-negative, non-decreasing addends by contract; a symbolic sum with a real upper limit goes to its floor; the branch with the Gamma function is an unknown outcome |
| NonBnd | Recurrence.cc 583-634, rr_classifier.cc 749-782 | values in place of expressions; the simplifications keep the value; no auxiliary symbols; fallback sums of GenBnd not composed |
| PFac | poly_factor.cc | coefficient lists; NTL by contract; a failed assertion and undefined behaviour are one outcome; no floating point |
| IPol | util.cc 75-80, 276-311 | primpart as division by content and sign; GiNaC's integer gcd by contract; coefficients without parameters |
| Sqr | Expr.cc 628-717 | names of new symbols and GiNaC::sqrfree by contract; failed assertions as undefined outcome |
| Multi | tests/multivar_driver.cc 781-804, 849-890, 926-1242 | argument lists are arguments of one function; operator== on sums and differences and the one-variable solver are parameters; parsing and printing left out |
| NLVer | src/verify.cc 117-165, 715-1016 (non-linear), 1280-1326 | simplifications are parameters assumed to preserve values; GiNaC's exception for a negative power of zero is left out |
| CSol | compute_exact_solution.cc:752-1114, finite_order.cc:177-214 | expressions free of n are their values in a field; the square-free form of the characteristic polynomial is given; final simplifications omitted (C11–C17, C67) |
| Drv | rr_classifier.cc:1441-1683 | the simplifications at the start of classify() are one parameter; non-linear and weighted-average classification are parameters; the type left by a failed classification is arbitrary |
| VSol* | compute_exact_solution.cc:193-223 | the sum and the symbolic parts by their values (SolverModel); simplify_binomials_factorials_exponentials a parameter that keeps values |
| RSol* | Recurrence.cc:420-473, 1140-1163 | expressions free of n by their values; no initial conditions set (the expanded form is in OrderRedModel); blackboards not modelled |
| WSol* | Recurrence.cc:698-743 | the solution of the associated recurrence is a parameter (C81, C78 are about it); no bound variable n in the expressions built |
| Ivl* | Intervals/Boundary.inlines.hh:37-165 (parameter), 180-847; Intervals/Interval.inlines.hh:34-444, 493-880; Intervals/Interval.cc:36-52, 349-682 | IEEE_NUMBERS undefined, as by default; floating point numbers are rationals, the unit is a parameter; input, output, pow_assign, sin, cos, tan not modelled |
| Mml* | Expr.cc:1258-1335 | GiNaC objects as trees with the text printed by operator<<; endl is the newline character |
| Frac* | numerator_denominator.cc:388-431 | expand and sqrfree, numer_denom as parameters |
| Rng | Recurrence.inlines.hh:197-254 | the output iterator is a list; the loop has fuel, shown sufficient |
| Pwd | compute_exact_solution.cc:229-276, 487-493 | GiNaC constructors as in Ast; the expansion that follows and the disabled elimination of powers of lambda (494-541) are not modelled |
| Inv | Recurrence.cc:1649-1683, Recurrence.inlines.hh:39-128, 259-349, rr_classifier.cc:1055-1682 (bookkeeping) | what makes the classifier decide is not part of this model (see Class, WClass, NonLin); pointers are only null or not (see RecMem for ownership) |
| Itg* | Interval.cc:788-901, Boundary.inlines.hh:803-847 | M_PI, M_PI_2 are multiples of one number; cos_assign and sin_assign share the model of their common text |
| Ipw* | Interval.cc 675-785; Boundary.inlines.hh 528-531, 867-924 | pow of the C library is a parameter; rounding mode is an argument |
| Hyp* | gosper.cc 58-79, zeilberger.cc 45-141, Expr.cc 1051-1060 | simplify_binomials_factorials_exponentials, simplify_numer_denom and GiNaC's numer_denom are parameters |
| Nhp* | finite_order.cc 248-384, 506-575; compute_exact_solution.cc 381-401, 461-479, 500-512, 602-640 | replacement of powers of lambda - alpha by an expression of the same value (proved); decompositions of g_n and p(n) are given |
| Srch* | Expr.cc 982-1000, 1136-1157; Recurrence.cc 748-768; Number.inlines.hh 338-346 | unsigned values as Z in 0..INT_MAX; sums and products have their own constructors |
| Giac* | factorize_giac.cc 283-326, 342-363 | type tests as constructors; reading a large integer as int is undefined (None); blackboard rewriting is C61 |
| Xarg* | Recurrence.cc 640-669; rr_classifier.cc 139-171 | the replaced expression is a symbol; both functions share one definition |
| Res | util.cc:334-435 | coefficients in any field; GiNaC's determinant; the check is_rational_polynomial is an arbitrary predicate |

Not modelled at all: Matrix.cc, Expr_List.cc, Constant.cc, Init.cc, globals.cc (thin wrappers and set-up code),
the translation to giac and giac itself (factorize_giac.cc 92-276), the first lines of factorize_giac_recursive, output and tracing code.
