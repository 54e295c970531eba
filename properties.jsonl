{"id": "C01", "title": "Truncation order is never exceeded", "statement": "Every gdual obtained from the public constructors and any finite sequence of public operations (+,-,*,/, unary -, scalar variants, integrate, partial, subs, trim, extract_terms, extend_symbol_set, elementary functions) satisfies degree() <= get_order(), has a strictly sorted symbol set and stores no zero coefficient, so the destructor's assertion never fires.", "quantifier": "all coefficient arithmetics (also non-associative ones such as IEEE doubles), all orders, all symbol names, all finite sequences of operations", "why_tests_cant": "The set of operation sequences, orders and symbol sets is infinite; the tests evaluate a few dozen fixed expressions.", "anchors": ["include/audi/gdual.hpp: ~gdual, add, sub, mul, div, integrate, partial, subs, trim, extract_terms", "include/audi/functions.hpp: all functions", "include/audi/functions_from_d.hpp: _compose_from_derivative"]}
{"id": "C02", "title": "Order promotion", "statement": "get_order() of a binary gdual operation is the maximum of the operands' orders; scalar operations, unary minus, integrate, partial, subs, trim and the elementary functions keep the order of their argument; extract_terms(k) returns order k.", "quantifier": "all gduals, all scalars, all orders", "why_tests_cant": "order_promotion tests one pair of orders.", "anchors": ["include/audi/gdual.hpp: add, sub, mul, div, get_order", "include/audi/functions.hpp"]}
{"id": "C03", "title": "Symbol set of a result", "statement": "get_symbol_set() of a binary operation is the sorted union of the operands' symbol sets without repetitions; the elementary functions keep the symbol set of their argument.", "quantifier": "all gduals and all functions of the library", "why_tests_cant": "Depends on arbitrary string sets and orders, including order 0.", "anchors": ["include/audi/gdual.hpp: get_symbol_set, add, sub, mul, div", "include/audi/functions.hpp: exp..abs", "include/audi/functions_from_d.hpp"]}
{"id": "C04", "title": "Addition, subtraction and negation are exact coefficient by coefficient", "statement": "For every exponent vector, find_cf of a+b (a-b, -a) is the sum (difference, negation) of the coefficients of a and b once both are read on the common symbol set; a+b and b+a, (a+b)+c and a+(b+c) compare equal, a-a is zero.", "quantifier": "all gduals over any field of coefficients, all exponent vectors", "why_tests_cant": "Infinitely many polynomials, symbol sets and exponent vectors.", "anchors": ["include/audi/gdual.hpp: add, sub, operator-, find_cf"]}
{"id": "C05", "title": "Multiplication is the truncated Cauchy product", "statement": "For every exponent vector k with |k| <= order, find_cf(k) of a*b is the sum over all splittings k = i + j of find_cf(i) of a times find_cf(j) of b, and no term with |k| > order is present.", "quantifier": "all gduals over any field, all exponent vectors", "why_tests_cant": "Convolution sums of arbitrary length.", "anchors": ["include/audi/gdual.hpp: mul, find_cf"]}
{"id": "C06", "title": "Truncated polynomials form a commutative ring", "statement": "For gduals of equal order *, + satisfy commutativity, associativity, distributivity, unit and zero laws with respect to ==; for operands of different orders associativity of * is required to hold as well.", "quantifier": "all triples of gduals", "why_tests_cant": "identities test checks two concrete expressions at one order.", "anchors": ["include/audi/gdual.hpp: mul, add, operator=="]}
{"id": "C07", "title": "Division inverts multiplication", "statement": "If the constant coefficient of b is not zero, (a/b)*b == a up to the order of the result, and 1/b is the unique truncated polynomial with (1/b)*b == 1.", "quantifier": "all gduals a, b with constant_cf(b) != 0, all orders, also when the orders differ", "why_tests_cant": "The geometric-series loop runs order(b) times; equality must hold for every order and every pair.", "anchors": ["include/audi/gdual.hpp: div(gdual,gdual), div(T,gdual), div(gdual,T)"]}
{"id": "C08", "title": "Mixed scalar operations agree with constant gduals", "statement": "c op d and d op c for op in +,-,*,/ give the same polynomial (==) and the same order as gdual(c) op d and d op gdual(c).", "quantifier": "all scalars c (non-zero where it divides), all gduals d", "why_tests_cant": "Each overload is separate code, tests compare a handful of literals.", "anchors": ["include/audi/gdual.hpp: add(T,gdual), sub(T,gdual), mul(T,gdual), div(T,gdual), div(gdual,T)"]}
{"id": "C09", "title": "Arithmetic computes Taylor expansions (AD soundness)", "statement": "If a and b hold the Taylor expansions to order n of functions f and g at a point, then a+b, a-b, a*b, c*a, a/b hold the Taylor expansions to order n of f+g, f-g, f*g, c*f, f/g (remainder O(|h|^(n+1))).", "quantifier": "all functions f, g of any number of variables with such an expansion, all n <= the truncation orders", "why_tests_cant": "A statement about all functions and limits h -> 0.", "anchors": ["include/audi/gdual.hpp: add, sub, mul, div"]}
{"id": "C10", "title": "exp and log compute Taylor expansions", "statement": "If d holds the expansion to order n of f then exp(d) and (for f(0)>0) log(d) hold those of exp o f and log o f.", "quantifier": "all gduals, all n <= order, all base functions f", "why_tests_cant": "Tests compare against algebraic identities at fixed points and orders.", "anchors": ["include/audi/functions.hpp: exp, log"]}
{"id": "C11", "title": "pow computes Taylor expansions", "statement": "pow(d, alpha) for real alpha and f(0) > 0, pow(d, n) for integers n (f(0) != 0 when n < 0), pow(base, d) for base > 0 and pow(d1, d2) hold the expansions of the corresponding powers; pow(d,n) by repeated product agrees with the binomial series.", "quantifier": "all gduals, exponents, bases and orders", "why_tests_cant": "Integer/real code paths must agree for every exponent.", "anchors": ["include/audi/functions.hpp: pow (four overloads), binomial"]}
{"id": "C12", "title": "sqrt and cbrt compute Taylor expansions", "statement": "sqrt(d) (f(0) > 0) and cbrt(d) (f(0) != 0) hold the expansions of sqrt o f and cbrt o f, and sqrt(d)*sqrt(d) == d, cbrt(d)^3 == d in exact arithmetic.", "quantifier": "all gduals, all orders", "why_tests_cant": "Binomial-series loops of arbitrary length.", "anchors": ["include/audi/functions.hpp: sqrt, cbrt, binomial"]}
{"id": "C13", "title": "sin, cos, sinh, cosh and the paired versions", "statement": "sin, cos, sinh, cosh hold the expansions of the composed functions; sin_and_cos and sinh_and_cosh return exactly the pair of the separate calls; sin^2+cos^2 == 1 and cosh^2-sinh^2 == 1 as gduals.", "quantifier": "all gduals, all orders", "why_tests_cant": "Parity-split loops with stride two; off-by-one at either parity is invisible at a single order.", "anchors": ["include/audi/functions.hpp: sin, cos, sin_and_cos, sinh, cosh, sinh_and_cosh"]}
{"id": "C14", "title": "tan and tanh (Bernoulli series)", "statement": "tan(d) and tanh(d) hold the expansions of tan o f (cos f(0) != 0) and tanh o f; the table of Bernoulli numbers requested is large enough for every index read.", "quantifier": "all gduals, all orders", "why_tests_cant": "Correctness rests on the Bernoulli identity for every order.", "anchors": ["include/audi/functions.hpp: tan, tanh"]}
{"id": "C15", "title": "atan and atanh", "statement": "atan(d) and atanh(d) (|f(0)| < 1) hold the expansions of atan o f and atanh o f at every order.", "quantifier": "all gduals, all orders", "why_tests_cant": "Binomials are computed in 32-bit unsigned arithmetic; a test at low order cannot reach the overflow.", "anchors": ["include/audi/functions.hpp: atan, atanh, binomial"]}
{"id": "C16", "title": "asin, acos, asinh, acosh", "statement": "asin, acos (|f(0)| < 1), asinh, acosh (f(0) > 1) hold the expansions of the composed functions.", "quantifier": "all gduals, all orders (<= 30 where atan is used)", "why_tests_cant": "Compositions of series of arbitrary order.", "anchors": ["include/audi/functions.hpp: asin, acos, asinh, acosh"]}
{"id": "C17", "title": "Functions obtained by quadrature of the derivative", "statement": "erf and the *_d variants (atanh_d, atan_d, asin_d, asinh_d, acos_d, acosh_d) hold the expansions of the composed functions; _compose_from_derivative is correct for any number of variables.", "quantifier": "all gduals, any number of variables, all orders", "why_tests_cant": "Telescoping over an arbitrary number of variables.", "anchors": ["include/audi/functions_from_d.hpp: _compose_from_derivative, erf, *_d"]}
{"id": "C18", "title": "abs", "statement": "abs(d) is d when constant_cf >= 0 and -d when it is negative, hence holds the expansion of |f| whenever f(0) != 0; the vectorized abs acts component by component.", "quantifier": "all gduals, all component counts", "why_tests_cant": "Vector sizes and broadcasting combinations.", "anchors": ["include/audi/functions.hpp: abs (scalar and vectorized)"]}
{"id": "C19", "title": "get_derivative returns the partial derivative", "statement": "If d holds the expansion of a sufficiently differentiable f then get_derivative(k) is the mixed partial derivative of f at the expansion point, and equals the constant coefficient of the gdual obtained by applying partial() k_i times for each variable.", "quantifier": "all multi-indices |k| <= order, all gduals", "why_tests_cant": "All multi-indices and all functions.", "anchors": ["include/audi/gdual.hpp: get_derivative, find_cf, partial"]}
{"id": "C20", "title": "find_cf and get_derivative reject exactly the invalid requests", "statement": "find_cf(c) throws exactly when the sum of the exponents exceeds the order or the length differs from the number of symbols and otherwise returns the stored coefficient or 0; get_derivative over a dictionary agrees with the positional call and throws for unknown symbols as documented.", "quantifier": "all gduals and all requests", "why_tests_cant": "Argument space is infinite; the sum is accumulated in unsigned arithmetic.", "anchors": ["include/audi/gdual.hpp: find_cf, get_derivative (dict)"]}
{"id": "C21", "title": "integrate and partial are inverse up to truncation", "statement": "partial(v) differentiates and integrate(v) integrates each monomial exactly; partial(integrate(d)) equals d without its terms of degree = order; both are linear, partials commute, and the Leibniz rule holds up to degree order-1.", "quantifier": "all gduals and variable names", "why_tests_cant": "All polynomials and variables, also variables not present.", "anchors": ["include/audi/gdual.hpp: integrate, partial"]}
{"id": "C22", "title": "subs is substitution", "statement": "d.subs(sym, value) evaluates the variable; d.subs(sym, g) is the truncation to d's order of the polynomial composition, and if g has no constant term it is the Taylor expansion of the composed function.", "quantifier": "all gduals d, g, all symbols", "why_tests_cant": "All polynomials.", "anchors": ["include/audi/gdual.hpp: subs"]}
{"id": "C23", "title": "evaluate is the polynomial value", "statement": "evaluate(dict) of a result of +,-, scalar * is the corresponding combination of the values; evaluate at zero increments returns constant_cf; missing symbols are rejected.", "quantifier": "all gduals and dictionaries", "why_tests_cant": "All polynomials and points.", "anchors": ["include/audi/gdual.hpp: evaluate, constant_cf"]}
{"id": "C24", "title": "trim, extract_terms and is_zero", "statement": "trim(eps) keeps exactly the terms with |c| >= eps and is idempotent; the terms extracted for k = 0..order add up to d and extract_terms throws iff k > order; is_zero(tol) holds iff every |c| <= tol.", "quantifier": "all gduals, all tolerances, all orders", "why_tests_cant": "Universal over tolerance and terms.", "anchors": ["include/audi/gdual.hpp: trim, extract_terms, is_zero"]}
{"id": "C25", "title": "Equality is semantic equality of polynomials", "statement": "== is an equivalence relation, ignores unused symbols and the truncation order, is preserved by extend_symbol_set, and holds iff the two polynomials take the same values everywhere; !=, <, > are consistent with it.", "quantifier": "all gduals", "why_tests_cant": "Transitivity and congruence are relational properties over all triples.", "anchors": ["include/audi/gdual.hpp: operator==, !=, <, >"]}
{"id": "C26", "title": "Constructors validate and initialise", "statement": "gdual(v, name, order) throws iff order >= UINT_MAX-10 or name is empty or starts with 'd'; otherwise it represents v + d(name) (order >= 1) or v (order 0) with symbol set {name}; extend_symbol_set throws iff a name lacks the leading d and never changes the value.", "quantifier": "all values, names and orders", "why_tests_cant": "All strings and orders.", "anchors": ["include/audi/gdual.hpp: gdual(T,string,unsigned), check_order, check_var_name, extend_symbol_set"]}
{"id": "C27", "title": "vectorized arithmetic broadcasts elementwise", "statement": "For + - * / on vectorized coefficients, sizes n,n or with one size 1 give the elementwise result of size max(n,m) and any other combination throws, leaving the operands unchanged; fma3 has the same contract; dividing by a number and the unary minus act on each component.", "quantifier": "all vectors of all sizes", "why_tests_cant": "All size combinations.", "anchors": ["include/audi/vectorized.hpp: operator+=, -=, *=, /=, fma3"]}
{"id": "C28", "title": "vectorized comparisons", "statement": "== between vectorized coefficients compares elementwise with broadcasting; it is reflexive, symmetric and transitive; != is its negation; < and > are each other's mirror image.", "quantifier": "all vectors of all sizes", "why_tests_cant": "Relational properties over all triples of vectors.", "anchors": ["include/audi/vectorized.hpp: operator==, !=, <, >"]}
{"id": "C29", "title": "A vectorized gdual is a vector of scalar gduals", "statement": "Component i of every coefficient of an operation on gdual<vectorized> is the coefficient of the same operation performed on the scalar gduals made of the i-th components.", "quantifier": "all component counts, all operations and functions, all gduals", "why_tests_cant": "All sizes and all operation sequences.", "anchors": ["include/audi/gdual.hpp", "include/audi/vectorized.hpp", "include/audi/detail/overloads_vectorized.hpp"]}
{"id": "C30", "title": "Composition of Taylor maps", "statement": "A & B substitutes the components of B for the variables of A: the result is the truncated composition A(B(.)) when the symbols of A and B are disjoint.", "quantifier": "all maps of all dimensions", "why_tests_cant": "All sizes and polynomials.", "anchors": ["include/audi/invert_map.hpp: detail::operator&"]}
{"id": "C31", "title": "invert_map returns the inverse map", "statement": "For a square map of n components in n variables with zero constant part and invertible linear part, composing the map with invert_map's result gives the identity up to the truncation order; invalid maps are rejected with an exception.", "quantifier": "all dimensions n, all orders, all maps", "why_tests_cant": "Picard iteration of arbitrary length; dependence on lexicographic order of generated names shows only for n >= 11.", "anchors": ["include/audi/invert_map.hpp: invert_map"]}
{"id": "C32", "title": "Enumeration of exponents is complete", "statement": "generate_combinations(limits, cap) lists exactly once every index vector bounded by limits (and, if capped, with sum at most max(limits)); get_poly returns exactly the non-zero terms of the polynomial.", "quantifier": "all limit vectors, all polynomials", "why_tests_cant": "All lengths and limits.", "anchors": ["include/audi/taylor_model_bounding.hpp: generate_combinations, get_poly, get_coefficient"]}
{"id": "C33", "title": "Binomial helper is exact", "statement": "binomial(n,k) equals the mathematical binomial coefficient for all ints n >= 0, k whose intermediate products fit in 64 bits (in particular n <= 61), and 0 outside 0..n; the exact division never loses a remainder.", "quantifier": "all n, k", "why_tests_cant": "Loop with divisions for every n,k.", "anchors": ["include/audi/taylor_model_bounding.hpp: binomial, binom_product"]}
{"id": "C34", "title": "Matrix helpers", "statement": "matmul and transpose are matrix product and transpose for all conforming sizes; get_q_matrix maps power-basis coefficients to those of the polynomial re-parametrised on [0,1]; get_cycled_2d_array_vec is a bijective re-indexing; shift_indices rotates to the left by one.", "quantifier": "all matrices, degrees and intervals", "why_tests_cant": "All sizes.", "anchors": ["include/audi/taylor_model_utilities.hpp: matmul, transpose", "include/audi/taylor_model_bounding.hpp: get_d_matrix, get_lower_pascal_matrix, get_q_matrix, get_cycled_2d_array_vec, shift_indices"]}
{"id": "C35", "title": "get_bounds encloses the polynomial", "statement": "The interval returned by get_bounds contains the value of the polynomial at every point of the domain.", "quantifier": "all polynomials, all boxes, any number of variables, any iteration order of the hash map holding the domain", "why_tests_cant": "All points of a continuum, and all hash iteration orders.", "anchors": ["include/audi/taylor_model.hpp: get_bounds", "include/audi/taylor_model_bounding.hpp: get_titi_bernstein_patch_ndim_generalbox, build_dim_to_var_map"]}
{"id": "C36", "title": "get_bounds is exact for linear polynomials and touches vertex values", "statement": "The Bernstein coefficients at the corners are the polynomial's values at the box corners, so for polynomials of degree at most one in each variable the bound is attained.", "quantifier": "all polynomials and boxes", "why_tests_cant": "All boxes.", "anchors": ["include/audi/taylor_model.hpp: get_bounds"]}
{"id": "C37", "title": "Taylor model construction validates its arguments", "statement": "taylor_model(tpol, rem, exp, dom) throws iff the key sets of exp and dom differ, an expansion point lies outside its interval or the number of variables differs from that of tpol; every taylor_model reachable through the public interface satisfies this invariant and names its polynomial's variables in its domain.", "quantifier": "all arguments, all call histories (also after calls that threw)", "why_tests_cant": "Histories with failing setters.", "anchors": ["include/audi/taylor_model.hpp: check_input_validity, constructors, set_tpol, set_exp, set_dom, extend_symbol_set, identity"]}
{"id": "C38", "title": "Taylor model addition and subtraction are sound", "statement": "If A encloses f and B encloses g over their domains then A+B, A-B, c+A, A+c, A-c, c-A, -A, I+A, A+I, A-I, I-A enclose the corresponding functions.", "quantifier": "all functions, all Taylor models, all scalars and intervals", "why_tests_cant": "A statement about all functions enclosed and all points.", "anchors": ["include/audi/taylor_model.hpp: add, sub, operator-()"]}
{"id": "C39", "title": "Taylor model multiplication is sound", "statement": "If A encloses f and B encloses g then A*B encloses f*g; c*A and A*c enclose c*f; I*A and A*I enclose every product with a member of the interval.", "quantifier": "all functions, Taylor models, scalars, intervals", "why_tests_cant": "Same.", "anchors": ["include/audi/taylor_model.hpp: multiply, get_increased_order"]}
{"id": "C40", "title": "Taylor model division is sound", "statement": "If A encloses f, B encloses g and the call does not throw then A/B encloses f/g, c/A encloses c/f, A/c encloses f/c, and I/A, A/I enclose the quotients by/of members of the interval.", "quantifier": "all functions, Taylor models, scalars, intervals", "why_tests_cant": "Same.", "anchors": ["include/audi/taylor_model.hpp: div"]}
{"id": "C41", "title": "Taylor model powers are sound", "statement": "pow(A, n) for every integer n and half-integers encloses f^n when the call does not throw.", "quantifier": "all exponents, functions and Taylor models", "why_tests_cant": "Same.", "anchors": ["include/audi/taylor_model_functions.hpp: pow, sqrt, factorial2"]}
{"id": "C42", "title": "Taylor model elementary functions are sound", "statement": "If A encloses f then exp(A), log(A), sqrt(A), sin(A), cos(A), sinh(A), cosh(A), tan, tanh, asin, acos, atan, asinh, acosh, atanh, abs enclose the composed functions when the call does not throw.", "quantifier": "all functions and Taylor models", "why_tests_cant": "Same.", "anchors": ["include/audi/taylor_model_functions.hpp"]}
{"id": "C43", "title": "Merging of domains", "statement": "get_common_map returns exactly the union of two maps and throws iff a shared key has conflicting values; trim_map restricts to the given names and throws iff one is missing.", "quantifier": "all maps", "why_tests_cant": "All maps and key sets.", "anchors": ["include/audi/taylor_model.hpp: get_common_map, trim_map"]}
{"id": "C44", "title": "Taylor model equality", "statement": "== on Taylor models is reflexive, symmetric and transitive and != is its negation.", "quantifier": "all Taylor models", "why_tests_cant": "Relational over all triples.", "anchors": ["include/audi/taylor_model.hpp: operator==, operator!=, interval_equal, map_equal, map_interval_equal"]}
{"id": "C45", "title": "Double factorial helper", "statement": "factorial2(n) is n!! for every n >= -1 for which the result fits in a long long, and throws for n < -1.", "quantifier": "all n", "why_tests_cant": "Loop of arbitrary length.", "anchors": ["include/audi/taylor_model_functions.hpp: factorial2"]}
{"id": "C46", "title": "Serialization round trip", "statement": "Loading what was saved gives a gdual equal to the original with the same order and symbol set (same for vectorized coefficients).", "quantifier": "all gduals", "why_tests_cant": "All contents.", "anchors": ["include/audi/gdual.hpp: serialize", "include/audi/vectorized.hpp: serialize", "pyaudi/common_utils.hpp"]}
{"id": "C47", "title": "Text output of containers and tables", "statement": "Vectors and maps print their elements in order, separated, between brackets, and at most five of them followed by a mark of omission; the printed text of a vector of up to five elements determines it. Variable maps print every entry. A Taylor model prints its polynomial, remainder bound, expansion point and domain, each on a labelled line, and the text determines the text of each of them when names and numbers contain no separators. A table accepts exactly the rows with one text per header, prints the headers, a rule and the rows in the order they were added, all lines have the same length, and every cell appears complete at the start of its column.", "quantifier": "all containers; all headers, rows and sequences of accepted and refused insertions", "why_tests_cant": "Lengths and cell contents are unbounded; injectivity speaks of all pairs of vectors.", "anchors": ["include/audi/io.hpp: stream, print_row, print_table, add_row", "include/audi/vectorized.hpp: operator<<", "include/audi/taylor_model_utilities.hpp: operator<< of var_map_d and var_map_i", "include/audi/taylor_model.hpp: operator<<"]}
{"id": "C48", "title": "Python conversions", "statement": "evaluate called with a Python dictionary gives the value of the C++ evaluate, whatever the order of the items; the symbol map built from the dictionary is sorted; a vectorized coefficient survives conversion to a list and back, exactly the lists of numbers are accepted, and every accepted list is one a constructor accepts; a pickled gdual is recovered and a state tuple of another size is refused.", "quantifier": "all gduals, dictionaries, lists and state tuples", "why_tests_cant": "Dictionaries of every size and insertion order, arbitrary gduals.", "anchors": ["pyaudi/common_utils.hpp: py_dict_to_obake_sm", "pyaudi/expose_gdual.hpp: evaluate, pickle support", "pyaudi/common_utils.hpp: type_caster<vectorized>"]}
{"id": "C49", "title": "Rounding of double coefficients", "statement": "With double coefficients every finite coefficient of a sum, difference, scalar multiple, partial derivative or antiderivative is the correctly rounded exact value (division by a number: two roundings); a finite coefficient of a product with n contributing pairs differs from the exact one by at most ((1+2^-53)^n - 1) times the sum of the absolute values of the contributions plus an underflow term, whatever the order in which they are added; it is finite when a bound on the contributions excludes overflow, and exact for whole numbers if the absolute values of the contributions add up to at most 2^53. Associativity and distributivity, which hold in exact arithmetic, fail; addition stays commutative.", "quantifier": "all gduals with double coefficients, all exponent vectors; exponents up to 2^53 for partial, orders below 2^31 for integrate", "why_tests_cant": "A worst-case error bound over all coefficient values, including underflow, overflow and cancellation, and all polynomial sizes.", "anchors": ["include/audi/gdual.hpp: add, sub, mul, div, partial, integrate"]}
{"id": "C50", "title": "Complex coefficients", "statement": "With complex coefficients the constructors, operators, powers and the functions exp, log, sin, cos, tan, sinh, cosh, tanh, atanh, atanh_d and atan_d compute the Taylor expansion, in complex displacements, of the complex function (principal branches), and so does every program built from them at a point where each step is differentiable. The ring and division laws, exp(i d) = cos d + i sin d, cosh(i d) = cos d, exp(a+b) = exp a exp b, exp(log d) = d, sin^2 + cos^2 = 1 and the other identities hold exactly; log(exp d) = d holds when the imaginary part lies strictly between -pi and pi and fails otherwise. A program with real data, run with complex coefficients, gives the coefficients of the real run. Conjugating the coefficients commutes with every operation and with every function off its branch cut (log at a negative number does not commute), and conjugate data give conjugate results; a program with real numbers at a real point gives real coefficients.", "quantifier": "all gduals with complex coefficients, all orders (up to 65536 where sin or cos is called, below 2^31 where atanh_d or atan_d is), all programs, all complex points off the singularities", "why_tests_cant": "All complex points and orders; the branch cuts, and O(|x|^(n+1)) over all complex displacements.", "anchors": ["include/audi/audi.hpp: gdual_c", "include/audi/functions.hpp: exp, log, pow, sin, cos, tan, sinh, cosh, tanh, atanh", "include/audi/functions_from_d.hpp: atanh_d, atan_d", "include/audi/detail/overloads.hpp"]}
{"id": "C51", "title": "Python expressions over numbers and gduals", "statement": "A Python expression over ints, floats and gduals, with the operators + - * / ** and unary signs, the functions of the module and the methods of the class, does not raise where it is differentiable. If no gdual occurs in it, its value is the number it denotes; otherwise it is the gdual that holds the Taylor expansion of the expression, whatever mixture of types its subexpressions have. Two expressions that denote the same function near the point give equal gduals; in particular expm1(log1p(x)) == x, log10(10**x) == x, x**2 == x*x, x**-1 == 1/x, x**(1/2) == sqrt(x). Writing an int as a float changes nothing. Every function of the module is a method with the same result, the inverse functions also under numpy's names.", "quantifier": "all expressions, all assignments of floats and of gduals of any order (up to the orders of C14-C16 for the functions called), all points where each step is differentiable", "why_tests_cant": "All programs and all combinations of run-time types; each operator has nine type combinations and the functions nest without bound.", "anchors": ["pyaudi/expose_gdual.hpp: operators, __pow__, __rpow__, methods", "pyaudi/core.cpp: functions of double and gdual_d"]}
{"id": "C52", "title": "Python expressions over Taylor models", "statement": "If a Python expression over numbers and Taylor models returns, its polynomial is the Taylor expansion of the expression evaluated on the polynomials of the operands: the same gdual that the expression gives on those polynomials. Expressions that denote the same function have equal polynomials. Sums, differences and multiples by numbers enclose the exact values. Methods and module functions agree, and writing an int as a float changes no result.", "quantifier": "all expressions with + - * / **, unary signs, functions and methods; all assignments of floats and Taylor models; all orders up to 2147483642", "why_tests_cant": "All programs and all run-time type combinations; wrong results appear only when an intermediate polynomial vanishes.", "anchors": ["pyaudi/expose_taylor_model.hpp: operators, __pow__, methods", "pyaudi/core.cpp: functions of taylor_model"]}
{"id": "C53", "title": "Python expressions over vectorized gduals", "statement": "The i-th component of a Python expression over gdual_vdouble operands is the same expression evaluated on the i-th components with gdual_double, including whether it throws. Over the reals each component is the Taylor expansion of the expression at that component's point, and one get_derivative call returns the partial derivatives at all the points; partial() and integrate() give the expansions of the derivatives and integrals there. The result is a gdual_vdouble exactly when an operand is one, gdual_double and gdual_vdouble do not mix, and methods agree with module functions.", "quantifier": "all expressions with + - * / **, unary signs, functions and methods; all assignments of numbers and gdual_vdouble; all vector lengths, components and orders", "why_tests_cant": "All programs, all mixes of coefficients of size 1 and N; the two steps that break the claim (abs of a size-1 negative constant, a number to a power whose components vanish separately) need special operands.", "anchors": ["pyaudi/core.cpp:151-207: functions of gdual_vdouble", "pyaudi/expose_gdual.hpp:114-228: operators and methods", "include/audi/vectorized.hpp"]}
{"id": "C54", "title": "get_derivative of a program is the derivative", "statement": "For every program built from gdual variables, numbers, operators and functions, in C++ or Python, at a point where all its steps are differentiable, the function it computes has all its partial derivatives there and get_derivative returns their values, for every mixed derivative up to the truncation order, given by a list of exponents or by a dictionary. partial() of the result is the expansion, one order lower, of the derivative of the function, and integrate() that of its integral from the center in one symbol.", "quantifier": "all programs, points, orders and exponent vectors (each exponent up to 170)", "why_tests_cant": "All programs and all mixed derivatives; a test compares a few derivatives with formulas worked out by hand.", "anchors": ["include/audi/gdual.hpp: get_derivative, partial, integrate", "include/audi/functions.hpp", "pyaudi/expose_gdual.hpp: get_derivative, partial"]}
{"id": "C55", "title": "Python scripts compute Taylor polynomials of what they mean", "statement": "A Python script of assignments, gdual_double constructions, partial(), constant_cf, comparisons and counted loops, whose steps are all differentiable where they are taken, raises nothing, and at its end every name holds its number or the Taylor polynomial of the function the script describes, up to the least order of the gduals used, one less for each differentiation. In particular Newton's method written with gduals of order one computes the Newton iterates with the derivative of calculus. A script that raises nothing has used gduals and numbers where they belong, and the types of its names follow from the types of the operands. Scripts that describe the same function give the same coefficients up to the order tracked for both. With while loops the same holds of every script that ends, and a loop that does not end in real arithmetic does not end in Python.", "quantifier": "all scripts, loop counts, orders, points; all starting values of the names", "why_tests_cant": "All scripts and all numbers of iterations, with names overwritten and gduals of different orders mixed.", "anchors": ["pyaudi/expose_gdual.hpp:67: constructor", "pyaudi/expose_gdual.hpp:108: partial", "pyaudi/expose_gdual.hpp:141: constant_cf", "pyaudi/expose_gdual.hpp: operators and methods", "pyaudi/expose_gdual.hpp:130: comparison"]}
