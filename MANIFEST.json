{
 "claims": [
  {
   "property": "C01",
   "status": "proved",
   "theorems": [
    "C01_order_never_exceeded"
   ],
   "note": "Every value built by any finite sequence of public calls, for every coefficient arithmetic whose negation preserves non-zero (checked for rationals and IEEE doubles)."
  },
  {
   "property": "C02",
   "status": "partial",
   "theorems": [
    "C02_order_binary",
    "C02_order_unary",
    "C02_order_functions",
    "C02_order_pow_partial",
    "C02_order_quadrature_partial",
    "C02_order_pow_scalar_refuted",
    "C02_order_quadrature_refuted"
   ],
   "note": "Full for all operators and the 23 one-argument functions. The statement is false of the code for pow(base, d) with d of degree 0 and for erf/erfc/*_d on a gdual without symbols; both refuted with witnesses and proved outside those cases."
  },
  {
   "property": "C03",
   "status": "partial",
   "theorems": [
    "C03_symbols_binary",
    "C03_symbols_sorted",
    "C03_symbols_functions_partial",
    "C03_symbols_pow_partial",
    "C02_order_quadrature_partial",
    "C03_symbols_atan_refuted"
   ],
   "note": "Union for all binary operators. For functions proved except atan/atanh/asin/acos at order 0 and pow(base, degree-0 gdual), which lose the symbols (refuted with witness)."
  },
  {
   "property": "C04",
   "status": "proved",
   "theorems": [
    "C04_add_stored",
    "C04_neg_stored",
    "C04_add_coef",
    "C04_add_laws"
   ],
   "note": "stored-form theorems hold for every coefficient arithmetic including doubles; algebraic laws for exact fields."
  },
  {
   "property": "C05",
   "status": "proved",
   "theorems": [
    "C05_mul_cauchy",
    "C05_splits_spec",
    "C05_splits_nodup",
    "C05_mul_stored"
   ],
   "note": "Exact field arithmetic. C05_mul_stored: for any arithmetic each coefficient is the sum, in some order, of the products of the contributing stored pairs."
  },
  {
   "property": "C06",
   "status": "partial",
   "theorems": [
    "C06_ring_laws",
    "C06_ring_mixed_orders_partial",
    "C06_associativity_mixed_refuted",
    "C06_distributivity_mixed_refuted"
   ],
   "note": "Ring laws proved for equal orders, and up to the smaller truncation order for different orders; the unrestricted mixed-order laws are refuted with witnesses."
  },
  {
   "property": "C07",
   "status": "partial",
   "theorems": [
    "C07_div_mul",
    "C07_div_mul_eq",
    "C07_reciprocal_unique",
    "C07_div_larger_order_refuted"
   ],
   "note": "Proved up to the order of the divisor (all of it when order(dividend) <= order(divisor)); refuted above it."
  },
  {
   "property": "C08",
   "status": "proved",
   "theorems": [
    "C08_scalar_operations"
   ],
   "note": "Exact field arithmetic; all eight mixed operators."
  },
  {
   "property": "C09",
   "status": "proved",
   "theorems": [
    "C09_expansion_unique",
    "C09_variable",
    "C09_number",
    "C09_arithmetic",
    "C09_mixed",
    "C09_programs_partial",
    "C09_equal_programs_partial"
   ],
   "note": "The operators are covered without restriction. C09_programs_partial adds whole programs (any nesting of operators and functions); it restricts the order for sin/cos (65536), atan/asin/acos (30) and quadratures (below 2^31), where the C++ integers wrap. Two programs give equal gduals exactly when their functions differ by O(|x|^(N+1)) (C09_equal_programs_partial)."
  },
  {
   "property": "C10",
   "status": "proved",
   "theorems": [
    "C10_exp",
    "C10_log",
    "C10_exp_log",
    "C10_log_exp",
    "C10_exp_add",
    "C10_python_methods"
   ],
   "note": "Real coefficients; all orders and numbers of variables."
  },
  {
   "property": "C11",
   "status": "proved",
   "theorems": [
    "C11_pow_real",
    "C11_pow_int",
    "C11_pow_base",
    "C11_pow_gdual",
    "C11_overloads_agree"
   ],
   "note": "Real coefficients. The agreement of the overloads holds for every integer exponent (non-zero constant coefficient when it is not positive)."
  },
  {
   "property": "C12",
   "status": "proved",
   "theorems": [
    "C12_sqrt",
    "C12_cbrt",
    "C12_sqrt_squared",
    "C12_cbrt_cubed"
   ],
   "note": "Real coefficients."
  },
  {
   "property": "C13",
   "status": "partial",
   "theorems": [
    "C13_sin_cos_partial",
    "C13_sinh_cosh",
    "C13_pairs",
    "C13_sin2_cos2_partial",
    "C13_cosh2_sinh2",
    "C13_large_orders_refuted"
   ],
   "note": "sin and cos up to order 65536: afterwards the unsigned product i*(i-1) of the C++ code wraps. sinh, cosh at every order. The bound is sharp: at every larger order the degree-65537 coefficient of sin and cos of a variable is wrong."
  },
  {
   "property": "C14",
   "status": "partial",
   "theorems": [
    "C14_tan",
    "C14_tanh",
    "C14_range_partial",
    "C14_large_orders_refuted",
    "C14_tan_is_quotient_partial",
    "C14_tanh_is_quotient",
    "C14_bernoulli_table"
   ],
   "note": "The expansions are right at every order (C14_tan, C14_tanh; Bernoulli numbers defined by their recurrence), but boost has Bernoulli numbers up to B_258 only: the calls return up to order 258 (C14_range_partial) and throw at every larger order (C14_large_orders_refuted). The agreement of tan with sin/cos needs order <= 65536."
  },
  {
   "property": "C15",
   "status": "partial",
   "theorems": [
    "C15_atan_partial",
    "C15_atanh",
    "C15_atan_order_31_refuted",
    "C15_large_orders_refuted"
   ],
   "note": "atanh at every order. atan up to order 30 (or at a point of value 0): the full statement is false, proved at order 31 where the 32-bit binomials overflow. The same coefficient is wrong at every order from 31 on."
  },
  {
   "property": "C16",
   "status": "proved",
   "theorems": [
    "C16_asin_acos",
    "C16_asinh",
    "C16_acosh",
    "C16_large_orders_refuted"
   ],
   "note": "asin and acos call atan, hence order <= 30 (the quantifier of the property); C16_large_orders_refuted: both are wrong at every order from 31 on."
  },
  {
   "property": "C17",
   "status": "partial",
   "theorems": [
    "C17_quadrature_partial",
    "C17_compose_partial",
    "C17_compose_any_field_partial",
    "C17_compose_square_partial",
    "C17_same_as_series",
    "C17_large_orders_refuted"
   ],
   "note": "Order below 2^31 (the exponents are added as int in integrate). The bound is sharp: at every larger order the quadratures of a variable return constants. Over any exact field _compose_from_derivative returns the polynomial whose partial derivatives are dg times those of f (C17_compose_any_field_partial)."
  },
  {
   "property": "C18",
   "status": "partial",
   "theorems": [
    "C18_abs",
    "C18_abs_expands",
    "C18_vectorized_abs_partial",
    "C18_vectorized_abs_refuted"
   ],
   "note": "Scalar part complete. The vectorized abs acts by components when the constant coefficient has all its components; refuted when it has one component."
  },
  {
   "property": "C19",
   "status": "partial",
   "theorems": [
    "C19_derivative_by_differentiation_partial",
    "C19_derivative_partial",
    "C19_high_derivatives_refuted"
   ],
   "note": "Both halves for exponents up to 170: get_derivative equals the constant coefficient of the iterated partial(), and for every function with the expansion and with partial derivatives up to one order more (bounded near the point) it is the partial derivative at the point. Orders below 2^32. Refuted beyond: an exponent above 170 makes boost's factorial throw (C19_high_derivatives_refuted)."
  },
  {
   "property": "C20",
   "status": "partial",
   "theorems": [
    "C20_find_cf",
    "C20_find_cf_wraps_refuted",
    "C20_constant_cf_never_throws",
    "C20_get_derivative",
    "C20_derivative_dict",
    "C20_dict_unknown_throws_refuted"
   ],
   "note": "Exact behaviour proved when the sum of exponents does not wrap in 32 bits (for get_derivative: exponents up to 170 as find_cf, an exponent above 170 always throws); refuted: wrapped sums are accepted, and the dictionary form returns 0 instead of throwing for unknown symbols."
  },
  {
   "property": "C21",
   "status": "partial",
   "theorems": [
    "C21_partial_coef",
    "C21_integrate_coef",
    "C21_partial_integrate",
    "C21_integrate_partial",
    "C21_integrate_large_order_refuted",
    "C21_partial_linear",
    "C21_integrate_linear_partial",
    "C21_integrate_linear_refuted",
    "C21_partials_commute",
    "C21_leibniz",
    "C21_names",
    "C21_partial_value",
    "C21_partial_taylor",
    "C21_integrate_taylor",
    "C21_partial_stored",
    "C21_integrate_stored"
   ],
   "note": "Everything proved for orders below 2^31, including that partial and integrate of an expansion are the expansions of the derivative and of the primitive; linearity of integrate needs equal orders (refuted otherwise) and orders from 2^31 on lose every term (refuted). C21_partial_stored and C21_integrate_stored: the coefficients for any arithmetic."
  },
  {
   "property": "C22",
   "status": "proved",
   "theorems": [
    "C22_subs_value",
    "C22_subs_value_free",
    "C22_subs_composition",
    "C22_subs_symbols",
    "C22_subs_taylor"
   ],
   "note": "Value, truncated polynomial composition and Taylor expansion of the composed function."
  },
  {
   "property": "C23",
   "status": "proved",
   "theorems": [
    "C23_evaluate",
    "C23_evaluate_arithmetic",
    "C23_evaluate_zero"
   ],
   "note": ""
  },
  {
   "property": "C24",
   "status": "proved",
   "theorems": [
    "C24_trim",
    "C24_trim_idempotent",
    "C24_extract_terms",
    "C24_extracts_sum",
    "C24_is_zero"
   ],
   "note": ""
  },
  {
   "property": "C25",
   "status": "proved",
   "theorems": [
    "C25_equivalence",
    "C25_same_coefficients",
    "C25_same_values",
    "C25_extend_symbol_set",
    "C25_congruence",
    "C25_ordering"
   ],
   "note": ""
  },
  {
   "property": "C26",
   "status": "proved",
   "theorems": [
    "C26_constructor",
    "C26_constructor_value",
    "C26_extend_symbol_set",
    "C26_order_bound"
   ],
   "note": ""
  },
  {
   "property": "C27",
   "status": "partial",
   "theorems": [
    "C27_operators",
    "C27_fma3_partial",
    "C27_fma3_throws_refuted",
    "C27_constructor",
    "C27_numbers"
   ],
   "note": "The four operators proved for all vectors of all sizes. fma3 is elementwise on compatible sizes and never changes ret otherwise, but it does not throw when no size is 1 (refuted, sizes 2,2,3)."
  },
  {
   "property": "C28",
   "status": "partial",
   "theorems": [
    "C28_eq_spec",
    "C28_eq_reflexive",
    "C28_eq_symmetric",
    "C28_eq_transitive_partial",
    "C28_eq_transitive_refuted",
    "C28_neq",
    "C28_mirror",
    "C28_lt_spec",
    "C28_is_zero"
   ],
   "note": "Transitivity holds when the outer operands can be compared and is refuted otherwise."
  },
  {
   "property": "C29",
   "status": "partial",
   "theorems": [
    "C29_components_partial",
    "C29_values_partial",
    "C29_trim_refuted",
    "C29_pow_refuted",
    "C29_quadrature_refuted",
    "C29_no_throw"
   ],
   "note": "Proved for every program over the public operations and functions except: abs with a negative constant coefficient of one component (C18_vectorized_abs_refuted), trim (refuted), pow(number, gdual) when only one of the degrees is 0 (C29_pow_refuted: the orders differ), quadrature functions after a substitution that changed the symbols (C29_quadrature_refuted when no symbol is left: the orders differ)."
  },
  {
   "property": "C30",
   "status": "partial",
   "theorems": [
    "C30_composition_partial",
    "C30_any_constant_part_refuted"
   ],
   "note": "Proved for maps B without constant part (all sizes, orders and polynomials); with a constant part the claim is false of the code, witness given."
  },
  {
   "property": "C31",
   "status": "partial",
   "theorems": [
    "C31_accepted_maps",
    "C31_right_inverse_partial",
    "C31_left_inverse_partial",
    "C31_eleven_variables_refuted",
    "C31_clashing_names_refuted",
    "C31_invertible_accepted_refuted"
   ],
   "note": "Acceptance and rejection characterised exactly. The result is a right and a left inverse for at most ten variables none of which is called p0, p1, ...; without these two conditions the claim is false of the code, witnesses given. A map is accepted when the determinant is at least 1e-10 in absolute value, so some invertible maps are rejected. Eigen's inverse is an assumption of the theorems (product_is_one)."
  },
  {
   "property": "C32",
   "status": "partial",
   "theorems": [
    "C32_combinations_partial",
    "C32_no_limits_refuted",
    "C32_get_poly_partial",
    "C32_constant_refuted"
   ],
   "note": "Proved for all non-empty limit vectors and all polynomials with at least one variable. For an empty limit vector nothing is listed, and get_poly of a constant gdual without variables returns no term: both refuted with a witness."
  },
  {
   "property": "C33",
   "status": "proved",
   "theorems": [
    "C33_binomial",
    "C33_binomial_up_to_62",
    "C33_binomial_63_refuted",
    "C33_binom_product"
   ],
   "note": "Exact whenever the intermediate products fit in 64 bits, for all n <= 62; at n = 63 the wrap-around gives a wrong result (witness)."
  },
  {
   "property": "C34",
   "status": "proved",
   "theorems": [
    "C34_matmul",
    "C34_transpose",
    "C34_matmul_associative",
    "C34_matmul_transpose",
    "C34_q_matrix",
    "C34_pascal_matrix",
    "C34_d_matrix",
    "C34_cycle",
    "C34_shift",
    "C34_positions"
   ],
   "note": "Degrees at most 62 for the matrices with binomial coefficients."
  },
  {
   "property": "C35",
   "status": "partial",
   "theorems": [
    "C35_bounds_enclose_partial",
    "C35_any_iteration_order_partial",
    "C35_one_variable_partial",
    "C35_equal_intervals_partial",
    "C35_iteration_order_refuted",
    "C35_degree_63_refuted"
   ],
   "note": "Exact arithmetic, total degree at most 62. For any iteration order the box actually bounded is given exactly; it is the domain for one variable, for equal intervals or when the iteration follows the variables. For other iteration orders, and at degree 63 (64-bit binomial overflow), the claim is false of the code (witnesses)."
  },
  {
   "property": "C36",
   "status": "proved",
   "theorems": [
    "C36_corners",
    "C36_attained"
   ],
   "note": "Exact arithmetic, total degree at most 62, any iteration order (the box is the one described in C35)."
  },
  {
   "property": "C37",
   "status": "partial",
   "theorems": [
    "C37_constructor",
    "C37_setters",
    "C37_set_rem",
    "C37_identity_one",
    "C37_extend_symbol_set",
    "C37_after_throw_refuted",
    "C37_extend_after_throw_refuted",
    "C37_names_refuted",
    "C37_identity_refuted",
    "C37_default_invalid"
   ],
   "note": "Proved for all inputs: the constructor and the setters accept exactly the consistent data, and extend_symbol_set keeps enclosures and throws exactly in the stated cases. False of the code and refuted with witnesses: the invariant after a call that threw (members are assigned before the check), the names of the variables (only their number is compared), identity(rem, exp, dom), the default constructor (m_ndim uninitialised). set_rem is described exactly (C37_set_rem), and identity() represents the constant 1 only (C37_identity_one)."
  },
  {
   "property": "C38",
   "status": "partial",
   "theorems": [
    "C38_add_partial",
    "C38_sub_partial",
    "C38_close_centers_refuted",
    "C38_scalars",
    "C38_intervals",
    "C38_negation_partial",
    "C38_negation_iff",
    "C38_number_minus_refuted",
    "C38_negation_refuted",
    "C38_interval_minus_refuted",
    "C38_polynomial",
    "C38_scalar_polynomial",
    "C38_rounding_refuted"
   ],
   "note": "Sound for A+B, A-B with equal expansion points of shared variables, and for c+A, A+c, A-c, I+A, A+I, A-I without conditions. Refuted: expansion points that are only close, c-A and -A (remainder not negated; proved for symmetric remainders, and C38_negation_iff: for no others), I-A (polynomial not negated). The polynomial of every returned result is the expansion of the sum, difference or negation. C38_rounding_refuted: in double precision the rounding of the polynomial is not added to the remainder."
  },
  {
   "property": "C39",
   "status": "partial",
   "theorems": [
    "C39_mul_partial",
    "C39_mul_polynomial_partial",
    "C39_mul_zero",
    "C39_zero_refuted",
    "C39_order_zero_refuted",
    "C39_tolerance_refuted",
    "C39_order_63_refuted",
    "C39_iteration_order_refuted",
    "C39_scalars",
    "C39_intervals_throw",
    "C39_interval_refuted",
    "C39_times_interval",
    "C39_times_interval_names",
    "C39_times_interval_refuted",
    "C39_polynomial"
   ],
   "note": "Sound when both polynomials are nonzero, the sum of the orders is between 1 and 62, the variables iterate in order of insertion and a truncated term exceeds 1e-16 or all are 0. Refuted: zero polynomial with a remainder, two models of order 0, truncated terms below 1e-16, orders adding up to 63, another iteration order, interval * A (which throws when A has variables, as A * interval does unless A has exactly one). Products with numbers: proved in full. A * I with one variable: encloses f (1 + h), h within I, when the variable is called x (C39_times_interval), which is not an enclosure of f h (refuted); with another name nothing is returned unless the polynomial is 0 (C39_times_interval_names). The polynomial of every returned product is the expansion of the product, whatever the remainders and the order of iteration (not both orders 0)."
  },
  {
   "property": "C40",
   "status": "partial",
   "theorems": [
    "C40_by_number",
    "C40_number_over_partial",
    "C40_number_over_defined",
    "C40_number_over_refuted",
    "C40_not_simple_refuted",
    "C40_iteration_order_refuted",
    "C40_div_partial",
    "C40_intervals_throw",
    "C40_interval_refuted",
    "C40_over_interval_refuted",
    "C40_polynomial",
    "C40_scalar_polynomial"
   ],
   "note": "A/c proved for all c <> 0. c/A for models of degree one that are exact or of order 0, for c = 1, or 0 <= c <= 1 when the remainder of the result contains 0; A/B under the conditions of the product. 1/A is wrong for linear models with a remainder at every positive order, and for exact models of degree two at every order from 2 (C40_not_simple_refuted). With the reverse iteration order 1/A is wrong for a linear, exact model at every positive order (C40_iteration_order_refuted). Refuted: c/A in general (the remainder ignores c) and I/A; I/A with variables and A/I with other than one variable throw. A/I with one variable is the product A * I (C39_times_interval), refuted as a quotient. The polynomial of every returned quotient is the expansion of the quotient (not both orders 0)."
  },
  {
   "property": "C41",
   "status": "partial",
   "theorems": [
    "C41_positive_partial",
    "C41_negative_partial",
    "C41_zero_partial",
    "C41_zero_refuted",
    "C41_zero_inconsistent",
    "C41_cube_refuted",
    "C41_half_partial",
    "C41_minus_half_partial",
    "C41_minus_half_refuted",
    "C41_dispatch",
    "C41_near_integer",
    "C41_polynomial"
   ],
   "note": "Integer powers of either sign under the conditions of the product at each step; exponents 1/2 (order at most 17) and -1/2 (order at most 16) for models of degree one. Refuted: exponent 0 with a remainder not containing 0 (and its result is inconsistent), the cube of x at order 1, -1/2 with a remainder away from 0, exponents just below an integer. The polynomial of every returned integer power is the expansion of the power, at orders from 1 on."
  },
  {
   "property": "C42",
   "status": "partial",
   "theorems": [
    "C42_entire_partial",
    "C42_log_sqrt_partial",
    "C42_log_sqrt_defined",
    "C42_high_orders_refuted",
    "C42_exp_refuted",
    "C42_degree_two_refuted",
    "C42_not_simple_refuted",
    "C42_iteration_order_refuted",
    "C42_sqrt_orders_refuted",
    "C42_tan_refuted",
    "C42_tanh_refuted",
    "C42_asinh_refuted",
    "C42_acosh_atanh_throw",
    "C42_asin_refuted",
    "C42_acos_refuted",
    "C42_atan_refuted",
    "C42_atan_origin_partial",
    "C42_abs_partial",
    "C42_abs_refuted",
    "C42_pairs",
    "C42_polynomial",
    "C42_inv_sqrt_polynomial"
   ],
   "note": "exp, sin, cos, sinh, cosh (order at most 169), log, sqrt (order at most 17): sound for models of degree one that are exact or of order 0; definedness of log and (order at most 169) sqrt on positive models. abs under sign conditions. That condition cannot be dropped: at every positive order (sqrt up to 17, the others but log up to 169) each of the seven is wrong for a linear model with a remainder and, from order 2, for an exact model of degree two (C42_not_simple_refuted, for interval functions that do not overestimate wildly). Nor can the condition that the variables are iterated over in the order of the symbols: with the reverse order each of the seven is wrong for a linear, exact model at every positive order (C42_iteration_order_refuted). The bound 17 for sqrt is sharp: from 18 to 169 it is wrong for an exact model of one variable (C42_sqrt_orders_refuted). atan is right for exact linear models of order 1 to 31 whose polynomial has no constant term (C42_atan_origin_partial). Refuted with witnesses: tan, tanh, asinh, asin, acos, atan of constants of order 0; abs. acosh and atanh throw on exact constants. The polynomial of every returned result of the 16 functions is the expansion of the function (order at least 1; at most 30 for atan, asin, acos). C42_high_orders_refuted: at every order above 169 boost's factorial makes exp, sin, cos, sinh, cosh, sqrt and 1/sqrt throw on exact models."
  },
  {
   "property": "C43",
   "status": "proved",
   "theorems": [
    "C43_get_common_map",
    "C43_trim_map"
   ],
   "note": "For all maps with distinct keys and every comparison of values. audi passes a comparison up to ten machine epsilons, so values conflict iff they differ by more."
  },
  {
   "property": "C44",
   "status": "partial",
   "theorems": [
    "C44_meaning",
    "C44_reflexive_symmetric",
    "C44_transitive_refuted",
    "C44_negation"
   ],
   "note": "Meaning, reflexivity, symmetry and negation proved; transitivity refuted (tolerance)."
  },
  {
   "property": "C45",
   "status": "proved",
   "theorems": [
    "C45_double_factorial",
    "C45_wraps",
    "C45_unsigned",
    "C45_unsigned_large"
   ],
   "note": "Exact iff n!! fits (n <= 33), wraps modulo 2^64 beyond; throws below -1. The unsigned variant is 1 from 2^31 on."
  },
  {
   "property": "C46",
   "status": "partial",
   "theorems": [
    "C46_round_trip_partial",
    "C46_vectorized_partial"
   ],
   "note": "Archives are token streams; the encodings of boost, and the layout of obake's polynomial, are not modelled."
  },
  {
   "property": "C47",
   "status": "proved",
   "theorems": [
    "C47_vector_text",
    "C47_vectorized_text",
    "C47_map_text",
    "C47_var_map_text",
    "C47_taylor_model_text",
    "C47_taylor_model_readable",
    "C47_taylor_model_refuted",
    "C47_vector_readable",
    "C47_long_vectors_refuted",
    "C47_table_rows",
    "C47_table_aligned"
   ],
   "note": "The texts of the elements are a parameter; C47_vector_readable asks that they contain no comma and are not empty. C47_long_vectors_refuted: beyond five elements the text does not determine the vector. C47_taylor_model_readable asks that numbers are written without , ] }, names have no : or }, and the polynomial is written in one line; C47_taylor_model_refuted: without the condition on names the text is ambiguous."
  },
  {
   "property": "C48",
   "status": "partial",
   "theorems": [
    "C48_evaluate",
    "C48_symbol_map",
    "C48_vectorized_round_trip",
    "C48_vectorized_accepts",
    "C48_empty_list_refuted",
    "C48_pickle",
    "C48_pickle_size"
   ],
   "note": "Everything but one clause is proved. That every accepted list is one a constructor accepts is false: the empty list is converted to a coefficient without components (C48_empty_list_refuted). Pickles carry the token streams of Serial.v."
  },
  {
   "property": "C49",
   "status": "proved",
   "theorems": [
    "C49_add",
    "C49_sub",
    "C49_neg",
    "C49_scale",
    "C49_div_scalar",
    "C49_mul",
    "C49_mul_any_order",
    "C49_mul_finite",
    "C49_mul_exact",
    "C49_partial",
    "C49_integrate",
    "C49_add_comm",
    "C49_add_assoc_refuted",
    "C49_mul_assoc_refuted",
    "C49_distributivity_refuted",
    "C49_self_division_refuted"
   ],
   "note": "Double precision is Flocq's binary64 with rounding to nearest even; mul then add, no fused multiply-add. The error statements assume finite coefficients (partial: exponents up to 2^53; integrate: orders below 2^31). C49_mul is about the order of addition of the model, C49_mul_any_order about every order. The refuted theorems are the clause that associativity and distributivity fail for doubles, and that c/c need not be 1."
  },
  {
   "property": "C50",
   "status": "partial",
   "theorems": [
    "C50_expansion_unique",
    "C50_variable",
    "C50_number",
    "C50_arithmetic",
    "C50_mixed",
    "C50_ring_laws",
    "C50_division",
    "C50_functions_partial",
    "C50_inverse_values",
    "C50_pow_real",
    "C50_pow_int",
    "C50_pow_base",
    "C50_pow",
    "C50_quadratures_partial",
    "C50_inverse_partial",
    "C50_programs_partial",
    "C50_equal_programs_partial",
    "C50_euler",
    "C50_hyperbolic",
    "C50_sin_cos",
    "C50_sinh_cosh",
    "C50_exp_add",
    "C50_exp_log",
    "C50_log_exp",
    "C50_log_exp_refuted",
    "C50_tan",
    "C50_tanh",
    "C50_tanh_atanh",
    "C50_pow_overloads",
    "C50_real_arithmetic",
    "C50_real_functions",
    "C50_real_pow",
    "C50_real_quadratures",
    "C50_real_calculus",
    "C50_real_programs_partial",
    "C50_conjugate_arithmetic",
    "C50_conjugate_functions",
    "C50_conjugate_quadratures",
    "C50_conjugate_pow",
    "C50_conjugate_pow_int",
    "C50_conjugate_calculus",
    "C50_conjugate_value",
    "C50_conjugate_expansion",
    "C50_conjugate_log_refuted",
    "C50_conjugate_programs_partial",
    "C50_real_results_partial"
   ],
   "note": "Complex arithmetic without rounding. The Bernoulli numbers of tan and tanh are unlimited here (boost throws from order 259 on, see C14); sin and cos are limited to order 65536 (the factorials wrap), hence the _partial names of the functions and programs. atanh_d and atan_d are limited to orders below 2^31 and symbols starting with d (all symbols do, C03); sqrt, cbrt, asin, acos, atan, asinh, acosh, abs and erf do not compile for complex coefficients. The real programs theorem is partial in the same sense (orders of sin, cos, atanh_d and atan_d; only functions that exist for complex coefficients). log(exp d) = d is false beyond the principal strip (witness). Conjugation of programs asks for positive bases in pow(number, gdual) and the same orders; it fails for log at a negative number (witness)."
  },
  {
   "property": "C51",
   "status": "partial",
   "theorems": [
    "C51_programs_partial",
    "C51_numbers_partial",
    "C51_equal_programs_partial",
    "C51_int_float_partial",
    "C51_methods",
    "C51_identities_partial"
   ],
   "note": "Partial: exact real arithmetic; values are ints, floats and gdual_double. The orders are limited where the C++ function is (sin and cos 65536, asin, acos, atan 30, erf and erfc below 2^31). Python's complex results of ** and its other types are not represented."
  },
  {
   "property": "C52",
   "status": "partial",
   "theorems": [
    "C52_polynomials_partial",
    "C52_same_as_gduals_partial",
    "C52_equal_programs_partial",
    "C52_vanishing_refuted",
    "C52_affine_partial",
    "C52_methods",
    "C52_int_float_partial",
    "C52_types",
    "C52_functions",
    "C52_intervals",
    "C52_intervals_throw"
   ],
   "note": "Partial: exact real arithmetic; nothing about when a non-affine expression returns. The polynomials are proved for expressions none of whose subexpressions has the zero expansion and whose exponents of Taylor models are integers or halves other than zero; without that condition they are wrong (C52_vanishing_refuted: (1 + x**3)**2 at order 1 has polynomial 0). Enclosures of expressions are proved for sums, differences and multiples by numbers with shared expansion points and domains; with a negation or number - model only for symmetric remainders (C38_negation_iff). Returning with floats for ints implies returning with ints; the converse is not stated."
  },
  {
   "property": "C53",
   "status": "partial",
   "theorems": [
    "C53_components_partial",
    "C53_no_steps",
    "C53_abs_refuted",
    "C53_pow_refuted",
    "C53_taylor_partial",
    "C53_derivatives_partial",
    "C53_partial_partial",
    "C53_integral_partial",
    "C53_kinds",
    "C53_mixed_throws",
    "C53_plain",
    "C53_methods"
   ],
   "note": "Partial: exact arithmetic; coefficients of sizes 1 or N for one N (numpy arrays and the constructors from lists are in C48). The components of an expression are the expression on the components unless it contains abs of a gdual_vdouble whose constant coefficient is a single negative number, or number ** gdual_vdouble where the exponent has degree 0 and a component has not (or conversely); for those two the claim is false (C53_abs_refuted, C53_pow_refuted). C53_no_steps: expressions written without abs and ** need no condition. C53_derivatives_partial: exponents up to 170. C53_integral_partial: orders below 2^31."
  },
  {
   "property": "C54",
   "status": "partial",
   "theorems": [
    "C54_python_partial",
    "C54_programs_partial",
    "C54_python_derivative_partial",
    "C54_program_derivative_partial",
    "C54_python_dict_partial",
    "C54_program_dict_partial",
    "C54_python_integral_partial",
    "C54_program_integral_partial"
   ],
   "note": "Partial: exact real arithmetic; orders limited where a function is (C51, C09); exponents up to 170, since boost's factorial throws above (C19_high_derivatives_refuted). That the functions computed by programs have all partial derivatives near the point is proved, not assumed. With a dictionary the exponents are positive: an unknown symbol with exponent zero gives zero (C20_dict_unknown_throws_refuted). Integrals: orders below 2^31."
  },
  {
   "property": "C55",
   "status": "partial",
   "theorems": [
    "C55_scripts_partial",
    "C55_equal_scripts_partial",
    "C55_types",
    "C55_newton_partial",
    "C55_while_partial",
    "C55_forever_partial",
    "C55_while_ends_partial",
    "C55_while_types"
   ],
   "note": "Partial: exact real arithmetic (C55_types and C55_while_types hold for all coefficients); scripts without functions, integrate, subs or handled exceptions; every name has a value; a conditional means the branch taken at the center; orders limited where a function is (C51). C55_forever_partial and C55_while_ends_partial are about one while loop around a script without while."
  }
 ]
}