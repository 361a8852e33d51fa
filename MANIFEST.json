{
 "claims": [
  {
   "property": "C01",
   "status": "proved",
   "theorems": [
    "C01_evaluation",
    "C01_evaluation_shape"
   ],
   "note": ""
  },
  {
   "property": "C02",
   "status": "proved",
   "theorems": [
    "C02_values_at_points",
    "C02_points"
   ],
   "note": ""
  },
  {
   "property": "C03",
   "status": "proved",
   "theorems": [
    "C03_coeffs_values_coeffs",
    "C03_values_coeffs_values"
   ],
   "note": ""
  },
  {
   "property": "C04",
   "status": "proved",
   "theorems": [
    "C04_prolong_length",
    "C04_prolong_keeps_function",
    "C04_prolong_truncates"
   ],
   "note": ""
  },
  {
   "property": "C05",
   "status": "proved",
   "theorems": [
    "C05_diff",
    "C05_diff_exact",
    "C05_trunc_error"
   ],
   "note": "The code simplifies first: the result is the derivative of f with trailing coefficients of size at most eps^(2/5) dropped; exact when the last coefficient is larger (C05_diff_exact)."
  },
  {
   "property": "C06",
   "status": "partial",
   "theorems": [
    "C06_diff_order_zero_refuted",
    "C06_always_first_refuted"
   ],
   "note": "REFUTED: diff(f, 0) returns the first derivative (the first computeDerCoeffs call is unconditional). Witness f = x. Always: for every f whose last coefficient is not negligible the result is the first derivative (C06_always_first_refuted)."
  },
  {
   "property": "C07",
   "status": "proved",
   "theorems": [
    "C07_sum"
   ],
   "note": ""
  },
  {
   "property": "C08",
   "status": "proved",
   "theorems": [
    "C08_cumsum"
   ],
   "note": "cumsum simplifies its result: exact when nothing was dropped (the result is longer than f), otherwise within the stated bound; the value at -1 is always exactly 0."
  },
  {
   "property": "C09",
   "status": "proved",
   "theorems": [
    "C09_inner",
    "C09_dot",
    "C09_innerw"
   ],
   "note": ""
  },
  {
   "property": "C10",
   "status": "proved",
   "theorems": [
    "C10_quadrature",
    "C10_quadrature_length",
    "C10_quadrature_symmetric",
    "C10_quadrature_interval"
   ],
   "note": ""
  },
  {
   "property": "C11",
   "status": "proved",
   "theorems": [
    "C11_add",
    "C11_add_error",
    "C11_subtract",
    "C11_negative",
    "C11_add_number",
    "C11_add_row",
    "C11_iadd",
    "C11_fun_add",
    "C11_fun_subtract",
    "C11_fun_negative"
   ],
   "note": ""
  },
  {
   "property": "C12",
   "status": "proved",
   "theorems": [
    "C12_multiply",
    "C12_multiply_error",
    "C12_multiply_number",
    "C12_multiply_constant_left",
    "C12_multiply_constant_right",
    "C12_divide_number",
    "C12_fun_multiply"
   ],
   "note": "multiply simplifies the exact product; retained coefficients are exact, dropped ones at most eps^(2/5); squares are rebuilt from absolute values on the grid."
  },
  {
   "property": "C13",
   "status": "partial",
   "theorems": [
    "C13_multiply_constant_columns_refuted",
    "C13_both_constant_partial"
   ],
   "note": "REFUTED for every pair with one non-constant factor: the code asserts equal shapes of coefficient arrays and raises. Proved: two constants with equal column counts are multiplied pointwise (C13_both_constant_partial)."
  },
  {
   "property": "C14",
   "status": "proved",
   "theorems": [
    "C14_chop_total",
    "C14_chop_tol",
    "C14_chop_short",
    "C14_chop_zero",
    "C14_chop_tail"
   ],
   "note": ""
  },
  {
   "property": "C15",
   "status": "partial",
   "theorems": [
    "C15_chop_scale_refuted",
    "C15_chop_sign_partial"
   ],
   "note": "REFUTED for every tolerance: the in-place normalisation divides only entry 0 by the maximum, so the tolerance is absolute. Invariance under sign change is proved."
  },
  {
   "property": "C16",
   "status": "proved",
   "theorems": [
    "C16_simplify_prefix"
   ],
   "note": ""
  },
  {
   "property": "C17",
   "status": "partial",
   "theorems": [
    "C17_simplify_longer_refuted",
    "C17_one_more_partial"
   ],
   "note": "REFUTED: 17 equal coefficients become 18 (one trailing zero). Proved: at most one coefficient more, and that one is zero (C17_one_more_partial)."
  },
  {
   "property": "C18",
   "status": "proved",
   "theorems": [
    "C18_map_bijection",
    "C18_call",
    "C18_call_outside"
   ],
   "note": ""
  },
  {
   "property": "C19",
   "status": "proved",
   "theorems": [
    "C19_diff",
    "C19_diff_exact",
    "C19_sum",
    "C19_cumsum",
    "C19_inner",
    "C19_inner_mismatch",
    "C19_dot",
    "C19_norm",
    "C19_innerw"
   ],
   "note": "As in C05/C08 diff and cumsum simplify; bounds stated, exact when nothing is dropped."
  },
  {
   "property": "C20",
   "status": "partial",
   "theorems": [
    "C20_domain_check_refuted",
    "C20_hstack_refuted",
    "C20_rejects_partial",
    "C20_both_orders_partial"
   ],
   "note": "REFUTED: the test has no absolute value, so a second operand to the left is accepted (and hstack tests nothing); the directions that hold are the _partial theorems."
  },
  {
   "property": "C21",
   "status": "proved",
   "theorems": [
    "C21_flatten_from_coeffs",
    "C21_from_coeffs_flatten",
    "C21_from_coeffs_misfit"
   ],
   "note": ""
  },
  {
   "property": "C22",
   "status": "proved",
   "theorems": [
    "C22_flipud",
    "C22_lval",
    "C22_rval",
    "C22_fliplr"
   ],
   "note": ""
  },
  {
   "property": "C23",
   "status": "proved",
   "theorems": [
    "C23_diffmat"
   ],
   "note": "Every n, m (exact real arithmetic)."
  },
  {
   "property": "C24",
   "status": "proved",
   "theorems": [
    "C24_convertmat",
    "C24_convertmat_inv_left",
    "C24_convertmat_inv_right"
   ],
   "note": "Every n >= 2, every K1, K2; both directions of the inverse."
  },
  {
   "property": "C25",
   "status": "partial",
   "theorems": [
    "C25_multmat_partial",
    "C25_multmat_large_refuted",
    "C25_multmat_long_refuted"
   ],
   "note": "REFUTED: from k = 100 rows on sptoeplitz_fast drops the first superdiagonal when coefficient 0 of f is zero, and f with more than k coefficients is cut. Proved for the bases 0 and 1 otherwise (k >= 3)."
  },
  {
   "property": "C26",
   "status": "proved",
   "theorems": [
    "C26_next_power_of_two",
    "C26_small",
    "C26_fixed_points"
   ],
   "note": ""
  },
  {
   "property": "C27",
   "status": "proved",
   "theorems": [
    "C27_delete_col",
    "C27_delete_col_out_of_range",
    "C27_delete_cols",
    "C27_delete_rows",
    "C27_delete_rows_out_of_range",
    "C27_vappend"
   ],
   "note": ""
  },
  {
   "property": "C28",
   "status": "partial",
   "theorems": [
    "C28_delete_row_refuted",
    "C28_delete_row_malformed_refuted",
    "C28_delete_empty_row_partial"
   ],
   "note": "REFUTED: the index array keeps mat.indices[i+1:] instead of dropping n entries; malformed result whenever the row has n>0 stored entries and n differs from i+1. Holds for rows without stored entries."
  },
  {
   "property": "C29",
   "status": "proved",
   "theorems": [
    "C29_values",
    "C29_values_coeffs_values",
    "C29_coeffs_values_coeffs",
    "C29_interpolation",
    "C29_unique"
   ],
   "note": ""
  },
  {
   "property": "C30",
   "status": "proved",
   "theorems": [
    "C30_horner_complex",
    "C30_horner_real",
    "C30_call",
    "C30_call_error"
   ],
   "note": ""
  },
  {
   "property": "C31",
   "status": "proved",
   "theorems": [
    "C31_prolong",
    "C31_prolong_object",
    "C31_prolong_shorter"
   ],
   "note": ""
  },
  {
   "property": "C32",
   "status": "partial",
   "theorems": [
    "C32_diff_partial",
    "C32_diff_refuted"
   ],
   "note": "Proved for odd lengths, and for even lengths when the order is even or the highest coefficient is zero. REFUTED for odd orders and even lengths (the cosine mode is differentiated as an exponential)."
  },
  {
   "property": "C33",
   "status": "partial",
   "theorems": [
    "C33_cumsum_refuted",
    "C33_cumsum_constant_refuted",
    "C33_cumsum_partial"
   ],
   "note": "REFUTED: cumsum overwrites a coefficient of f, corrects the wrong coefficient for the constant and raises for constants. The _partial theorem gives a class where it is right."
  },
  {
   "property": "C34",
   "status": "partial",
   "theorems": [
    "C34_division_partial",
    "C34_power_partial",
    "C34_number_divided_by_function_refuted",
    "C34_number_to_the_power_refuted"
   ],
   "note": "REFUTED: operands are exchanged: 1/f returns f/1, 2**f samples f**2. Proved for every number and function: number/f is f/number, hence right exactly where f(x)^2 = number^2 (C34_division_partial); number**f samples f(x)**number (C34_power_partial)."
  },
  {
   "property": "C35",
   "status": "partial",
   "theorems": [
    "C35_conj_refuted",
    "C35_conj_partial",
    "C35_real_partial",
    "C35_imag",
    "C35_real_refuted",
    "C35_handler_refuted",
    "C35_handler_partial"
   ],
   "note": "imag proved; real proved except when all samples have small or negative real part (REFUTED there: the threshold test has no absolute value). np.conj is a ufunc and goes through adaptive construction: REFUTED, np.conj of e^(6 i pi x) is the zero function (C35_conj_refuted); proved for real polynomials of degree at most 15 (C35_conj_partial). The function conj of the module, called directly, returns f itself (REFUTED for complex f, C35_handler_refuted; right for real f)."
  },
  {
   "property": "C36",
   "status": "proved",
   "theorems": [
    "C36_givens"
   ],
   "note": ""
  },
  {
   "property": "C37",
   "status": "partial",
   "theorems": [
    "C37_slogdet_hessenberg",
    "C37_detH_refuted",
    "C37_detH_partial"
   ],
   "note": "slogdet_hessenberg proved for every size (a singular matrix raises). detH: right for orders 2 and 3, REFUTED for order 4 (6 instead of 4) and raises for order 1."
  },
  {
   "property": "C38",
   "status": "proved",
   "theorems": [
    "C38_minimumSwaps"
   ],
   "note": ""
  },
  {
   "property": "C39",
   "status": "proved",
   "theorems": [
    "C39_lucp"
   ],
   "note": "Exact over the reals when no pivot is below tol; otherwise the residual is bounded by tol + min(n,m) tol^2. The code works in place on the caller's array (not modelled)."
  },
  {
   "property": "C40",
   "status": "partial",
   "theorems": [
    "C40_bem_solve",
    "C40_bem_solve_adj",
    "C40_bem_solve_zero",
    "C40_bem_solve_null_partial",
    "C40_bem_solve_null_adj_partial",
    "C40_bem_solve_null_refuted",
    "C40_bem_min_norm",
    "C40_bemw_solve",
    "C40_bemw_solve_adj",
    "C40_bemw_solve_null",
    "C40_bemw_solve_zero",
    "C40_bemw_solve_null_adj",
    "C40_bemw_solve_zero_adj",
    "C40_bemw_min_norm"
   ],
   "note": "BEM.solve, solve_adj, solve_zero, min_norm and all of BEMW (m borders, storage array included) proved. solve_null / solve_null_adj proved when the inner matrix is not singular. REFUTED: BEM.solve_null with a singular inner matrix returns (phi,0) without dividing by b.phi, so the last equation gives b.phi instead of 1 (min_norm is not affected)."
  },
  {
   "property": "C41",
   "status": "partial",
   "theorems": [
    "C41_nullspace_refuted",
    "C41_nullspace_singular_refuted"
   ],
   "note": "REFUTED: for a regular bordered matrix nullspace() is the zero vector; for a singular one its pivot delta is zero and it divides by zero (and with a singular inner solver the attribute does not exist)."
  },
  {
   "property": "C42",
   "status": "partial",
   "theorems": [
    "C42_nleq_err_stops",
    "C42_iteration_limit_refuted"
   ],
   "note": "Termination, damping factors, monotonicity test, meaning of success for arbitrary residuals, solvers and inner products. REFUTED: with QNERR the reported number of iterations can be miter + 2 (C42_iteration_limit_refuted)."
  },
  {
   "property": "C43",
   "status": "partial",
   "theorems": [
    "C43_deflation_derivative",
    "C43_frechet_matvec_partial",
    "C43_newton_system_refuted",
    "C43_deflated_residual_refuted"
   ],
   "note": "REFUTED for both operator classes as used: NewtonSystem gives FrechetDeflated a functional that cannot be called (TypeError as soon as there is a known solution); DeflatedResidual raises on an absolute import and otherwise uses eta F(u) in place of F(u). Proved: deflation_linearization returns the derivative of eta, and FrechetDeflated applied with a callable functional is the derivative of eta F."
  },
  {
   "property": "C44",
   "status": "partial",
   "theorems": [
    "C44_row_is_quadrature",
    "C44_row_exact_partial",
    "C44_row_exact_refuted"
   ],
   "note": "REFUTED in general (f = u = x on two points). Proved: the row is Clenshaw-Curtis quadrature of f u, exact when deg f + deg u < n."
  },
  {
   "property": "C45",
   "status": "proved",
   "theorems": [
    "C45_nested_grid",
    "C45_points_nested"
   ],
   "note": ""
  },
  {
   "property": "C46",
   "status": "partial",
   "theorems": [
    "C46_cont_namespace_partial",
    "C46_sync_any_number_partial",
    "C46_history_nodup",
    "C46_history_synced_partial",
    "C46_twopar_refuted",
    "C46_items_dict"
   ],
   "note": "One-parameter states: proved over every history of constructions, arithmetic, copies, in-place updates and assignments. REFUTED for two parameters: the loop of sync_ns stops at the first missing name."
  },
  {
   "property": "C47",
   "status": "partial",
   "theorems": [
    "C47_binary",
    "C47_unary",
    "C47_mismatch",
    "C47_dot",
    "C47_dot_symmetric",
    "C47_dot_additive_partial",
    "C47_dot_weights_refuted",
    "C47_norm",
    "C47_normalize",
    "C47_real_partial",
    "C47_real_refuted",
    "C47_innerw_refuted",
    "C47_flatten_from_coeffs_partial",
    "C47_from_coeffs_flatten",
    "C47_flatten_phi_refuted",
    "C47_size_partial",
    "C47_size_refuted"
   ],
   "note": "Componentwise arithmetic, inner product, norm, normalize and from_coeffs/flatten proved. REFUTED: custom weights are lost by arithmetic; numpy.real/imag/conj raise for deflation and two-parameter continuation states; innerw raises; phi is not in flatten; size is off by one for some states."
  },
  {
   "property": "C48",
   "status": "partial",
   "theorems": [
    "C48_restrict",
    "C48_restrict_single_refuted"
   ],
   "note": "Proved for two or more columns; REFUTED for a single column (the code raises for every sub-interval)."
  },
  {
   "property": "C49",
   "status": "partial",
   "theorems": [
    "C49_construct",
    "C49_construct_error",
    "C49_construct_short_refuted",
    "C49_fun_construct"
   ],
   "note": "Adaptive construction terminates for every function, and its result is described exactly; REFUTED part: it raises for maxLength below 9 or in 10..16 (C49_construct_short_refuted)."
  },
  {
   "property": "C50",
   "status": "proved",
   "theorems": [
    "C50_hstack",
    "C50_getitem"
   ],
   "note": ""
  },
  {
   "property": "C51",
   "status": "partial",
   "theorems": [
    "C51_deepcopy_partial",
    "C51_deepcopy_hscale_refuted"
   ],
   "note": "Coefficients, eps, maxLength kept; REFUTED for hscale, which is replaced by eps."
  },
  {
   "property": "C52",
   "status": "partial",
   "theorems": [
    "C52_add_out_refuted",
    "C52_adds_to_out_refuted"
   ],
   "note": "REFUTED: numpy.add(f, g, out=h) returns h + g. Always: the result is h + g whenever the call returns (C52_adds_to_out_refuted)."
  },
  {
   "property": "C53",
   "status": "proved",
   "theorems": [
    "C53_barycentric_evaluation"
   ],
   "note": ""
  },
  {
   "property": "C54",
   "status": "proved",
   "theorems": [
    "C54_differentiation_matrix"
   ],
   "note": ""
  },
  {
   "property": "C55",
   "status": "partial",
   "theorems": [
    "C55_type1_quadrature_refuted",
    "C55_lines_partial"
   ],
   "note": "REFUTED: chebpts_type1 returns the Clenshaw-Curtis weights of the second-kind points; N = 3 integrates x^2 to 1/2. Proved: exact for straight lines on any interval, N >= 2 (C55_lines_partial)."
  },
  {
   "property": "C56",
   "status": "proved",
   "theorems": [
    "C56_remove_bc",
    "C56_get_bc",
    "C56_replace_bc"
   ],
   "note": ""
  },
  {
   "property": "C57",
   "status": "proved",
   "theorems": [
    "C57_round_up",
    "C57_secant",
    "C57_moving_average",
    "C57_find_nearest",
    "C57_find_nearest_empty"
   ],
   "note": ""
  },
  {
   "property": "C58",
   "status": "proved",
   "theorems": [
    "C58_eliminate_zeros",
    "C58_flip_rows"
   ],
   "note": ""
  },
  {
   "property": "C59",
   "status": "partial",
   "theorems": [
    "C59_call_stable_partial",
    "C59_call_refuted"
   ],
   "note": "REFUTED for real functions of even length: evaluation halves a stored coefficient in place. Proved for odd lengths and functions flagged complex."
  },
  {
   "property": "C60",
   "status": "proved",
   "theorems": [
    "C60_inner"
   ],
   "note": ""
  },
  {
   "property": "C61",
   "status": "proved",
   "theorems": [
    "C61_add",
    "C61_subtract",
    "C61_negative",
    "C61_add_number",
    "C61_multiply_number",
    "C61_divide_number"
   ],
   "note": ""
  },
  {
   "property": "C62",
   "status": "proved",
   "theorems": [
    "C62_simplify",
    "C62_simplify_error"
   ],
   "note": ""
  },
  {
   "property": "C63",
   "status": "partial",
   "theorems": [
    "C63_circshift_partial",
    "C63_circshift_refuted"
   ],
   "note": "Proved for odd lengths and for zero highest coefficient; REFUTED for even lengths."
  },
  {
   "property": "C64",
   "status": "partial",
   "theorems": [
    "C64_convolution_partial",
    "C64_convolution_refuted"
   ],
   "note": "Proved for odd lengths; REFUTED for even lengths (highest mode doubled)."
  },
  {
   "property": "C65",
   "status": "proved",
   "theorems": [
    "C65_resample",
    "C65_resample_general",
    "C65_refine",
    "C65_objects"
   ],
   "note": ""
  },
  {
   "property": "C66",
   "status": "partial",
   "theorems": [
    "C66_multiply_partial",
    "C66_multiply_constant",
    "C66_square_refuted",
    "C66_conjugate_refuted",
    "C66_multiply_even_refuted"
   ],
   "note": "Proved for odd lengths and operands that are neither equal nor np.conj of each other, and for constant factors. REFUTED: f*f raises; f*np.conj(f) raises (C66_conjugate_refuted); even lengths alias."
  },
  {
   "property": "C67",
   "status": "proved",
   "theorems": [
    "C67_sum"
   ],
   "note": ""
  },
  {
   "property": "C68",
   "status": "partial",
   "theorems": [
    "C68_prolong_function",
    "C68_prolong_function_same_refuted",
    "C68_prolong_coeffs_partial",
    "C68_prolong_coeffs_refuted"
   ],
   "note": "prolong (function) proved for N > n, returns nothing for N = n; prolong_coeffs proved except from even n to n+1 (REFUTED there)."
  },
  {
   "property": "C69",
   "status": "proved",
   "theorems": [
    "C69_multmat_high"
   ],
   "note": "Every k >= 2, lam >= 2, eps; f with 2 to k coefficients (one coefficient is the scalar branch)."
  },
  {
   "property": "C70",
   "status": "proved",
   "theorems": [
    "C70_intmat"
   ],
   "note": "Every k >= 2."
  },
  {
   "property": "C71",
   "status": "proved",
   "theorems": [
    "C71_bem_history",
    "C71_bemw_history"
   ],
   "note": "BEM: the object after any update sequence equals the freshly built one. BEMW: after any update sequence solve / solve_adj are exact for the current borders whatever the contents of the allocated arrays."
  },
  {
   "property": "C72",
   "status": "proved",
   "theorems": [
    "C72_solve",
    "C72_solve_adj",
    "C72_null_right",
    "C72_null_left",
    "C72_particular",
    "C72_particular_adj",
    "C72_bem_on_qr",
    "C72_bem_on_singular_qr"
   ],
   "note": "Square matrices, contract of geqp3 as hypothesis (qr_fact); ormqr and trtrs modelled concretely (reflector application, substitution, unchanged right hand side on a zero diagonal)."
  },
  {
   "property": "C73",
   "status": "proved",
   "theorems": [
    "C73_det",
    "C73_det_rectangular"
   ],
   "note": "Square, and one column more than rows (continuation). Householder count, permutation parity through minimumSwaps, sign and exp-log product all modelled."
  },
  {
   "property": "C74",
   "status": "proved",
   "theorems": [
    "C74_bem_det"
   ],
   "note": "For any exact inner solver whose det is right (QR: C73)."
  },
  {
   "property": "C75",
   "status": "partial",
   "theorems": [
    "C75_solve_square",
    "C75_solves",
    "C75_min_norm_partial",
    "C75_min_norm_refuted",
    "C75_tangent"
   ],
   "note": "REFUTED for two or more extra columns: the two triangular solves with the Cholesky factor are done in the wrong order (L L^T instead of L^T L), so the result solves A x = b but is not the shortest solution (C75_min_norm_refuted). Proved: square case, A x = b for any number of extra columns, least norm for exactly one extra column, tangent. QR factors come from LAPACK (contract qr_fact); dense only."
  },
  {
   "property": "C76",
   "status": "partial",
   "theorems": [
    "C76_pseudo_rank_partial",
    "C76_pseudo_rank_refuted"
   ],
   "note": "REFUTED: the test divides by r[0] and also multiplies the tolerance by r[0], so the threshold is eps r[0]^2 (C76_pseudo_rank_refuted). Proved: what it computes exactly."
  },
  {
   "property": "C77",
   "status": "proved",
   "theorems": [
    "C77_det",
    "C77_detH"
   ],
   "note": "Proved for dense real matrices (contract qr_fact for geqp3); detH raises ValueError when the determinant is exactly zero, which the theorem states."
  },
  {
   "property": "C78",
   "status": "partial",
   "theorems": [
    "C78_right_null_partial",
    "C78_right_null_refuted",
    "C78_argument_kept_refuted"
   ],
   "note": "REFUTED: the result is gathered with the column permutation although it has to be scattered (wrong unless the permutation is its own inverse), and lucp overwrites a float argument. Proved: the claim for permutations of order two."
  },
  {
   "property": "C79",
   "status": "partial",
   "theorems": [
    "C79_solve",
    "C79_solve_null",
    "C79_bmatrix",
    "C79_bmatrix_singular",
    "C79_bmatrix_null_partial"
   ],
   "note": "Proved, except that BMatrix.solve_null with singular A returns (phi, 0) whose last equation gives b.phi instead of 1 (C79_bmatrix_null_partial); singular means R[-1,-1] = 0 exactly. brd_solve and brd_solve_detail read an undefined name A and cannot run; brd_null calls an undefined function in its singular branch: not modelled."
  },
  {
   "property": "C80",
   "status": "partial",
   "theorems": [
    "C80_brd_null_simp_partial",
    "C80_brd_null_simp_refuted"
   ],
   "note": "REFUTED: LUCP returns gather permutations, solve_nonsing expects SuperLU's scatter permutations (C80_brd_null_simp_refuted). Proved: right when both permutations are of order two (C80_brd_null_simp_partial)."
  },
  {
   "property": "C81",
   "status": "partial",
   "theorems": [
    "C81_logdet_partial",
    "C81_logdet_refuted"
   ],
   "note": "REFUTED: perm_c is ignored, the sign is wrong when it is odd. Proved: logarithm, and sign up to the parity of perm_c."
  },
  {
   "property": "C82",
   "status": "partial",
   "theorems": [
    "C82_inplace",
    "C82_atomic_refuted"
   ],
   "note": "REFUTED: the parameters are overwritten before the function operation raises. The successful case is proved."
  },
  {
   "property": "C83",
   "status": "partial",
   "theorems": [
    "C83_loop",
    "C83_nested_partial",
    "C83_nested_refuted"
   ],
   "note": "REFUTED for nested loops: the position is stored in the object. A single loop is proved."
  },
  {
   "property": "C84",
   "status": "partial",
   "theorems": [
    "C84_deepcopy",
    "C84_deepcopy_content",
    "C84_const_like",
    "C84_arithmetic_refuted"
   ],
   "note": "REFUTED for arithmetic (the namespace object of the first operand is passed on); proved for deepcopy and zeros_like/ones_like."
  },
  {
   "property": "C85",
   "status": "partial",
   "theorems": [
    "C85_from_state_partial",
    "C85_from_state_two_partial",
    "C85_name_clash_refuted"
   ],
   "note": "Proved when from_state returns; REFUTED for parameters named like a constructor argument (a, u, p1, ...)."
  },
  {
   "property": "C86",
   "status": "proved",
   "theorems": [
    "C86_tangent"
   ],
   "note": ""
  },
  {
   "property": "C87",
   "status": "proved",
   "theorems": [
    "C87_fun_file",
    "C87_cont_file"
   ],
   "note": ""
  },
  {
   "property": "C88",
   "status": "proved",
   "theorems": [
    "C88_qnerr_stops",
    "C88_qnerr_broyden",
    "C88_broyden_secant"
   ],
   "note": "Termination for arbitrary data; Broyden's method in any real inner product space with an exact linear solver."
  },
  {
   "property": "C89",
   "status": "partial",
   "theorems": [
    "C89_first_test_refuted",
    "C89_contraction_refuted",
    "C89_failure_refuted",
    "C89_success_partial"
   ],
   "note": "REFUTED: sigma[0] is the norm, not its square (first convergence test, contraction factor), and the early returns have 4 values where Newton.solve unpacks 6 (ValueError). Proved: it ends, and on success the reported norm is that of the last step and at most tol when tol <= 1 or the step is not the first (C89_success_partial)."
  },
  {
   "property": "C90",
   "status": "partial",
   "theorems": [
    "C90_newton_standard_partial",
    "C90_linear_failure_refuted"
   ],
   "note": "REFUTED part: warnings is not imported, so a failed linear solve raises NameError."
  },
  {
   "property": "C91",
   "status": "partial",
   "theorems": [
    "C91_standard_refuted",
    "C91_nleq_refuted",
    "C91_nleq_partial"
   ],
   "note": "REFUTED: x += dx works on the caller's state. Proved: NLEQ-ERR modifies the guess only if its first correction is below the tolerance (C91_nleq_partial)."
  },
  {
   "property": "C92",
   "status": "partial",
   "theorems": [
    "C92_full_step_refuted",
    "C92_some_full_step_partial"
   ],
   "note": "REFUTED: the flag qnerr_iter is not reset when a later step is damped. Proved: QNERR starts only if this or an earlier accepted step was a full one that contracted by theta_max (C92_some_full_step_partial)."
  },
  {
   "property": "C93",
   "status": "partial",
   "theorems": [
    "C93_newton_solve",
    "C93_seeker_refuted"
   ],
   "note": "REFUTED for NewtonSeeker: five values are unpacked from a tuple of six."
  },
  {
   "property": "C94",
   "status": "partial",
   "theorems": [
    "C94_gbit_ends",
    "C94_gbit_broyden",
    "C94_broyden_inverse",
    "C94_gbit_exact",
    "C94_exact_guess",
    "C94_exact_guess_refuted",
    "C94_limit_refuted"
   ],
   "note": "Ends for arbitrary operators; Broyden's method (secant condition, residual relation) in any real inner product space. REFUTED: with giant_simple an exact guess never succeeds; an estimate above epsilon_limit restarts instead of ending."
  },
  {
   "property": "C95",
   "status": "partial",
   "theorems": [
    "C95_giant_partial",
    "C95_success_refuted",
    "C95_failure_refuted"
   ],
   "note": "Termination, damping and first convergence test proved for arbitrary solvers. REFUTED: the second test returns x_k + dxbar instead of x_{k+1} + dxbar; if the first step is exact failure is reported."
  },
  {
   "property": "C96",
   "status": "proved",
   "theorems": [
    "C96_eta_formula",
    "C96_deflated_roots",
    "C96_newton_rhs",
    "C96_known_root_removed"
   ],
   "note": ""
  },
  {
   "property": "C97",
   "status": "partial",
   "theorems": [
    "C97_residual_precond_partial",
    "C97_residual_precond_refuted",
    "C97_frechet_precond_refuted"
   ],
   "note": "REFUTED: the formula multiplies b instead of P^-1 b and uses eta^2 + d(b); right only for b = eta F and P = I (proved)."
  },
  {
   "property": "C98",
   "status": "partial",
   "theorems": [
    "C98_weighted_row_partial",
    "C98_weighted_row_refuted"
   ],
   "note": "REFUTED for more than one column; proved for one."
  },
  {
   "property": "C99",
   "status": "partial",
   "theorems": [
    "C99_argument_kept_partial",
    "C99_argument_kept_refuted"
   ],
   "note": "REFUTED: Fun.prolong works in place, a smaller n truncates the caller's function; for n >= len f the values are kept (proved)."
  },
  {
   "property": "C100",
   "status": "proved",
   "theorems": [
    "C100_convert_functional",
    "C100_evaluation_row"
   ],
   "note": ""
  },
  {
   "property": "C101",
   "status": "proved",
   "theorems": [
    "C101_to_function_row",
    "C101_row_to_function"
   ],
   "note": ""
  },
  {
   "property": "C102",
   "status": "proved",
   "theorems": [
    "C102_weights_positive",
    "C102_quadrature_stable"
   ],
   "note": ""
  },
  {
   "property": "C103",
   "status": "proved",
   "theorems": [
    "C103_block_exact",
    "C103_block_leading",
    "C103_leading_sharp"
   ],
   "note": ""
  },
  {
   "property": "C104",
   "status": "proved",
   "theorems": [
    "C104_system_exact",
    "C104_system_leading",
    "C104_square"
   ],
   "note": ""
  },
  {
   "property": "C105",
   "status": "partial",
   "theorems": [
    "C105_adjoint_partial",
    "C105_self_adjoint_refuted"
   ],
   "note": "REFUTED: for variable coefficients of derivative terms the coefficient is multiplied outside the derivative; (x u')' on v = x gives -1 instead of 1. Proved for constant derivative coefficients."
  },
  {
   "property": "C106",
   "status": "partial",
   "theorems": [
    "C106_add_partial",
    "C106_neg_partial",
    "C106_sub_partial",
    "C106_system_add_partial",
    "C106_system_sub_partial",
    "C106_add_integral_refuted",
    "C106_neg_integral_refuted",
    "C106_mul_refuted"
   ],
   "note": "REFUTED with integral terms on both sides (L+L acts as 4L on u=1), for the negative of an integral term, and for products (L1*L2 is L1+L2). Proved when at most one side has integral terms. Not modelled: QuasiOpBlock * number calls other.info() and raises AttributeError; __rmul__ recurses."
  },
  {
   "property": "C107",
   "status": "partial",
   "theorems": [
    "C107_row_partial",
    "C107_newton_partial",
    "C107_values_refuted"
   ],
   "note": "REFUTED for a required value other than 0 (the row adds the value to every entry). Proved for value 0. Systems with two or more functions call the constraint with one argument (TypeError), not modelled."
  },
  {
   "property": "C108",
   "status": "proved",
   "theorems": [
    "C108_eigenpair"
   ],
   "note": ""
  },
  {
   "property": "C109",
   "status": "proved",
   "theorems": [
    "C109_sizes",
    "C109_upper",
    "C109_returns",
    "C109_run",
    "C109_success",
    "C109_failure",
    "C109_stops",
    "C109_all_fail"
   ],
   "note": ""
  },
  {
   "property": "C110",
   "status": "partial",
   "theorems": [
    "C110_nested_partial",
    "C110_nested_refuted"
   ],
   "note": "REFUTED: a guess with 20 points is refined to 33 points. Proved for sizes 2^j+1 when the upper bound does not clip."
  },
  {
   "property": "C111",
   "status": "partial",
   "theorems": [
    "C111_agree_partial",
    "C111_agree_refuted"
   ],
   "note": "REFUTED for solvers that update the guess in place (C91): the difference is then always 0 and the second size is the last. Proved for solvers that leave the guess alone."
  },
  {
   "property": "C112",
   "status": "partial",
   "theorems": [
    "C112_block_fourier",
    "C112_block_error",
    "C112_constant_exact",
    "C112_derivative_real",
    "C112_integrand_refuted",
    "C112_two_integrals_refuted",
    "C112_even_refuted"
   ],
   "note": "REFUTED for integral terms (the integrand is ignored; only the first integral coefficient is used) and for an even number of coefficients when the highest cosine is present. Proved for all other blocks, including integral terms with integrand 1."
  },
  {
   "property": "C113",
   "status": "proved",
   "theorems": [
    "C113_system",
    "C113_galerkin",
    "C113_constant_solves"
   ],
   "note": ""
  },
  {
   "property": "C114",
   "status": "partial",
   "theorems": [
    "C114_aggregation",
    "C114_aggregation_total",
    "C114_derivative_refuted"
   ],
   "note": "REFUTED for m = 1 (wrong sign and scale: (1-cos w)/Rscl instead of -(1-cos w)). Proved for m = 0."
  },
  {
   "property": "C115",
   "status": "partial",
   "theorems": [
    "C115_adjoint_blocks",
    "C115_adjoint_refuted"
   ],
   "note": "REFUTED: trigspec ignores the adjoint flag (u' has adjoint -u'); only block positions are exchanged, which is proved."
  },
  {
   "property": "C116",
   "status": "proved",
   "theorems": [
    "C116_tangent",
    "C116_tangent_unique"
   ],
   "note": ""
  },
  {
   "property": "C117",
   "status": "partial",
   "theorems": [
    "C117_correction_partial",
    "C117_hyperplane_refuted"
   ],
   "note": "REFUTED: the sign of the parameter component is wrong; the product with the tangent is 2<T_u, Delta> instead of 0. The linearised equation itself holds (proved)."
  },
  {
   "property": "C118",
   "status": "partial",
   "theorems": [
    "C118_bif",
    "C118_system_refuted"
   ],
   "note": "REFUTED for systems with more than one equation: B_u.flatten() has the wrong order. Proved for one equation."
  },
  {
   "property": "C119",
   "status": "partial",
   "theorems": [
    "C119_solve_refuted",
    "C119_solve_adj_refuted"
   ],
   "note": "REFUTED: both methods raise on every right side."
  },
  {
   "property": "C120",
   "status": "partial",
   "theorems": [
    "C120_lu_partial",
    "C120_qr_refuted"
   ],
   "note": "REFUTED for 'qr' (reads the missing attribute A). Proved for 'lu'."
  },
  {
   "property": "C121",
   "status": "partial",
   "theorems": [
    "C121_corrector_matvec",
    "C121_corrector_adjoint",
    "C121_precond_refuted"
   ],
   "note": "REFUTED for the preconditioner (_matvec returns n instead of n+1 numbers). Proved for the corrector."
  },
  {
   "property": "C122",
   "status": "proved",
   "theorems": [
    "C122_roots_complete",
    "C122_roots_defined",
    "C122_sign_changes"
   ],
   "note": "Exact eigenvalues are an assumption of the theorems (scipy.linalg.eigvals). For at most 50 coefficients every zero is found; beyond that every sign change larger than the accumulated truncation error."
  },
  {
   "property": "C123",
   "status": "partial",
   "theorems": [
    "C123_roots_sound_partial",
    "C123_roots_outside_refuted"
   ],
   "note": "REFUTED: linear functions: the range test is done only if all_roots is set (x+3 on [-1,1] gives -3). Proved: returned values are near zeros of a nearby series."
  },
  {
   "property": "C124",
   "status": "partial",
   "theorems": [
    "C124_residual_partial",
    "C124_tolerance_refuted"
   ],
   "note": "REFUTED: the tolerance of f is not passed to roots_main; x + 7e-8 T_2 with eps 2^-52 gives 0. Proved: residual bound with the fixed 1.48e-8."
  },
  {
   "property": "C125",
   "status": "partial",
   "theorems": [
    "C125_defined_partial",
    "C125_zero_column_refuted"
   ],
   "note": "REFUTED: an identically zero column raises (0/0). Proved: defined if every column has a non-negligible last coefficient."
  },
  {
   "property": "C126",
   "status": "partial",
   "theorems": [
    "C126_minandmax_partial",
    "C126_values_consistent",
    "C126_quadratic_refuted"
   ],
   "note": "REFUTED for quadratics: the critical point outside the interval is used (x^2/2+3x gives -4.5 at -3). Proved if no zero of the derivative lies (just) outside."
  },
  {
   "property": "C127",
   "status": "proved",
   "theorems": [
    "C127_orthonormal"
   ],
   "note": "Hypotheses: at least two columns, not all zero, F resolved (ishappy); see C129 for the rest."
  },
  {
   "property": "C128",
   "status": "partial",
   "theorems": [
    "C128_factorisation_partial",
    "C128_large_refuted"
   ],
   "note": "REFUTED: the tolerance is multiplied by the scale of F twice; for columns c, c x with c >= 1e8 the first column of QR is -c. Proved for eps*max|F|*max(n,m) <= 9/10: columns are exact or negligible (R_jj below the tolerance, error at most 2 R_jj)."
  },
  {
   "property": "C129",
   "status": "partial",
   "theorems": [
    "C129_defined_partial",
    "C129_one_column_refuted",
    "C129_unhappy_refuted",
    "C129_zero_refuted"
   ],
   "note": "REFUTED: one column calls the missing method innerproduct; unresolved functions raise in happiness_check (array not Fortran contiguous); the zero function gives NaN. Proved otherwise."
  },
  {
   "property": "C130",
   "status": "partial",
   "theorems": [
    "C130_strided_refuted"
   ],
   "note": "REFUTED: the coefficient array of Q is a slice and never Fortran contiguous; diff, simplify, prolong and qr raise."
  },
  {
   "property": "C131",
   "status": "partial",
   "theorems": [
    "C131_even_norm_partial",
    "C131_aliasing_refuted"
   ],
   "note": "REFUTED: f**p is sampled on a grid that resolves f only; T_16 on [-1,1] gives norm^2 = 2 instead of 1022/1023. Proved for p*(n-1) <= 8 with the truncation error of f**p."
  },
  {
   "property": "C132",
   "status": "partial",
   "theorems": [
    "C132_one_norm_partial",
    "C132_aliasing_refuted",
    "C132_long_refuted"
   ],
   "note": "REFUTED: |T_8| is 1 on its first grid, norm(T_8,1) = 2 (true value below 3/2); abs raises for 514 or more coefficients (maxLength 2^10 is not 2^k+1). Proved for columns of one sign with at most 513 coefficients."
  },
  {
   "property": "C133",
   "status": "partial",
   "theorems": [
    "C133_max_norm_partial",
    "C133_quadratic_refuted"
   ],
   "note": "REFUTED: minandmax includes critical points outside the domain for quadratics (C126). Proved under the conditions of C126."
  },
  {
   "property": "C134",
   "status": "proved",
   "theorems": [
    "C134_weighted_norm"
   ],
   "note": "Any number of columns, any interval."
  },
  {
   "property": "C135",
   "status": "partial",
   "theorems": [
    "C135_sobolev_partial",
    "C135_h1_h2",
    "C135_aliasing_refuted"
   ],
   "note": "REFUTED with k = 0 by T_16 (aliasing, C131). Proved for p*(n-1) <= 8 at every level; if the integrals are smaller than the truncation error the result may be NaN."
  },
  {
   "property": "C136",
   "status": "partial",
   "theorems": [
    "C136_sturm_partial",
    "C136_zero_slope_refuted"
   ],
   "note": "REFUTED: np.sign(0) = 0, so x^2 on [0,1] has sturm_norm 0. Proved where f'(a) is not 0."
  },
  {
   "property": "C137",
   "status": "partial",
   "theorems": [
    "C137_normalize_partial",
    "C137_aliasing_refuted"
   ],
   "note": "REFUTED by T_16: divided by sqrt 2, the result has L2 norm^2 511/1023. Proved for at most 5 coefficients."
  },
  {
   "property": "C138",
   "status": "partial",
   "theorems": [
    "C138_ufunc_partial",
    "C138_ufunc2_partial",
    "C138_aliasing_refuted"
   ],
   "note": "REFUTED: the first grid has 17 points whatever the length of f: np.square(T_16) is the constant 1. Proved: agreement at the N points of the last grid, everywhere if u(f) is a polynomial of degree below N."
  },
  {
   "property": "C139",
   "status": "partial",
   "theorems": [
    "C139_quotient_partial",
    "C139_reciprocal_partial",
    "C139_columns_refuted"
   ],
   "note": "REFUTED: dividing a function of several columns by one of one column raises (evaluation of one column is squeezed). Proved for equal column counts: agreement at N >= len f + len g grid points, and a bound of (f/g)g - f on the domain when len(f/g) + len g <= N+1."
  },
  {
   "property": "C140",
   "status": "partial",
   "theorems": [
    "C140_inplace_partial",
    "C140_out_refuted",
    "C140_out_function"
   ],
   "note": "REFUTED: np.true_divide(f, 2, out=h) halves h. Proved for out = f and for the quotient of two functions."
  },
  {
   "property": "C141",
   "status": "partial",
   "theorems": [
    "C141_compose_partial",
    "C141_domain_refuted",
    "C141_rescaling_refuted"
   ],
   "note": "REFUTED: f is evaluated at the reference points: raises for every domain not containing [-1,1]; on [-2,2] compose(x, identity) is x/2. Proved on [-1,1] (grid points; everywhere for polynomials of degree below N)."
  },
  {
   "property": "C142",
   "status": "partial",
   "theorems": [
    "C142_backward_partial",
    "C142_inverse_refuted"
   ],
   "note": "REFUTED: the keyword inv is not read, inv() is the forward map again, for every interval. Proved: the stored fwd and bwd are inverse and der is the derivative."
  },
  {
   "property": "C143",
   "status": "proved",
   "theorems": [
    "C143_constants"
   ],
   "note": "All lengths, column counts, intervals."
  },
  {
   "property": "C144",
   "status": "proved",
   "theorems": [
    "C144_conversion",
    "C144_from_ultra",
    "C144_roundtrip"
   ],
   "note": "All lengths, columns and non-negative integer orders. Gamma quotients of scl are written as products."
  },
  {
   "property": "C145",
   "status": "partial",
   "theorems": [
    "C145_argument_partial",
    "C145_overwritten_refuted",
    "C145_from_ultra_refuted"
   ],
   "note": "REFUTED: ultra2ultra divides row i of its argument by scl and negates odd rows: from_ultra([1,1,1],1,1) leaves [1,-4/3,8/5]. Proved: unchanged when the two orders are equal."
  },
  {
   "property": "C146",
   "status": "proved",
   "theorems": [
    "C146_matrix_agrees"
   ],
   "note": "All n >= 2 and orders K1 <= K2."
  },
  {
   "property": "C147",
   "status": "partial",
   "theorems": [
    "C147_orders_partial",
    "C147_third_refuted",
    "C147_rest_refuted"
   ],
   "note": "REFUTED: order 3 returns minus the third derivative for every n >= 3; orders >= 4 raise (np.hstack(())); for one point the 0-dimensional 0 is returned even for order 0. Proved: orders 0, 1 and 2 for all n >= 2."
  },
  {
   "property": "C148",
   "status": "partial",
   "theorems": [
    "C148_diffmat_partial",
    "C148_highest_mode_refuted"
   ],
   "note": "REFUTED: np.remainder(k+1, 1) is always 0, so for even n and even order k >= 4 the highest mode cos(n/2 pi x) is mapped to 0. Proved for every order otherwise (odd n, or odd or small order, or no highest mode)."
  },
  {
   "property": "C149",
   "status": "partial",
   "theorems": [
    "C149_call_partial",
    "C149_diff_partial",
    "C149_getitem",
    "C149_one_point_refuted"
   ],
   "note": "REFUTED for one point: np.diff(f, n=k) with k >= 1 raises instead of giving the constant 0. Proved for all N >= 2."
  },
  {
   "property": "C150",
   "status": "partial",
   "theorems": [
    "C150_linearize_partial",
    "C150_coefficients_closed",
    "C150_compile_partial",
    "C150_single",
    "C150_system_refuted"
   ],
   "note": "REFUTED for systems: get_diff_order pairs equation i with unknown i only, so for the system v'' + u = 0, u'' + v = 0 the order is 0 and all second derivatives are dropped. Proved whenever the order found bounds the order of every unknown, in particular for every single equation; coefficients shown closed."
  },
  {
   "property": "C151",
   "status": "proved",
   "theorems": [
    "C151_second_derivative"
   ],
   "note": ""
  },
  {
   "property": "C152",
   "status": "partial",
   "theorems": [
    "C152_parameter_derivative_partial",
    "C152_both_refuted"
   ],
   "note": "REFUTED: for a parameter occurring in both an equation and a constraint only the equations are differentiated (p*u with constraint p gives 0 instead of 1). Proved when the parameter occurs only in equations or only in constraints."
  },
  {
   "property": "C153",
   "status": "partial",
   "theorems": [
    "C153_dxdp_partial",
    "C153_compiled_partial",
    "C153_constraints_refuted"
   ],
   "note": "REFUTED: bilinear_dp only uses the equations; equation u with constraint p*u gives 0 instead of v. Proved for the equations."
  },
  {
   "property": "C154",
   "status": "partial",
   "theorems": [
    "C154_residual",
    "C154_linearisation_partial",
    "C154_linearisation_refuted"
   ],
   "note": "REFUTED: linearFunctional.__call__ does not pass pname on and always uses the current parameter. Proved for DerivativeFunctional, and for linearFunctional with no name or the current one."
  },
  {
   "property": "C155",
   "status": "partial",
   "theorems": [
    "C155_adjoint_algebraic_partial",
    "C155_adjoint_refuted"
   ],
   "note": "REFUTED: for F = u u_x on [-1,1], p = x, phi = 1, w = 1 - x^2 the two integrals are 0 and 4/3, because the coefficient is only multiplied by (-1)^k instead of being differentiated. Proved pointwise for algebraic nonlinearities; what the code computes in general is lemma adj_formula."
  },
  {
   "property": "C156",
   "status": "partial",
   "theorems": [
    "C156_nonlocal_partial",
    "C156_sum_coefficient_refuted",
    "C156_derivative_refuted",
    "C156_coefficient_refuted"
   ],
   "note": "REFUTED: (x+1)*Integral(u) is linearised to twice the derivative, because both expanded terms collect the whole coefficient; Integral(u') is linearised to 0, because only the undifferentiated perturbation is looked for; u*Integral(u) leaves an undefined name in the emitted function, which raises. Proved when the coefficients do not contain the unknowns, the integrands do not contain derivatives of the unknowns, and no two differentiated integrands coincide."
  },
  {
   "property": "C157",
   "status": "proved",
   "theorems": [
    "C157_correction",
    "C157_exact",
    "C157_polynomial"
   ],
   "note": "Coefficient functions are assumed to be held exactly by the quasi operator (adaptive construction: C49, C141; simplify: C16) and representable in the sense of C103. For systems whose order the compiler misses see C150."
  },
  {
   "property": "C158",
   "status": "partial",
   "theorems": [
    "C158_copy_partial",
    "C158_equal_iff_partial",
    "C158_refuted"
   ],
   "note": "REFUTED: the copy loses the operators, its size returns to 15, n_min and eps to their defaults and solver_debug to False (C158_refuted). Proved: all other attributes are copied, and exactly when the copy equals the original (C158_equal_iff_partial)."
  },
  {
   "property": "C159",
   "status": "partial",
   "theorems": [
    "C159_history",
    "C159_current_partial",
    "C159_edit_refuted",
    "C159_fold_refuted"
   ],
   "note": "REFUTED: once compiled, editing the equation and compiling again keeps the old equation (C159_edit_refuted); asking for the fold system after compiling with parameter derivatives gives none (C159_fold_refuted). Proved for every history which call's compilation is in force (C159_history) and when compile does bring the system up to date (C159_current_partial)."
  },
  {
   "property": "C160",
   "status": "partial",
   "theorems": [
    "C160_residual_partial",
    "C160_sizes_partial",
    "C160_residual_refuted",
    "C160_history_refuted",
    "C160_nmin_refuted"
   ],
   "note": "REFUTED: the residual is cut to the current size, so a residual T_15 is reported as 0 (C160_residual_refuted); evaluating op(v) changes the residual reported later (C160_history_refuted); setDisc(n) with n < n_min leaves object and system at different sizes (C160_nmin_refuted). Proved: whole residual if the size suffices (C160_residual_partial), sizes agree after discretize and after setDisc(n), n >= n_min, for every history (C160_sizes_partial)."
  },
  {
   "property": "C161",
   "status": "partial",
   "theorems": [
    "C161_roundtrip_partial",
    "C161_equation_refuted",
    "C161_names_refuted",
    "C161_raises_refuted"
   ],
   "note": "REFUTED: equations over 250 bytes are cut (C161_equation_refuted), operators come back with the name of the last function, constant functions and further continuation parameters are lost (C161_names_refuted), without continuation parameter saving raises IndexError (C161_raises_refuted). Proved: exact round trip for operators without operators/constant functions, one cpar and short strings (C161_roundtrip_partial)."
  },
  {
   "property": "C162",
   "status": "partial",
   "theorems": [
    "C162_defined_partial",
    "C162_correction_partial",
    "C162_integral_equations_partial",
    "C162_order_refuted",
    "C162_number_refuted",
    "C162_integrals_refuted"
   ],
   "note": "REFUTED: a constraint of higher order than the equations raises (flag arrays of different length, C162_order_refuted); a number of constraints different from the number of equations raises (C162_number_refuted); integrals on both sides are added coefficient- and integrand-wise, so products of integrals are wrong (C162_integrals_refuted). Proved: when the combination is defined (C162_defined_partial), that the correction then solves the linearised sum (C162_correction_partial), and the case of integrals in the equations (C162_integral_equations_partial)."
  },
  {
   "property": "C163",
   "status": "partial",
   "theorems": [
    "C163_residual_partial",
    "C163_coefficient_partial",
    "C163_integral_coefficient",
    "C163_domain_refuted",
    "C163_nested_refuted",
    "C163_number_refuted",
    "C163_bounds_refuted",
    "C163_definite_refuted",
    "C163_raises_refuted"
   ],
   "note": "REFUTED: the bounds of an integral are ignored (C163_bounds_refuted, C163_definite_refuted); of nested integrals over the domain only one is computed (C163_nested_refuted); the integral of a number over the domain is the number itself (C163_number_refuted); a coefficient that is a number computed from functions is put on [-1,1] (C163_domain_refuted); the derivative of an integral and bounded integrals of two functions raise (C163_raises_refuted). Proved: all other expressions, by induction (C163_residual_partial, C163_coefficient_partial, C163_integral_coefficient)."
  },
  {
   "property": "C164",
   "status": "partial",
   "theorems": [
    "C164_discretize",
    "C164_call_partial",
    "C164_stale_refuted",
    "C164_edit_refuted",
    "C164_history"
   ],
   "note": "REFUTED: op(u) and op.residual(u) take only the continuation parameters from u, so every other parameter has the value of the last discretize (C164_stale_refuted), and assignments to op.parameter_names after compilation have no effect (C164_edit_refuted). Proved: discretize uses the state's values after every history (C164_discretize), what op(u) uses (C164_call_partial), and for every history which write is in force (C164_history)."
  },
  {
   "property": "C165",
   "status": "partial",
   "theorems": [
    "C165_matrix_partial",
    "C165_solution_partial",
    "C165_length_refuted",
    "C165_in_place_refuted",
    "C165_adjoint"
   ],
   "note": "REFUTED: the integral of a constant is taken to be the constant, so integral terms are wrong on every domain of length other than 1 (C165_length_refuted); assembling truncates the zero-order coefficient in place (C165_in_place_refuted). Proved: the exact difference for every system (C165_matrix_partial), correctness without integrals or on domains of length 1 (C165_solution_partial), the adjoint (C165_adjoint)."
  },
  {
   "property": "C166",
   "status": "partial",
   "theorems": [
    "C166_tiles_partial",
    "C166_mirror_partial",
    "C166_integral_partial",
    "C166_first_refuted",
    "C166_domain_refuted"
   ],
   "note": "REFUTED: with n >= 2 the first tile is f reversed while n = 1 is f itself (C166_first_refuted); on a domain [0, b], b > 1, values of f beyond 1 never occur and points beyond 1 are left unwritten (C166_domain_refuted). Proved on [0,1]: the value on every tile (C166_tiles_partial), the mirror symmetry at every tile end (C166_mirror_partial), the integral (C166_integral_partial)."
  },
  {
   "property": "C167",
   "status": "partial",
   "theorems": [
    "C167_handles",
    "C167_digits",
    "C167_names_partial",
    "C167_safe_partial",
    "C167_clash_refuted"
   ],
   "note": "REFUTED: a constant function with the name of a generated function, such as f0, is overwritten by it in every operator (C167_clash_refuted). Proved: every handle is right for every shape, although names are used twice in large systems (C167_handles); a constant function is kept exactly if no generated name equals its own, parameters and the library names the code uses are always kept (C167_names_partial); generated names end in a digit, so a constant function whose name does not is safe (C167_digits, C167_safe_partial)."
  },
  {
   "property": "C168",
   "status": "proved",
   "theorems": [
    "C168_backward",
    "C168_evaluation",
    "C168_domain"
   ],
   "note": "Rounding is Flocq's round to nearest even with gradual underflow; overflow is not modelled."
  },
  {
   "property": "C169",
   "status": "proved",
   "theorems": [
    "C169_integral",
    "C169_domain"
   ],
   "note": "Rounding is Flocq's; overflow is not modelled. The order of summation and the fusing of products are arbitrary (fdot)."
  },
  {
   "property": "C170",
   "status": "partial",
   "theorems": [
    "C170_evaluable_iff",
    "C170_left_end",
    "C170_exact_partial",
    "C170_from_zero_partial",
    "C170_integer_ends_partial",
    "C170_tenth_refuted",
    "C170_sample_ends",
    "C170_own_points_refuted"
   ],
   "note": "REFUTED: on [-0.1, 0.1] evaluation at 0.1 raises, the mapped point is 1.0000000000000002 (C170_tenth_refuted), hence also evaluation at the function's own sample points (C170_own_points_refuted). Proved: the exact condition on the ends under which every point can be evaluated (C170_evaluable_iff), the left end always can (C170_left_end), every point can if 2b - a is a double, if a = 0 or if both ends are integers (C170_exact_partial, C170_from_zero_partial, C170_integer_ends_partial)."
  },
  {
   "property": "C171",
   "status": "proved",
   "theorems": [
    "C171_constant",
    "C171_prolong",
    "C171_negative",
    "C171_reflection",
    "C171_even"
   ],
   "note": ""
  },
  {
   "property": "C172",
   "status": "partial",
   "theorems": [
    "C172_history_partial",
    "C172_fun_level_partial",
    "C172_inplace_refuted",
    "C172_write_refuted",
    "C172_constant_refuted"
   ],
   "note": "REFUTED: chebtech.x and chebpts hand out the cached array itself, and chebtech(op) gives it to the callable: an in-place operation there changes the grid of all later functions of that size (C172_inplace_refuted, C172_write_refuted); f.x raises for a constant function, whose grid is a Python list (C172_constant_refuted). Proved: every grid is right after any history in which nobody writes to a shared array (C172_history_partial), and with functions on a domain nothing the user does to arrays matters (C172_fun_level_partial)."
  },
  {
   "property": "C173",
   "status": "partial",
   "theorems": [
    "C173_large_partial",
    "C173_decimal_partial",
    "C173_error_partial",
    "C173_seventh_refuted",
    "C173_tiny_refuted"
   ],
   "note": "REFUTED: on [0, 1/7] the generated code works on a smaller domain (C173_seventh_refuted); a domain [0, d] with d < 5e-17 collapses to [0, 0] (C173_tiny_refuted). Proved: the domain is kept if its ends are 0 or at least 1/2 in absolute value (C173_large_partial), or written by the user with at most 16 digits after the point (C173_decimal_partial); the ends are never off by more than about 5e-17 (C173_error_partial). Reading and printing are correctly rounded, as in CPython."
  },
  {
   "property": "C174",
   "status": "partial",
   "theorems": [
    "C174_positive",
    "C174_no_kinks",
    "C174_refuted",
    "C174_example"
   ],
   "note": "REFUTED: parameters are declared positive to sympy, so abs(p), sign(p) and the root of p squared have the wrong sign for every negative p (C174_refuted). Proved: the residual is the equation for positive parameters (C174_positive), and for parameters of any sign if none occurs inside abs, sign or a root (C174_no_kinks). sympy's sign inference is a parameter of the model: any inference sound for positive parameters; other rewriting by sympy is assumed to keep values."
  },
  {
   "property": "C175",
   "status": "partial",
   "theorems": [
    "C175_left",
    "C175_turns",
    "C175_one_sign_partial",
    "C175_refuted"
   ],
   "note": "REFUTED: orientation_y returns the sign of the value at the left end; 1 + 2x has integral 2 and orientation -1, and 1 + x has orientation 0 (C175_refuted). Proved: it is the sign at the left end (C175_left), it changes sign with u (C175_turns), and it is the sign of the integral if u keeps one sign (C175_one_sign_partial)."
  },
  {
   "property": "C176",
   "status": "proved",
   "theorems": [
    "C176_mean",
    "C176_monotone",
    "C176_ends"
   ],
   "note": "Proved with exact arithmetic except the final rounding to three decimals (Flocq)."
  },
  {
   "property": "C177",
   "status": "proved",
   "theorems": [
    "C177_reference",
    "C177_domain",
    "C177_shape",
    "C177_line"
   ],
   "note": "Proved in round to nearest even with gradual underflow (Flocq); no overflow is assumed; one differentiation. C177_reference is on [-1, 1], C177_domain on [a, b]."
  },
  {
   "property": "C178",
   "status": "proved",
   "theorems": [
    "C178_reference",
    "C178_left_end",
    "C178_domain"
   ],
   "note": "Proved in round to nearest even with gradual underflow (Flocq), for any order of summation and any series within d of the coefficients as the outcome of simplify; no overflow is assumed."
  },
  {
   "property": "C179",
   "status": "partial",
   "theorems": [
    "C179_accuracy",
    "C179_self",
    "C179_exact",
    "C179_commutes_partial",
    "C179_commutes_refuted"
   ],
   "note": "REFUTED: f + g uses the tolerance eps of f only: 1 + (2^-10 - 1) is 0 if the first operand has eps 2^-5, and 2^-10 with the operands exchanged and eps 2^-52 (C179_commutes_refuted). Proved: the accuracy (C179_accuracy), f - f = 0 (C179_self), adding zero, doubling and double negation exact (C179_exact), commutes with equal tolerances (C179_commutes_partial). No overflow is assumed."
  },
  {
   "property": "C180",
   "status": "partial",
   "theorems": [
    "C180_near_partial",
    "C180_construct_partial",
    "C180_real_partial",
    "C180_low_degree_partial",
    "C180_low_degree_example",
    "C180_highest_mode_refuted",
    "C180_negative_frequency_refuted",
    "C180_real_at_one_point_refuted"
   ],
   "note": "REFUTED: happy() chops the coefficients in the order the raw vector stores them and looks at one half of the frequencies; cos(16 pi x), exp(-6 i pi x) and a complex function that is real at the one trial point are returned as 0 and reported as resolved, for every tolerance (C180_highest_mode_refuted, C180_negative_frequency_refuted, C180_real_at_one_point_refuted). Proved: terminates, and what the result is (C180_construct_partial); real functions without component in the highest mode are returned up to N e^(2/5) (C180_real_partial); real trigonometric polynomials of degree at most 15 on any domain up to 4096 e^(2/5) (C180_low_degree_partial). The construction is stable: a real function within D of such a polynomial is returned up to 4096 (e^(2/5) + 2 D) + D (C180_near_partial)."
  },
  {
   "property": "C181",
   "status": "partial",
   "theorems": [
    "C181_roll_partial",
    "C181_length_two_partial",
    "C181_case",
    "C181_roll_refuted"
   ],
   "note": "REFUTED: circshift moves by s in the coordinate of [-1, 1], so roll(f, s)(x) = f(x - s (b-a)/2) (C181_roll_partial); -cos(2 pi x) on [0, 1] moved by 1/2 is 0 at 0 instead of 1 (C181_roll_refuted). Right on domains of length 2 (C181_length_two_partial). Even lengths: C63."
  },
  {
   "property": "C182",
   "status": "partial",
   "theorems": [
    "C182_convolve_partial",
    "C182_symmetric_partial",
    "C182_case",
    "C182_domains",
    "C182_convolve_refuted"
   ],
   "note": "REFUTED: the result is translated by the midpoint of the domain (C182_convolve_partial); on [0, 2] the convolution of -cos(pi x) with itself has the wrong sign (C182_convolve_refuted). Right on [-L, L] (C182_symmetric_partial). Even lengths: C64. The shorter operand is prolonged in place, which does not change it as a function."
  },
  {
   "property": "C183",
   "status": "proved",
   "theorems": [
    "C183_adhesion",
    "C183_case"
   ],
   "note": "Lengths: the longer of the two numbers of coefficients is odd. The kernel enters through its Fourier coefficients up to the highest frequency of the longer operand, as the docstring demands."
  },
  {
   "property": "C184",
   "status": "proved",
   "theorems": [
    "C184_sum",
    "C184_inner",
    "C184_diff",
    "C184_derivative_mean",
    "C184_case"
   ],
   "note": "Derivatives of even lengths: C32."
  },
  {
   "property": "C185",
   "status": "proved",
   "theorems": [
    "C185_eigenvalues",
    "C185_failure",
    "C185_real"
   ],
   "note": "ordqz (LAPACK) is not modelled, its contract qz_ok is a hypothesis, met by a concrete case."
  },
  {
   "property": "C186",
   "status": "partial",
   "theorems": [
    "C186_short_partial",
    "C186_truncated_refuted",
    "C186_argument_refuted",
    "C186_T9_refuted"
   ],
   "note": "REFUTED: the first grid has 9 points and the arguments are prolonged to it in place, which truncates longer ones: the result depends on the first nine coefficients only (C186_truncated_refuted), and the arguments are left truncated (C186_argument_refuted, C186_T9_refuted). Proved for arguments of at most nine coefficients: C186_short_partial."
  },
  {
   "property": "C187",
   "status": "partial",
   "theorems": [
    "C187_functions_partial",
    "C187_number_refuted",
    "C187_operand_refuted"
   ],
   "note": "REFUTED: a number as second operand raises (C187_number_refuted); a real operand of even length loses half of its highest coefficient at each evaluation (C187_operand_refuted); np.conj(e^(6 i pi x)) is 0 (C35_conj_refuted). Proved for results that are real trigonometric polynomials of degree at most 15: C187_functions_partial."
  },
  {
   "property": "C188",
   "status": "partial",
   "theorems": [
    "C188_call",
    "C188_add_partial",
    "C188_add_refuted",
    "C188_multiply_partial",
    "C188_multiply_constant",
    "C188_constants_refuted",
    "C188_constants_operand_refuted",
    "C188_operand_refuted"
   ],
   "note": "Evaluation proved (C188_call). REFUTED: one column plus several raises (C188_add_refuted; the other order is proved, C188_add_partial); a constant with several columns times a non-constant raises (C188_constants_refuted), times a constant overwrites the second operand with the product (C188_constants_operand_refuted); a one-column second factor is widened in place (C188_operand_refuted). Product proved for odd lengths and operands neither equal nor np.conj of each other (C188_multiply_partial) and for one-column constants."
  },
  {
   "property": "C189",
   "status": "partial",
   "theorems": [
    "C189_rhs_refuted"
   ],
   "note": "REFUTED: f is only the initial guess, whatever the docstring says: Op[u] = 0 is solved (C189_rhs_refuted, C189_zero_partial); eps does not reach Newton's method, whose tolerance is always 1e-8 (keyword ntol is not read) or the solver's default (C189_tolerance_refuted); p does not change the residual reported and p = np.inf raises (C189_norm_refuted); an adaptive solve leaves the operator at the size of its last run (C189_size_refuted). Proved for every Newton solver: what is returned, with which flag and residual (C189_answer_partial, C189_single_partial)."
  },
  {
   "property": "C190",
   "status": "partial",
   "theorems": [
    "C190_mixed_partial",
    "C190_mixed_reversed_partial",
    "C190_sum_partial",
    "C190_jump_refuted",
    "C190_complex_refuted"
   ],
   "note": "REFUTED: the answer is always a real periodic function. If f takes different values at the two ends the sum is silently wrong by half the jump at one of them (C190_jump_refuted), and the imaginary part of a complex g is dropped (C190_complex_refuted), in both orders. Proved: if the Chebyshev sum/product is within D of a trigonometric polynomial of degree at most 15 the answer is within 4096 (e^(2/5) + 2 D) of it (C190_mixed_partial, C190_mixed_reversed_partial, C190_sum_partial). Not proved: accuracy of the intermediate Chebyshev construction of g, which is a hypothesis (delta) of C190_sum_partial, and functions of higher degree."
  },
  {
   "property": "C191",
   "status": "partial",
   "theorems": [
    "C191_mass",
    "C191_plot_partial",
    "C191_mean_partial",
    "C191_sturm0_partial",
    "C191_mean_refuted",
    "C191_wkp_refuted",
    "C191_range",
    "C191_variation_partial",
    "C191_variation_range_partial",
    "C191_variation_refuted"
   ],
   "note": "REFUTED: 'Sturm0' subtracts the integral instead of the mean: positive for a constant on any domain of length other than 1 (C191_mean_refuted); 'Wkp' always raises, because k is passed twice (C191_wkp_refuted); variation() uses a minimum outside the domain (C191_variation_refuted). Proved: mass (C191_mass), the signed norms of a column for 'Sturm', 'SturmNeumann' and any other name (C191_plot_partial), 'SturmNeumann0' is measured from the mean (C191_mean_partial), what 'Sturm0' subtracts (C191_sturm0_partial), no answer for an index out of range (C191_range), variation is at least |u(b)-u(a)| of every column and a sum of differences of values (C191_variation_partial), max - min when the extrema are found (C191_variation_range_partial). The norms themselves are those of C131, C132 and C136."
  },
  {
   "property": "C192",
   "status": "partial",
   "theorems": [
    "C192_real_partial",
    "C192_complex_partial",
    "C192_complex_refuted",
    "C192_real_part_refuted",
    "C192_one_partial"
   ],
   "note": "REFUTED: real and imaginary part are measured separately, so for complex f and p other than 2 the result is not the norm: e^(i pi x), p = 4 (C192_complex_refuted); np.real replaces a real part below 1e-10 on the grid, so also a negative one, by 0: -1 + i (C192_real_part_refuted). Proved: for real f of odd length and even p with f^p of degree at most 15 (C192_real_partial), for complex f and p = 2, degree at most 7, with a value of positive real part (C192_complex_partial), p = 1 and f >= 0 (C192_one_partial), up to the tolerance of the construction. Not proved: odd p with sign changes, higher degrees, p = infinity."
  },
  {
   "property": "C193",
   "status": "partial",
   "theorems": [
    "C193_add_partial",
    "C193_subtract_partial",
    "C193_number_partial",
    "C193_multiply_partial",
    "C193_divide_partial",
    "C193_case",
    "C193_constant_refuted",
    "C193_complex_refuted",
    "C193_failure_refuted",
    "C193_square_refuted"
   ],
   "note": "REFUTED: f *= f raises for every f that is not constant; f *= g with a constant function g (or f), or with an array of one entry, leaves f unchanged without an error, since multiply calls itself without out and Fun drops the result; f *= 1j, f /= 1j and f += -1j on a real f keep it flagged real, so it evaluates to the real part (the constant 1 becomes 0); f /= a with |a| < 1e-16 raises after dividing, f += array([a]) raises after changing the values but not the coefficients. Proved: += and -= of functions of any length and flag, the numbers that keep f real (or any number for a complex f), *= of real non-constant functions (f is exactly what f * g returns), /= of real functions whose quotient is a trigonometric polynomial of degree at most 15."
  },
  {
   "property": "C194",
   "status": "partial",
   "theorems": [
    "C194_history_partial",
    "C194_monotone_partial",
    "C194_nleq_refuted",
    "C194_list_refuted",
    "C194_guess",
    "C194_alias_refuted",
    "C194_miter_refuted",
    "C194_case"
   ],
   "note": "REFUTED: a run of GIANT-GBIT that ends in its first pass returns the caller's guess object itself (C194_guess: exactly then), so solve(u0); solve(u0) starts the second search from the first solution and overwrites it: the first solution is no longer deflated and the second one is known twice. append([state]) makes every later solve raise; method='nleq' always raises ValueError (six values returned, five unpacked); miter is swallowed (a solve with miter=1 makes two iterations). Proved for all histories with any solver in which known objects are not changed in place nor used as guesses and lists hold functions: the solutions given to every solve are exactly the learned ones, in order; for all histories: nothing is removed, and a failing or raising solve learns nothing."
  },
  {
   "property": "C195",
   "status": "partial",
   "theorems": [
    "C195_others_partial",
    "C195_raises",
    "C195_making",
    "C195_add",
    "C195_row",
    "C195_scale",
    "C195_product",
    "C195_unary_plus_refuted",
    "C195_column_refuted",
    "C195_real_refuted",
    "C195_times_row_refuted",
    "C195_widens_refuted",
    "C195_case"
   ],
   "note": "REFUTED: +f, f**1 and copy.copy(f) share their data with f, f[k] and np.real(f) share the coefficient array, so a later in-place addition to the result changes f (C195_unary_plus_refuted, C195_column_refuted, C195_real_refuted, for every program); f *= row with one number per column raises (C195_times_row_refuted); f *= g gives a function with one column the columns of g (C195_widens_refuted). Proved for every program: values of +=, -= (functions and numbers), *= and /= by numbers, *= and /= by functions agree with f * g and f / g (whose accuracy is C12, C139), functions made by different expressions never influence each other (C195_others_partial), a raising statement changes nothing (C195_raises), making a function changes none (C195_making)."
  },
  {
   "property": "C196",
   "status": "proved",
   "theorems": [
    "C196_evaluation",
    "C196_flagged",
    "C196_domain",
    "C196_ends",
    "C196_case"
   ],
   "note": "Proved for both branches (real and complex coefficients, even and odd lengths). np.pi is taken to be the double nearest to pi; cos, sin and exp of the C library are arguments of the model with an arbitrary absolute accuracy d. Overflow is not modelled."
  },
  {
   "property": "C197",
   "status": "proved",
   "theorems": [
    "C197_constant",
    "C197_reflection",
    "C197_even",
    "C197_negative",
    "C197_prolong",
    "C197_case"
   ],
   "note": "The sign law is proved for the real and the complex branch, the others for real functions (the complex branch splits its work at a phase factor that depends on the number of coefficients, so prolonging there does change values by rounding). Signed zeros and overflow are not modelled."
  },
  {
   "property": "C198",
   "status": "proved",
   "theorems": [
    "C198_coefficients",
    "C198_values",
    "C198_domain",
    "C198_commutes",
    "C198_case"
   ],
   "note": "Proved for the product of two functions of length at least 1 before simplify_coeffs drops trailing coefficients (C16/C17 bound that step in exact arithmetic). Not covered: the correction f*f >= 0 (ufuncs.pyx 258-263) and the product with a constant (C179 covers rounding of scalar multiples). scipy.fft is an argument of the model with an arbitrary accuracy; overflow is not modelled."
  },
  {
   "property": "C199",
   "status": "proved",
   "theorems": [
    "C199_coefficients",
    "C199_interpolates",
    "C199_values",
    "C199_values_roundtrip",
    "C199_coefficients_roundtrip",
    "C199_constant",
    "C199_case"
   ],
   "note": "Proved per column. The cosine transform of pocketfft is an argument of the model with an arbitrary accuracy; overflow and signed zeros are not modelled."
  },
  {
   "property": "C200",
   "status": "proved",
   "theorems": [
    "C200_coefficients",
    "C200_interpolates",
    "C200_values",
    "C200_values_roundtrip",
    "C200_coefficients_roundtrip",
    "C200_symmetric",
    "C200_real",
    "C200_constant",
    "C200_case"
   ],
   "note": "Proved per column. scipy.fft.fft and scipy.fft.ifft are arguments of the model with an arbitrary accuracy; overflow and signed zeros are not modelled."
  },
  {
   "property": "C201",
   "status": "proved",
   "theorems": [
    "C201_points",
    "C201_single_point",
    "C201_nested",
    "C201_symmetric",
    "C201_coefficients",
    "C201_function",
    "C201_sample_and_evaluate",
    "C201_case"
   ],
   "note": "Proved for a grid of given length, one component. The happiness test and chopping are not included (they are the subject of other properties); sine and cosine transform of the libraries are arguments of the model with arbitrary accuracy; overflow and signed zeros are not modelled."
  },
  {
   "property": "C202",
   "status": "partial",
   "theorems": [
    "C202_mapping",
    "C202_inside_partial",
    "C202_coefficients",
    "C202_function",
    "C202_integral",
    "C202_derivative",
    "C202_outside_refuted",
    "C202_case"
   ],
   "note": "REFUTED: the mapped points may leave the domain: on a domain of two units in the last place near 1.23 a double of [-1, 1] is mapped beyond b (C202_outside_refuted). Proved: they stay inside, in increasing order, whenever the domain contains 0 (C202_inside_partial); the accuracy of the map for all domains; coefficients, function, integral and derivative for every domain whose mapped points stay inside. The happiness test and chopping are not included; overflow is not modelled."
  },
  {
   "property": "C203",
   "status": "proved",
   "theorems": [
    "C203_points",
    "C203_nested",
    "C203_coefficients",
    "C203_function",
    "C203_evaluate",
    "C203_integral",
    "C203_derivative",
    "C203_case"
   ],
   "note": "For the derivative and an even length the coefficient of the highest mode of the polynomial must be 0 (otherwise np.diff is wrong even in exact arithmetic, C32_diff_refuted). The happiness test and chopping are not included; overflow is not modelled."
  },
  {
   "property": "C204",
   "status": "partial",
   "theorems": [
    "C204_sound",
    "C204_sound_periodic",
    "C204_complete",
    "C204_complete_periodic",
    "C204_equivalence",
    "C204_deepcopy",
    "C204_double_negation",
    "C204_add_commutes",
    "C204_length_refuted",
    "C204_mixed_refuted",
    "C204_call_refuted",
    "C204_not_equal_refuted",
    "C204_add_tolerance_refuted"
   ],
   "note": "REFUTED: the same function with a trailing zero coefficient is not ==; x^2 of type 'cheb' is == cos(pi x) of type 'trig' while the reverse comparison is false; calling a real periodic function of even length makes it != its former self; f != g builds a new function that is always true in an if, so f == f and f != f both hold; f + g == g + f needs equal tolerances (only the left operand's decides whether the sum is set to 0). Proved: soundness, completeness for equal lengths, equivalence relation, deep copy, double negation, commuted sums."
  },
  {
   "property": "C205",
   "status": "partial",
   "theorems": [
    "C205_integral",
    "C205_mismatch",
    "C205_symmetric",
    "C205_positive",
    "C205_cauchy_schwarz",
    "C205_weighted_refuted",
    "C205_columns_refuted"
   ],
   "note": "REFUTED: sprod(f, g, weighted=True) always raises (the innerw imported from vectorspaces expects states); functions with different numbers of columns are not refused, the surplus columns are ignored. The rest is proved. nnorm(f) of a Fun raises as well (Fun.norm passes norm_function on to a function without that parameter); not a theorem."
  },
  {
   "property": "C206",
   "status": "partial",
   "theorems": [
    "C206_expression",
    "C206_program",
    "C206_no_errors",
    "C206_names_refuted",
    "C206_comparison_refuted",
    "C206_less_refuted",
    "C206_dot_refuted",
    "C206_alias_refuted"
   ],
   "note": "REFUTED: parameters of different names can be added (the sum is called like the left one); a comparison of Parameters is itself a Parameter and always counts as true, even 1 < 1; np.dot(p, 3) raises; after y = x an update y += 1 changes x too. Proved for all programs without x = y (aliasing) and, for the absence of errors, without np.dot. Expressions of plain numbers only are taken to use the same operations (python raises on 1/0 where numpy returns inf)."
  },
  {
   "property": "C207",
   "status": "partial",
   "theorems": [
    "C207_interpolates",
    "C207_polynomials",
    "C207_exact",
    "C207_readable",
    "C207_read_back",
    "C207_equal",
    "C207_equal_refuted",
    "C207_tolerance_refuted",
    "C207_case"
   ],
   "note": "Proved in exact arithmetic for type 'cheb', with the rounding of the printed decimals an arbitrary function. REFUTED: that eval(repr(f)) == f always holds (C207_equal_refuted: the zero function with two coefficients comes back with one), and that repr says everything about the function (C207_tolerance_refuted: the tolerance becomes the default one). numpy's text itself (digits, brackets, the ellipsis beyond 1000 entries) is represented by what it says; domains whose ends are not printed exactly are outside C207_read_back; type 'trig' is not covered."
  },
  {
   "property": "C208",
   "status": "partial",
   "theorems": [
    "C208_interpolates",
    "C208_polynomials",
    "C208_read_back",
    "C208_equal",
    "C208_long_refuted",
    "C208_called_refuted",
    "C208_nearly_real_refuted",
    "C208_case"
   ],
   "note": "Proved in exact arithmetic for one column. REFUTED: that every function can be read back (C208_long_refuted: more than 1000 values), that the text tells the function as it is (C208_called_refuted: after a call of a real function with an even number of values, repr tells the function before the call), and that all given values are taken (C208_nearly_real_refuted: small imaginary parts are dropped). Ends of the domain are taken as printed exactly."
  },
  {
   "property": "C209",
   "status": "partial",
   "theorems": [
    "C209_random",
    "C209_reaches",
    "C209_random_decay",
    "C209_decay_refuted",
    "C209_decay_grows_refuted",
    "C209_case"
   ],
   "note": "The numbers drawn are an arbitrary array with entries in [0, 1). REFUTED for random_decay: the code divides only the random part, scale (1 - 2 u / (k+1)^2), so for every draw the coefficients tend to scale instead of 0 (C209_decay_refuted) and the value at b is at least scale (n - 4) (C209_decay_grows_refuted). Shape and bound are proved (C209_random_decay). The distribution of the numbers is not modelled."
  },
  {
   "property": "C210",
   "status": "partial",
   "theorems": [
    "C210_coefficients",
    "C210_place_refuted"
   ],
   "note": "REFUTED (C210_place_refuted): it is the place of the largest coefficient, in the order of rows of the coefficient array (C210_coefficients, for every function), not of the largest value."
  },
  {
   "property": "C211",
   "status": "partial",
   "theorems": [
    "C211_interpolates",
    "C211_values",
    "C211_raises_refuted",
    "C211_count_refuted"
   ],
   "note": "Proved in exact arithmetic for two-dimensional arrays and type 'cheb' (C211_interpolates, C211_values). REFUTED: flat arrays and type='trig' always raise (C211_raises_refuted: polyfit needs two dimensions, trigtech has no from_values), and n_funs is only checked to divide the size, it does not determine the number of functions (C211_count_refuted)."
  },
  {
   "property": "C212",
   "status": "proved",
   "theorems": [
    "C212_product_called",
    "C212_built_called",
    "C212_built_product",
    "C212_built_running",
    "C212_product_integral",
    "C212_product_derivative",
    "C212_case"
   ],
   "note": "Compositions of the floating-point models of C168, C178, C198 and C202. The callable is supposed to compute a polynomial of the length used, up to r; happiness test and chopping are not included (what simplify removes before a running integral is a parameter t); overflow is not modelled. In addition the size (sum of the moduli of the coefficients) of the exact product is proved to be at most the product of the sizes."
  }
 ]
}