{
 "claims": [
  {
   "property": "C01",
   "status": "proved",
   "theorems": [
    "C01_zIsNan",
    "C01_zIsInf",
    "C01_zIsFinite"
   ],
   "note": "All 2^64 patterns, against Flocq b64_of_bits."
  },
  {
   "property": "C02",
   "status": "proved",
   "theorems": [
    "C02_zPowN",
    "C02_zPowN_cost"
   ],
   "note": "Every x (real) and every n; multiplication count bound."
  },
  {
   "property": "C03",
   "status": "partial",
   "theorems": [
    "C03_permutation",
    "C03_permutation_outside",
    "C03_factorial",
    "C03_combination",
    "C03_combination_recursive",
    "C03_combination_series",
    "C03_combination_series_reject",
    "C03_combination_outside_refuted",
    "C03_combination_outside_is_1"
   ],
   "note": "All in-range cases proved; out of range zCombination returns 1 rather than 0 (code defect, refuted)."
  },
  {
   "property": "C04",
   "status": "partial",
   "theorems": [
    "C04_zLine_refuted",
    "C04_zLine_partial"
   ],
   "note": "zLine has a sign error: it passes through its points only in the case characterised by the partial theorem."
  },
  {
   "property": "C05",
   "status": "proved",
   "theorems": [
    "C05_unary",
    "C05_binary",
    "C05_scale",
    "C05_in_place",
    "C05_zero",
    "C05_copy",
    "C05_copy_overlap",
    "C05_setall",
    "C05_touchup",
    "C05_swap",
    "C05_linear_sum",
    "C05_equal",
    "C05_istol",
    "C05_isnan",
    "C05_matrix_unary",
    "C05_matrix_binary",
    "C05_matrix_in_place",
    "C05_matrix_copy",
    "C05_matrix_zero",
    "C05_matrix_touchup",
    "C05_matrix_ident",
    "C05_matrix_diag",
    "C05_matrix_equal",
    "C05_matrix_istol",
    "C05_linspace",
    "C05_normalize"
   ],
   "note": "Any scalar type (bit exact), any sizes, any forward or exact aliasing; memcpy overlap is undefined behaviour."
  },
  {
   "property": "C06",
   "status": "proved",
   "theorems": [
    "C06_transpose_in_place",
    "C06_involutive"
   ],
   "note": "Any element type, all r and c."
  },
  {
   "property": "C07",
   "status": "proved",
   "theorems": [
    "C07_get",
    "C07_put",
    "C07_tget",
    "C07_tput",
    "C07_transpose",
    "C07_put_get",
    "C07_swap_rows",
    "C07_swap_cols",
    "C07_get_row",
    "C07_get_col",
    "C07_put_row",
    "C07_put_col",
    "C07_column_arith",
    "C07_column_scale"
   ],
   "note": "Any scalar type; frame condition includes row padding."
  },
  {
   "property": "C08",
   "status": "proved",
   "theorems": [
    "C08_mat_vec",
    "C08_matT_vec",
    "C08_mat_mat",
    "C08_mat_matT",
    "C08_matT_mat",
    "C08_dyad",
    "C08_add_dyad",
    "C08_zMulMatVec",
    "C08_zMulMatTVec",
    "C08_zMulMatMat",
    "C08_zMulMatMatT",
    "C08_zMulMatTMat",
    "C08_zMatQuad",
    "C08_zMatTQuad",
    "C08_zMulMatMatMatT",
    "C08_zMulMatTMatMat"
   ],
   "note": "Raw kernels and object-level products over the reals (dyads for any scalar)."
  },
  {
   "property": "C09",
   "status": "proved",
   "theorems": [
    "C09_inner_prod",
    "C09_weighted_norm",
    "C09_col_inner_prod",
    "C09_trace",
    "C09_mat_sqr_norm",
    "C09_sqr_dist",
    "C09_data_sum"
   ],
   "note": ""
  },
  {
   "property": "C10",
   "status": "partial",
   "theorems": [
    "C10_vec_elem",
    "C10_vec_set_elem",
    "C10_mat_elem",
    "C10_mat_set_elem",
    "C10_vec_swap_partial",
    "C10_vec_get_partial",
    "C10_vec_put_partial",
    "C10_mat_swap_row_partial",
    "C10_mat_swap_col_partial",
    "C10_mat_get_row_partial",
    "C10_mat_get_col_partial",
    "C10_mat_put_row_partial",
    "C10_mat_put_col_partial",
    "C10_mat_get_partial",
    "C10_mat_put_partial",
    "C10_mat_tget_partial",
    "C10_mat_tput_partial",
    "C10_swap_at_size_refuted",
    "C10_negative_index_refuted"
   ],
   "note": "Element access safe for every index; the others for every non-negative index. The full claim is false for the code: negative indices and (zVecSwap) an index equal to the size are accepted (refuted)."
  },
  {
   "property": "C11",
   "status": "partial",
   "theorems": [
    "C11_readers",
    "C11_equal",
    "C11_infnorm_partial",
    "C11_infnorm_refuted"
   ],
   "note": "Everything but zMatInfNorm, which uses the column size as row stride (refuted; holds when capacity = size)."
  },
  {
   "property": "C12",
   "status": "partial",
   "theorems": [
    "C12_eval",
    "C12_add_partial",
    "C12_sub_partial",
    "C12_mul_partial",
    "C12_zero_result_undefined",
    "C12_sub_itself_refuted"
   ],
   "note": "Ring operations for every pair whose result is not the zero polynomial; a zero result makes the code read below the coefficient array (refuted)."
  },
  {
   "property": "C13",
   "status": "partial",
   "theorems": [
    "C13_div_partial",
    "C13_div_rejects",
    "C13_exact_division_refuted",
    "C13_constant_divisor_refuted"
   ],
   "note": "p = q f + r with dim r < dim f for every non-exact division by a non-constant divisor; exact division is undefined and a constant divisor is rejected (refuted)."
  },
  {
   "property": "C14",
   "status": "partial",
   "theorems": [
    "C14_dif",
    "C14_dif_constant_null",
    "C14_intg",
    "C14_difval",
    "C14_modulo",
    "C14_modulo_mismatch",
    "C14_exp",
    "C14_exp_strict_partial",
    "C14_exp_overlap_refuted"
   ],
   "note": "All proved over the reals; zPexExp relies on memcpy between overlapping areas unless the number of roots is a power of two (refuted under strict C)."
  },
  {
   "property": "C15",
   "status": "partial",
   "theorems": [
    "C15_rgl_partial",
    "C15_zero_polynomial_refuted"
   ],
   "note": "Exact for every non-zero polynomial; out of bounds on every zero polynomial (refuted)."
  },
  {
   "property": "C16",
   "status": "partial",
   "theorems": [
    "C16_any_alias",
    "C16_div_real",
    "C16_product_partial",
    "C16_product_in_place",
    "C16_inverse",
    "C16_quotient_partial",
    "C16_quotient_in_place",
    "C16_quotient_inverts_product",
    "C16_sqrabs_multiplicative",
    "C16_integer_power",
    "C16_nth_root",
    "C16_log_inverts_pow",
    "C16_log_fails",
    "C16_log_real_base",
    "C16_product_aliased_refuted",
    "C16_small_divisor_refuted"
   ],
   "note": "All operations realise the field C; zComplexCMul/CDiv with the destination among the operands is wrong, and CDiv by a small nonzero number reads an uninitialised variable (refuted)."
  },
  {
   "property": "C17",
   "status": "partial",
   "theorems": [
    "C17_quadratic_partial",
    "C17_quadratic_rejects",
    "C17_cubic",
    "C17_double_zero_root_refuted"
   ],
   "note": "All cubics and all quadratics except a x^2 = 0, for which the code computes 0/0 (refuted in binary64)."
  },
  {
   "property": "C18",
   "status": "proved",
   "theorems": [
    "C18_fifo",
    "C18_dequeue",
    "C18_enqueue",
    "C18_jump"
   ],
   "note": "Any history; frames are abstract values."
  },
  {
   "property": "C19",
   "status": "proved",
   "theorems": [
    "C19_nearest",
    "C19_nearest_empty",
    "C19_sum",
    "C19_mean",
    "C19_mean_empty",
    "C19_variance",
    "C19_covariance",
    "C19_bounds"
   ],
   "note": "Exact real arithmetic, all lists of vectors of one size."
  },
  {
   "property": "C20",
   "status": "partial",
   "theorems": [
    "C20_nearest_partial",
    "C20_init",
    "C20_empty_refuted"
   ],
   "note": "Exact for every insertion history with at least one insertion; a query of an empty tree dereferences NULL (refuted)."
  },
  {
   "property": "C21",
   "status": "partial",
   "theorems": [
    "C21_add_node",
    "C21_connect",
    "C21_biconnect",
    "C21_built_graphs",
    "C21_built_costs",
    "C21_built_two_way",
    "C21_dijkstra_partial",
    "C21_astar_partial",
    "C21_backward_partial",
    "C21_unknown_node",
    "C21_directed_refuted",
    "C21_same_node_refuted",
    "C21_unreachable_refuted",
    "C21_stale_path_refuted"
   ],
   "note": "Proved for every two-way graph (built with zGraphBiconnect) and consistent estimates. The search runs from the goal along outgoing arcs, so on directed graphs it answers the cost of the opposite direction (refuted); equal start and goal is an error; an unreachable start dereferences NULL or lists a stale path (refuted). Estimates that are admissible but not consistent are not covered."
  },
  {
   "property": "C22",
   "status": "proved",
   "theorems": [
    "C22_permutation",
    "C22_step",
    "C22_largest",
    "C22_largest_diagonal"
   ],
   "note": "Any history of steps, any scalar type; the functions take the matrix as const and return only the index array."
  },
  {
   "property": "C23",
   "status": "partial",
   "theorems": [
    "C23_gauss_partial",
    "C23_gauss_exact",
    "C23_rejects",
    "C23_safe",
    "C23_tolerance_refuted",
    "C23_small"
   ],
   "note": "Exact without a tolerance and for every tolerance below a bound depending on the matrix; with zTOL the answer solves a system with negligibly changed coefficients (exactness refuted). No out-of-bounds access for any scalar type."
  },
  {
   "property": "C24",
   "status": "partial",
   "theorems": [
    "C24_lower",
    "C24_upper_partial",
    "C24_upper_refuted",
    "C24_lu",
    "C24_lu_rejects"
   ],
   "note": "zLESolveU does not divide by the diagonal: only for unit upper triangular matrices (refuted otherwise)."
  },
  {
   "property": "C25",
   "status": "partial",
   "theorems": [
    "C25_lu_partial",
    "C25_full_rank",
    "C25_solve",
    "C25_rejects",
    "C25_safe_partial",
    "C25_rank_deficient_refuted",
    "C25_wide_refuted",
    "C25_small"
   ],
   "note": "Exact for full column rank; wrong product for some rank-deficient matrices and out of bounds for some wide ones (both refuted)."
  },
  {
   "property": "C26",
   "status": "partial",
   "theorems": [
    "C26_cholesky_partial",
    "C26_exact",
    "C26_safe",
    "C26_rejects",
    "C26_indefinite_refuted",
    "C26_small"
   ],
   "note": "Exact for every positive semidefinite matrix (residual at most tol with a tolerance); some indefinite matrices are accepted with a wrong factor (refuted)."
  },
  {
   "property": "C27",
   "status": "partial",
   "theorems": [
    "C27_tridiagonal_partial",
    "C27_pivot",
    "C27_dominant",
    "C27_rejects",
    "C27_last_pivot_refuted"
   ],
   "note": "Last pivot is not checked (refuted); correct whenever it is not zero, in particular for diagonally dominant systems."
  },
  {
   "property": "C28",
   "status": "partial",
   "theorems": [
    "C28_det_exact",
    "C28_det_partial",
    "C28_not_square",
    "C28_safe",
    "C28_scaled_refuted",
    "C28_adjugate",
    "C28_adjugate_1x1_refuted",
    "C28_small"
   ],
   "note": "Exact without a tolerance and for every tolerance below a bound depending on the matrix; with zTOL a nonzero determinant may be reported as 0 (refuted). Adjugate also proved, 1x1 reads a NULL matrix (refuted)."
  },
  {
   "property": "C29",
   "status": "partial",
   "theorems": [
    "C29_mul_inv_partial",
    "C29_mul_inv_exact",
    "C29_mat_inv_partial",
    "C29_mat_inv_shape_refuted",
    "C29_inverse_partial",
    "C29_singular_refuted",
    "C29_rejects",
    "C29_safe",
    "C29_small"
   ],
   "note": "Correct for nonsingular matrices; zMatInv ignores singularity (refuted); zMulMatInvMat checks the wrong sizes (refuted). zMatInvHotelling not modelled."
  },
  {
   "property": "C30",
   "status": "partial",
   "theorems": [
    "C30_balancing_partial",
    "C30_rows",
    "C30_wide_refuted"
   ],
   "note": "All shapes with at least as many rows as columns; a wide matrix overruns s (refuted)."
  },
  {
   "property": "C31",
   "status": "proved",
   "theorems": [
    "C31_fft_is_dft",
    "C31_harmonic",
    "C31_inner",
    "C31_two_dimensional",
    "C31_size_mismatch",
    "C31_nyquist"
   ],
   "note": "Exact arithmetic with real cos, sin and pi; all lengths. At half the sampling frequency the amplitude is doubled (C31_nyquist)."
  },
  {
   "property": "C32",
   "status": "proved",
   "theorems": [
    "C32_roundtrip",
    "C32_inverse",
    "C32_roundtrip_2d",
    "C32_size_mismatch"
   ],
   "note": "Exact arithmetic with real cos, sin and pi; all sizes."
  },
  {
   "property": "C33",
   "status": "proved",
   "theorems": [
    "C33_segment",
    "C33_in_bounds"
   ],
   "note": "Real times strictly increasing for the segment; in-bounds and terminating for any scalar type and any times."
  },
  {
   "property": "C34",
   "status": "partial",
   "theorems": [
    "C34_linear_partial",
    "C34_close_refuted"
   ],
   "note": "All sequences whose points are more than zTOL apart in time; closer points are missed because the division by a tiny time step is refused (refuted)."
  },
  {
   "property": "C35",
   "status": "proved",
   "theorems": [
    "C35_lagrange"
   ],
   "note": "Exact real arithmetic, all sets of distinct times."
  },
  {
   "property": "C36",
   "status": "partial",
   "theorems": [
    "C36_spline_partial",
    "C36_bad_edge",
    "C36_coefficients",
    "C36_free_end_refuted",
    "C36_two_free_refuted"
   ],
   "note": "Twice continuously differentiable through the points; fixed ends and a free first end proved. A free last end does not have zero acceleration (coefficients swapped, refuted); two points with both ends free give NaN (refuted). The cubic of zIPSplineCoeff is the curve."
  },
  {
   "property": "C37",
   "status": "partial",
   "theorems": [
    "C37_akima_smooth",
    "C37_pchip_smooth",
    "C37_akima_velocity",
    "C37_pchip_monotone_partial",
    "C37_pchip_line_partial",
    "C37_modified_akima_line_partial",
    "C37_pchip_two_refuted",
    "C37_akima_line_refuted",
    "C37_modified_akima_line_refuted",
    "C37_pchip_line_refuted",
    "C37_pchip_monotone_refuted"
   ],
   "note": "Through the points with continuous exact velocity. Straight lines are reproduced by modified Akima and PCHIP except near the end, not by Akima (refuted); PCHIP monotone between the second and the last but one point, not at the ends (refuted)."
  },
  {
   "property": "C38",
   "status": "partial",
   "theorems": [
    "C38_boundary",
    "C38_zero_term_rejected",
    "C38_boundary_lsm_partial",
    "C38_boundary_lsm_refuted",
    "C38_boundary_lsm_singular_refuted"
   ],
   "note": "Proved for zPexIPCreateBoundary. The least-squares variant misses the terminal velocity and acceleration unless the duration is 1 (refuted) and answers a zero polynomial as success when its equations are singular (refuted)."
  },
  {
   "property": "C39",
   "status": "partial",
   "theorems": [
    "C39_accepts",
    "C39_profile_partial",
    "C39_short_refuted"
   ],
   "note": "Proved when the change of velocity fits into the distance; otherwise the profile is accepted but starts elsewhere (refuted)."
  },
  {
   "property": "C40",
   "status": "partial",
   "theorems": [
    "C40_start_partial",
    "C40_start_refuted"
   ],
   "note": "The y coordinate starts from x0: proved for x0=y0, refuted otherwise."
  },
  {
   "property": "C41",
   "status": "proved",
   "theorems": [
    "C41_segment",
    "C41_segment_outside",
    "C41_basis",
    "C41_basis_properties",
    "C41_bspline_curve",
    "C41_nurbs_curve",
    "C41_convex_hull",
    "C41_first_point",
    "C41_last_point",
    "C41_create",
    "C41_flat_refuted"
   ],
   "note": "Knots of equal value throughout the domain (empty domain, e.g. scaled to an empty interval) make the search run off the knots (C41_flat_refuted). Weights above zTOL."
  },
  {
   "property": "C42",
   "status": "partial",
   "theorems": [
    "C42_standard_precedence_partial",
    "C42_standard_precedence_string_partial",
    "C42_every_term_can_be_written",
    "C42_every_term_evaluated",
    "C42_empty",
    "C42_sign_in_parentheses_refuted",
    "C42_no_argument_hangs_refuted",
    "C42_sign_of_argument_refuted",
    "C42_function_precedence_refuted",
    "C42_function_in_parentheses_refuted",
    "C42_power_groups_from_the_left_refuted",
    "C42_syntax_error_crashes_refuted",
    "C42_adjacent_operators_refuted"
   ],
   "note": "Exact arithmetic, from tokens and from characters with a blank after each token (the number scanner of ZEDA is a parameter). Proved for expressions in which a sign or a function begins the input or follows two opening parentheses; every term can be written so. Missing because it is refuted: 2*(-1) hangs, abs(-1) is abs(0)-1, 1+abs(2)*3 is (1+abs(2))*3, (abs(1)+2)*3 ignores *3, 2^3^2 groups from the left, 3!+2 drops both operators, a missing operand and f(1) crash."
  },
  {
   "property": "C43",
   "status": "partial",
   "theorems": [
    "C43_simplex_partial",
    "C43_infeasible",
    "C43_tolerance_partial",
    "C43_sizes",
    "C43_feasible_base_partial",
    "C43_dependent_refuted",
    "C43_tolerance_refuted",
    "C43_limit_refuted",
    "C43_square_refuted",
    "C43_feasible_base_refuted"
   ],
   "note": "Exact arithmetic, fewer equations than variables, independent rows: for all tolerances small enough for the problem an answer is a minimum; infeasible problems are reported (any rows); with a fixed tolerance the equations hold exactly and the answer is near-optimal. Refuted: dependent rows give an answer that breaks an equation; with a fixed tolerance the answer may be negative; a solvable problem may be reported to fail by the limit of exchanges; a square problem reads outside of the index; zLPFeasibleBase writes outside of its answer."
  },
  {
   "property": "C44",
   "status": "partial",
   "theorems": [
    "C44_lemke_partial",
    "C44_sound_partial",
    "C44_tolerance_refuted"
   ],
   "note": "Exact arithmetic. w = M z + q and w_i z_i = 0 for every tolerance; w, z >= 0 for all tolerances small enough for the problem, and refuted for a fixed one. Termination is not proved (the code has no limit of iterations)."
  },
  {
   "property": "C45",
   "status": "proved",
   "theorems": [
    "C45_ineq",
    "C45_unbounded"
   ],
   "note": "All sizes; exact arithmetic."
  },
  {
   "property": "C46",
   "status": "partial",
   "theorems": [
    "C46_value",
    "C46_value_sizes",
    "C46_qp",
    "C46_kkt",
    "C46_no_constraints_refuted",
    "C46_conjugate_gradient_partial",
    "C46_conjugate_gradient_refuted"
   ],
   "note": "Exact arithmetic. The solver of the complementarity problem is a parameter (C44). The directions of the conjugate gradient method are not conjugate (wrong sign), so it converges linearly (proved) instead of within n iterations (refuted). A quadratic program without constraints dereferences a null pointer (refuted)."
  },
  {
   "property": "C47",
   "status": "partial",
   "theorems": [
    "C47_trisection",
    "C47_golden_exact",
    "C47_golden_partial",
    "C47_golden_refuted",
    "C47_brent_improves",
    "C47_brent_partial",
    "C47_brent_refuted"
   ],
   "note": "Exact arithmetic, strictly unimodal functions. Golden section: the 15 digits of the constant keep the minimiser for 60 iterations or when the tolerance is at least 1e-12 of the interval (otherwise refuted). Brent: never worse than the midpoint; the minimiser is kept unless a step of length zero is made (refuted otherwise)."
  },
  {
   "property": "C48",
   "status": "partial",
   "theorems": [
    "C48_bisec",
    "C48_bisec_root",
    "C48_regula_falsi",
    "C48_vdb",
    "C48_secant_partial",
    "C48_secant_refuted",
    "C48_random_bracket_refuted"
   ],
   "note": "Bisection, regula falsi and van Wijngaarden-Dekker-Brent from a sign-changing bracket in exact arithmetic. The secant method divides by zero from a sign-changing bracket (refuted; affine functions proved). A root met by the random search for a bracket is not answered (refuted)."
  },
  {
   "property": "C49",
   "status": "proved",
   "theorems": [
    "C49_rectangular",
    "C49_trapezoidal",
    "C49_trapezoidal_affine",
    "C49_quadratic",
    "C49_quadratic_poly",
    "C49_quadratic_refuted"
   ],
   "note": "Positive steps for the quadratic rule. Its first step has two samples only and is a trapezoid, so a quadratic signal is not integrated exactly (C49_quadratic_refuted gives the defect)."
  },
  {
   "property": "C50",
   "status": "partial",
   "theorems": [
    "C50_methods",
    "C50_orders",
    "C50_polynomial",
    "C50_linear",
    "C50_embedded_polynomial",
    "C50_embedded_linear",
    "C50_cash_karp_refuted"
   ],
   "note": "Exact arithmetic, default cat/sub functions. The Cash-Karp solver uses the fourth-order weights as the fifth-order ones: degree four is not exact (refuted), degree three is."
  },
  {
   "property": "C51",
   "status": "partial",
   "theorems": [
    "C51_constant_acceleration",
    "C51_leapfrog_start_refuted",
    "C51_symplectic",
    "C51_leapfrog_is_symplectic",
    "C51_reversible",
    "C51_regular"
   ],
   "note": "Symplectic and reversible for accelerations depending on the position only. Constant acceleration is exact from the proper half-step velocity, but zODE2InitHistoryLeapfrog does not set that (refuted)."
  },
  {
   "property": "C52",
   "status": "proved",
   "theorems": [
    "C52_mean",
    "C52_variance",
    "C52_affine",
    "C52_included",
    "C52_vectors",
    "C52_sizes",
    "C52_covariance",
    "C52_range",
    "C52_mixed_sizes_refuted",
    "C52_empty_refuted"
   ],
   "note": "Exact arithmetic, nonempty data; vectors of mixed sizes and empty lists misbehave (refutations)."
  },
  {
   "property": "C53",
   "status": "proved",
   "theorems": [
    "C53_extrema",
    "C53_minmax",
    "C53_empty_refuted"
   ],
   "note": "An empty array is outside the quantifier: element 0 is read (C53_empty_refuted)."
  },
  {
   "property": "C54",
   "status": "partial",
   "theorems": [
    "C54_tiling",
    "C54_one_vote",
    "C54_counts",
    "C54_bin_range_partial",
    "C54_auto",
    "C54_last_bin_refuted",
    "C54_outside_refuted",
    "C54_auto_refuted"
   ],
   "note": "Counting is proved. False parts: the reported upper end of the last bin equals its lower end, values out of range are counted in the end bins, automatic creation with one bin or constant data and far values hit undefined conversions."
  },
  {
   "property": "C55",
   "status": "partial",
   "theorems": [
    "C55_default_functions",
    "C55_extend",
    "C55_paths",
    "C55_find_path",
    "C55_star_extend",
    "C55_star_check",
    "C55_star_paths",
    "C55_find_path_opt",
    "C55_find_path_dual",
    "C55_shortcut_partial",
    "C55_escape",
    "C55_no_cost_refuted",
    "C55_default_collision_refuted",
    "C55_star_refuted",
    "C55_shortcut_cost_refuted"
   ],
   "note": "Exact arithmetic, any metric, extension and collision check. RRT, RRT*, RRT-connect, escape: tree rooted at the start, parents in the tree, edges no longer than eps, nodes free of collision, paths lead back to the start. Refuted: RRT* rewiring can make the path of a node longer (costs of descendants are stale); without the cost pointer RRT dereferences NULL; the default collision check rejects everything; the shortcut omits the last edge from the cost."
  },
  {
   "property": "C56",
   "status": "partial",
   "theorems": [
    "C56_init",
    "C56_adapt",
    "C56_aged",
    "C56_grow",
    "C56_grow_values",
    "C56_history",
    "C56_ages",
    "C56_destroy",
    "C56_overflow_refuted",
    "C56_lifetime_refuted"
   ],
   "note": "Any arithmetic in which no distance overflows, lifetime >= 0: every step and every history keep the invariants, plus: at most one edge a pair, ages within the lifetime, growth by exactly one unit, nothing left after the destruction. Refuted: with distances that overflow a unit is connected to itself; with a negative lifetime all units vanish and the root of the list is read as a unit."
  },
  {
   "property": "C57",
   "status": "partial",
   "theorems": [
    "C57_reassign",
    "C57_recluster",
    "C57_first_clusters",
    "C57_kkz_partial",
    "C57_kmeanspp_partial",
    "C57_kmedoids_partial",
    "C57_kkz_refuted",
    "C57_kmeanspp_refuted",
    "C57_roulette_refuted"
   ],
   "note": "Exact arithmetic. A pass, for any method: partition, nearest cores, unchanged when nothing moves. Rounds with the default method: partition, nearest cores, cost never above that of the start with any cores, means when settled. The whole (KKZ, k-means++, k-medoids) from distinct points and random numbers in (0,1]. Refuted: KKZ on coincident points or on one point dereferences a null pointer; a random number 0 gives a point to two clusters; with more clusters than different points the roulette takes the root of the list."
  },
  {
   "property": "C58",
   "status": "partial",
   "theorems": [
    "C58_jacobi_partial",
    "C58_sizes",
    "C58_one_refuted",
    "C58_zero_refuted"
   ],
   "note": "Exact arithmetic, sizes 2 and more, leading 2x2 block not zero. Orthogonality, V^T M V, residuals and trace for every history of rotations; the bound for the absence of the warning is crude (each sweep takes 2 tol^2 off the off-diagonal sum of squares). A 1x1 matrix is read outside of its bounds, and the zero matrix gives NaN (both refuted)."
  },
  {
   "property": "C59",
   "status": "partial",
   "theorems": [
    "C59_elementwise",
    "C59_cat",
    "C59_complex_multiple_partial",
    "C59_complex_quotient_partial",
    "C59_inner_product",
    "C59_size_mismatch",
    "C59_size_match",
    "C59_pairing",
    "C59_pairing_complete",
    "C59_split",
    "C59_polynomial_value_partial",
    "C59_polynomial_value_in_place_refuted",
    "C59_polynomial_from_roots",
    "C59_complex_multiple_in_place_refuted",
    "C59_small_divisor_refuted",
    "C59_division_check"
   ],
   "note": "Proved for all sizes; in-place complex multiples and small complex divisors are wrong in the code (refuted)."
  },
  {
   "property": "C60",
   "status": "partial",
   "theorems": [
    "C60_lq",
    "C60_lq_exact",
    "C60_resized",
    "C60_qr",
    "C60_qr_null_refuted",
    "C60_householder_partial",
    "C60_null_partial",
    "C60_householder_refuted"
   ],
   "note": "Exact arithmetic. zMatDecompLQ, zMatDecompLQAndResize and zMatDecompQR for all matrices. Householder (zMatDecompLQ_Householder, zMatDecompLQNull) is right when the rank it finds is the smaller size; with dependent leading rows the factors do not reproduce the matrix (refuted). zMatDecompQR dereferences a null r although the header allows it (refuted)."
  },
  {
   "property": "C61",
   "status": "partial",
   "theorems": [
    "C61_select",
    "C61_median",
    "C61_sort",
    "C61_sort_index",
    "C61_sort_index_size",
    "C61_kth_unique",
    "C61_peak",
    "C61_rdp_partial",
    "C61_rdp_empty",
    "C61_rdp_single_refuted"
   ],
   "note": "Sorting and selection under the contract of ZEDA zQuickSort/zQuickSelect. Peaks: strict local maxima, all of them for w<=0; for w>0 thinned as stated. Simplification of a one-point list dereferences a wrong cell (refuted)."
  },
  {
   "property": "C62",
   "status": "proved",
   "theorems": [
    "C62_continuous",
    "C62_range",
    "C62_monotone",
    "C62_derivative",
    "C62_derivative_closed_form"
   ],
   "note": "All orders, all real x."
  },
  {
   "property": "C63",
   "status": "partial",
   "theorems": [
    "C63_vec_binary",
    "C63_vec_unary",
    "C63_mat_binary",
    "C63_mat_unary",
    "C63_products_null",
    "C63_triple_product_refuted",
    "C63_copy"
   ],
   "note": "Proved for all but zMulMatMatMatT/zMulMatTMatMat, which do not check the size of the result (refuted)."
  },
  {
   "property": "C64",
   "status": "partial",
   "theorems": [
    "C64_mul_in_place",
    "C64_mul_transposed_in_place",
    "C64_mismatch_zeroes",
    "C64_mismatch_refuted"
   ],
   "note": "Correct for square matrices; a mismatching shape is not reported and zeroes the vector (refuted)."
  },
  {
   "property": "C65",
   "status": "partial",
   "theorems": [
    "C65_projection",
    "C65_orthogonalize",
    "C65_remainder_orthogonal",
    "C65_edge_dist",
    "C65_segment_refuted",
    "C65_orthogonalize_in_place_refuted"
   ],
   "note": "zVecEdgeDist is the distance to the infinite line, not to the edge (refuted for segments)."
  },
  {
   "property": "C66",
   "status": "proved",
   "theorems": [
    "C66_equal",
    "C66_isdiag",
    "C66_isident",
    "C66_issymmetric"
   ],
   "note": "Any scalar type."
  },
  {
   "property": "C67",
   "status": "partial",
   "theorems": [
    "C67_sweep_out",
    "C67_sweep_out_zero",
    "C67_sweep_out_vec",
    "C67_safe",
    "C67_tolerance_refuted"
   ],
   "note": "Exact without a tolerance and for every tolerance below a bound depending on the matrix; with zTOL negligible entries are cleared without adjusting the row (refuted)."
  },
  {
   "property": "C68",
   "status": "partial",
   "theorems": [
    "C68_expression_partial",
    "C68_null",
    "C68_constant_term_refuted",
    "C68_constant_refuted"
   ],
   "note": "Correct when there is no constant term; the constant term is printed with the number of another term, or an uninitialised variable (refuted). Coefficients equal to 1 within zTOL must be 1; %.10g is taken as exact; the buffer is large enough."
  },
  {
   "property": "C69",
   "status": "partial",
   "theorems": [
    "C69_spline_velocity",
    "C69_spline_acceleration_partial",
    "C69_linear_velocity_partial",
    "C69_akima_velocity_partial",
    "C69_lagrange",
    "C69_spline_last_refuted",
    "C69_linear_last_refuted",
    "C69_akima_first_refuted",
    "C69_pchip_acceleration_refuted",
    "C69_linear_acceleration"
   ],
   "note": "Refuted at the last point of linear and spline (acceleration), at the first point of Akima, and for the acceleration of PCHIP."
  },
  {
   "property": "C70",
   "status": "partial",
   "theorems": [
    "C70_least_squares_partial",
    "C70_sizes",
    "C70_few_samples_refuted"
   ],
   "note": "Zero tolerance; with at least as many distinct times as coefficients. With fewer the zero polynomial is answered as success (refuted)."
  },
  {
   "property": "C71",
   "status": "partial",
   "theorems": [
    "C71_fresnel_partial"
   ],
   "note": "f1 and f2 each zero or above zTOL (smaller ones are treated as zero). The normalized integrals themselves are taken as exact."
  },
  {
   "property": "C72",
   "status": "partial",
   "theorems": [
    "C72_clothoid_partial"
   ],
   "note": "As C71: curvature and shrinkage zero or above zTOL. That the curve ends at the given point is not shown (the search compares with a direction displaced by the start point)."
  },
  {
   "property": "C73",
   "status": "proved",
   "theorems": [
    "C73_basis_derivative",
    "C73_bspline_derivative",
    "C73_nurbs_derivative"
   ],
   "note": "At parameters strictly between two knots."
  },
  {
   "property": "C74",
   "status": "proved",
   "theorems": [
    "C74_scale",
    "C74_normalize",
    "C74_tiny_range_refuted"
   ],
   "note": "A range within zTOL is shifted but not stretched (C74_tiny_range_refuted)."
  },
  {
   "property": "C75",
   "status": "partial",
   "theorems": [
    "C75_binomial",
    "C75_poisson",
    "C75_chi2_even_partial"
   ],
   "note": "Chi-squared for even degrees of freedom only (odd ones need the numerical normal cumulative function). Exact arithmetic."
  },
  {
   "property": "C76",
   "status": "partial",
   "theorems": [
    "C76_reproduces_partial",
    "C76_peaks_partial",
    "C76_odd_window_refuted",
    "C76_unit_window_refuted"
   ],
   "note": "Even windows, zero tolerance, exact arithmetic. Odd windows read one element behind the data (refuted), a window of one sample frees an uninitialised pointer (refuted)."
  },
  {
   "property": "C77",
   "status": "partial",
   "theorems": [
    "C77_adams",
    "C77_adams_correction",
    "C77_gear",
    "C77_adams_start_refuted",
    "C77_gear_start_refuted"
   ],
   "note": "The start of both methods is not exact: zero or constant history (refuted). Gear: the nonlinear solver is assumed to find a zero. Default cat function."
  },
  {
   "property": "C78",
   "status": "partial",
   "theorems": [
    "C78_embedded",
    "C78_deferred_correction",
    "C78_deferred_euler",
    "C78_deferred_rk4_refuted"
   ],
   "note": "Deferred correction may recur without end, so its theorem is about returned results; with a method of order above one it does not raise the order (refuted). For Cash-Karp the two sets of weights are swapped (see C50)."
  },
  {
   "property": "C79",
   "status": "proved",
   "theorems": [
    "C79_implicit",
    "C79_orders",
    "C79_radau_order4_refuted"
   ],
   "note": "Exact zero of the residual. The comment in the code claims order four for Radau (refuted)."
  },
  {
   "property": "C80",
   "status": "partial",
   "theorems": [
    "C80_sound",
    "C80_broyden_affine",
    "C80_broyden_update",
    "C80_jacobian_partial",
    "C80_jacobian_refuted",
    "C80_jacobian_overflow_refuted",
    "C80_substitution",
    "C80_substitution_refuted"
   ],
   "note": "The numerical Jacobian is stored transposed (refuted) and written outside of the matrix when there are more variables than equations (refuted). The successive substitution does not tell an unconverged answer apart (refuted). The descent methods (zOptDM) are not modelled; the direction of the Newton-Raphson method is a parameter."
  },
  {
   "property": "C81",
   "status": "partial",
   "theorems": [
    "C81_svd_partial",
    "C81_one_row_refuted"
   ],
   "note": "Exact arithmetic, 2 rows and more, the first two rows not both zero (see C58). A matrix of one row is read outside of the bounds (refuted)."
  },
  {
   "property": "C82",
   "status": "partial",
   "theorems": [
    "C82_xmeans_partial",
    "C82_two_means",
    "C82_silhouette",
    "C82_mean_silhouette",
    "C82_evenness",
    "C82_density",
    "C82_density_refuted",
    "C82_crisp_refuted",
    "C82_one_cluster_refuted"
   ],
   "note": "Exact arithmetic. Termination, partition and non-empty clusters for every test function, points farther apart than the tolerance and random fractions in (0,1]. Refuted: the density test answers true for a better division, which is then discarded; a division more uneven than 10:1 is accepted instead of avoided; one cluster gives NaN."
  },
  {
   "property": "C83",
   "status": "proved",
   "theorems": [
    "C83_nearest",
    "C83_pivot",
    "C83_box",
    "C83_default"
   ],
   "note": "Exact arithmetic."
  },
  {
   "property": "C84",
   "status": "partial",
   "theorems": [
    "C84_ransac",
    "C84_samples_kept",
    "C84_auto",
    "C84_within_refuted"
   ],
   "note": "Everything but the last clause is proved. The last clause is refuted: the inliers belong to the candidate; after refitting, a returned inlier may be farther than twice the threshold from the returned model. ZEDA list splicing is a parameter with a permutation contract."
  },
  {
   "property": "C85",
   "status": "partial",
   "theorems": [
    "C85_particles",
    "C85_monotone",
    "C85_solve_partial",
    "C85_eval_refuted",
    "C85_best_refuted",
    "C85_no_particles_refuted"
   ],
   "note": "The invariants of the particles, the monotone records, the end of the run and the box are proved for all inputs. The last clause is refuted: the best vector is an alias of the record of a particle, updated in the last round while the value is not (reported value greater than f(ans)), and a better point of the last round is ignored; what holds instead is C85_solve_partial. A swarm without particles is read out of bounds."
  },
  {
   "property": "C86",
   "status": "partial",
   "theorems": [
    "C86_solve",
    "C86_not_worse",
    "C86_sizes",
    "C86_terminates_refuted",
    "C86_box_refuted"
   ],
   "note": "The answer, its value, the comparison with the start and the failure are proved. The two last clauses are refuted: the expansion of the first iteration can go on for ever whatever the limit (objective -x), and nothing keeps the simplex in the box. ZEDA index sort is a parameter with a sorting contract."
  },
  {
   "property": "C87",
   "status": "partial",
   "theorems": [
    "C87_generations",
    "C87_survivors",
    "C87_best_partial",
    "C87_solve",
    "C87_best_refuted",
    "C87_parents_refuted",
    "C87_one_refuted",
    "C87_inputs_refuted"
   ],
   "note": "Proved for random numbers in [0,1), a population that is not empty and a survival rate that is not negative. Refuted: the best individual may mutate (the best value never gets worse only if it does not: C87_best_partial); parents may be children of the same generation; the random number 1 gives NaN genes; an empty population, bounds of different sizes and a negative survival rate read out of bounds."
  },
  {
   "property": "C88",
   "status": "partial",
   "theorems": [
    "C88_kura_rate",
    "C88_kura_entrained",
    "C88_vdp_create",
    "C88_vdp_init",
    "C88_vdp_equation",
    "C88_vdp_conserved",
    "C88_vdp_odd",
    "C88_vdp_rest",
    "C88_vdp_amp_refuted",
    "C88_vdp_limit_refuted"
   ],
   "note": "Proved in exact arithmetic for ke*dt <= 1 and amplitude not 0. Refuted: the amplitude 0 gives NaN; with coarse steps the damped oscillator diverges to NaN instead of being drawn to its amplitude (that it is drawn for fine steps is not proved)."
  },
  {
   "property": "C89",
   "status": "partial",
   "theorems": [
    "C89_gamma",
    "C89_exp_law",
    "C89_weibull_law",
    "C89_power_law",
    "C89_log_law",
    "C89_tri_law",
    "C89_cauchy_law",
    "C89_chi_law",
    "C89_beta_law",
    "C89_f_law",
    "C89_nd_law",
    "C89_t_law",
    "C89_gamma_small_law",
    "C89_gamma_big_law",
    "C89_chi",
    "C89_t",
    "C89_exp",
    "C89_log",
    "C89_power",
    "C89_tri",
    "C89_cauchy",
    "C89_weibull",
    "C89_beta_partial",
    "C89_f_partial",
    "C89_binom",
    "C89_binom2",
    "C89_poisson",
    "C89_geo",
    "C89_normal",
    "C89_beta_refuted",
    "C89_geo_refuted",
    "C89_one_refuted"
   ],
   "note": "Proved in exact arithmetic for every stream in [0,1). Refuted: beta numbers with small parameters can be 0/0; the geometric number can be 0; if the generator can draw 1, gamma and Cauchy divide by 0. Termination of rejection loops depends on the stream and is not claimed; that the distributions have the right probabilities is not claimed."
  },
  {
   "property": "C90",
   "status": "partial",
   "theorems": [
    "C90_norm_min_partial",
    "C90_ref_norm_min_partial",
    "C90_error_min",
    "C90_sr_bias",
    "C90_sr_nonneg",
    "C90_sr_ref",
    "C90_sr_aux",
    "C90_rejects",
    "C90_weights_refuted",
    "C90_ref_size_refuted",
    "C90_sr_null_refuted"
   ],
   "note": "Optimality, uniqueness and the meaning of a null answer proved in exact arithmetic for every size. Refuted: the norm minimized is the sum of x*x/w, not of w*x*x as documented (C90_weights_refuted; the theorems state the norm that is minimized, hence _partial); the size of the reference vector is not checked; a null error weight crashes the singularity-robust solvers."
  },
  {
   "property": "C91",
   "status": "partial",
   "theorems": [
    "C91_mp_partial",
    "C91_mp_inverse",
    "C91_aux_partial",
    "C91_null_partial",
    "C91_lu_partial",
    "C91_svd",
    "C91_zero_refuted",
    "C91_weights_refuted",
    "C91_size_refuted",
    "C91_projector_refuted",
    "C91_lu_refuted"
   ],
   "note": "Optimality and uniqueness proved in exact arithmetic for every size and rank (LQ), full column rank (LU), and relative to a correct decomposition (SVD). Refuted: the zero matrix leaves the answer untouched; the norm minimized is the sum of x*x/w; a right-hand side of another size is taken for zero; the null-space matrix is the negative of the projector; the LU variant writes out of bounds or gives non-solutions for other matrices."
  },
  {
   "property": "C92",
   "status": "proved",
   "theorems": [
    "C92_lyapnov",
    "C92_symmetric",
    "C92_rejects",
    "C92_singular_refuted"
   ],
   "note": "Exact arithmetic, tolerance 0. C92_singular_refuted shows that a null answer does not mean that a is singular, as the header says."
  },
  {
   "property": "C93",
   "status": "partial",
   "theorems": [
    "C93_mpinv",
    "C93_null",
    "C93_mul",
    "C93_penrose_partial",
    "C93_agree",
    "C93_zero_refuted",
    "C93_penrose_zero_refuted",
    "C93_size_refuted"
   ],
   "note": "Proved in exact arithmetic for every matrix that is not zero. Refuted: the zero matrix gives an error (or NaN from the Penrose iteration); a destination of another size is left alone although the rank is returned. Not proved: the Penrose iteration ends."
  },
  {
   "property": "C94",
   "status": "partial",
   "theorems": [
    "C94_partition",
    "C94_selected",
    "C94_cut_order",
    "C94_converged",
    "C94_any_answer",
    "C94_limit_crash_refuted",
    "C94_limit_refuted"
   ],
   "note": "Exact arithmetic. Refuted at the limit of iterations: the answer is read from the list of the level that held the best cell before the last division: it is empty after one round on an interval (NULL cell dereferenced), or holds a worse cell than others already known."
  },
  {
   "property": "C95",
   "status": "proved",
   "theorems": [
    "C95_terminates",
    "C95_sizes"
   ],
   "note": "Exact arithmetic; the tolerance is at most 1 (a larger one makes the number of levels negative, not modelled)."
  },
  {
   "property": "C96",
   "status": "partial",
   "theorems": [
    "C96_answers",
    "C96_factors_partial",
    "C96_exact",
    "C96_exact_roots",
    "C96_singular_refuted",
    "C96_limit_refuted",
    "C96_dka_partial",
    "C96_dka_steps",
    "C96_dka_constant_refuted",
    "C96_dka_refuted"
   ],
   "note": "Bairstow-Hitchcock: total and memory safe for any scalar; no warning implies the factorisation with bounded remainders; with zero tolerance and x^2 not dividing the polynomial the answer is exactly the multiset of roots. Refuted in doubles: x^3 - x - 1 gives NaN for every iteration limit; at the limit non-roots are returned with a message only. Durand-Kerner-Aberth: no warning implies residuals within tolerance, and exact factorisation if the numbers are distinct zeros; steps are Weierstrass corrections. Refuted: a constant polynomial reads coefficient -1; close iterates read an uninitialised variable. Missing: convergence and error bounds on the roots."
  },
  {
   "property": "C97",
   "status": "partial",
   "theorems": [
    "C97_polynomials",
    "C97_partial",
    "C97_exact",
    "C97_safe",
    "C97_sections",
    "C97_single_refuted",
    "C97_same_time_refuted"
   ],
   "note": "Exact arithmetic with tolerance 0: interpolation, uniqueness of the polynomial, velocity and acceleration as derivatives. With a tolerance: the equations hold up to a negligible change of the matrix. Memory safe for any scalar with two points or more. Refuted: one point writes outside the matrix; two points at one time give the zero curve with success. Missing: a bound on how far the curve misses the points with a positive tolerance."
  },
  {
   "property": "C98",
   "status": "partial",
   "theorems": [
    "C98_set",
    "C98_value",
    "C98_velocity",
    "C98_acceleration_partial",
    "C98_acceleration_refuted"
   ],
   "note": "Proved for every series, over the reals; the acceleration for at most 46341 terms. Refuted: with more terms the int product i*i overflows, for numbers of any kind."
  },
  {
   "property": "C99",
   "status": "partial",
   "theorems": [
    "C99_erf",
    "C99_erf_converges",
    "C99_erf_odd",
    "C99_gamma_partial",
    "C99_gamma_points",
    "C99_beta"
   ],
   "note": "Error function: complete over the reals. Gamma: positivity, logarithm and beta relations for all positive arguments; the distance from the gamma function only at 1,...,7 (relative error at most 1e-11). Missing: a bound between these points."
  },
  {
   "property": "C100",
   "status": "partial",
   "theorems": [
    "C100_odd",
    "C100_accurate_partial",
    "C100_converges",
    "C100_scaled",
    "C100_flat"
   ],
   "note": "Complete over the reals for |x| <= 1.5. Missing: the accuracy of the continued fraction used above 1.5, which is a parameter of the model."
  },
  {
   "property": "C101",
   "status": "partial",
   "theorems": [
    "C101_optimal_partial",
    "C101_infeasible",
    "C101_rejects",
    "C101_not_symmetric",
    "C101_indefinite",
    "C101_overflow_refuted",
    "C101_endless_refuted"
   ],
   "note": "Every answer is an exact minimiser when there are at least as many constraints as variables, for all tolerances below a bound that depends on the data and the number of systems solved. Refuted: with fewer constraints than variables a workspace vector is overrun (for every such problem that is not refused); the loop need not end (a problem with three variables on which the active set returns). Missing: that a positive definite q is always accepted by the check."
  },
  {
   "property": "C102",
   "status": "partial",
   "theorems": [
    "C102_safe",
    "C102_rejects",
    "C102_overflow_refuted",
    "C102_residual",
    "C102_converged_partial",
    "C102_interior_partial",
    "C102_interior_small_partial",
    "C102_solvable_refuted",
    "C102_nan_refuted",
    "C102_negative_refuted"
   ],
   "note": "Proved: the residual law for every run; the bounds on the residual and the complementarity of every answer given without the iteration warning; for positive semidefinite m and steps between 0 and 1 that all the iterates are interior points near the central path, so that the answer is a solution up to the tolerance (elimination without or with a small tolerance). Refuted in binary64: m=1, q=-150 (solution z=150) is answered false; m=1, q=-100 (solution z=100) is answered true after 10000 iterations with NaNs; m=1, q=-100.0009765625 is answered with a negative w; with w=NULL a z that is too short is overrun. Cause: the step formula takes the wrong root when the inner product in its denominator is not positive. Missing: a bound on the number of iterations."
  },
  {
   "property": "C103",
   "status": "partial",
   "theorems": [
    "C103_wolfe",
    "C103_descends_partial",
    "C103_half_step",
    "C103_plain_refuted",
    "C103_endless_refuted",
    "C103_stuck_refuted",
    "C103_ds_endless_refuted",
    "C103_mt_refuted",
    "C103_brent_refuted",
    "C103_lm_refuted",
    "C103_eval_refuted"
   ],
   "note": "Proved: every step accepted by Nocedal's search satisfies the sufficient decrease and (above 0.001) the curvature condition, for any state; the steepest descent with it never increases the objective, and a nonnegative answer lies within tol of a point with a gradient within 1000 tol; Brent's search is no worse than half of the full step. Refuted: the optimiser as created climbs the gradient and answers 0, for every objective; Nocedal's search does not end on f(x)=-x; it gives up on 5000x^2 at 1, where Dennis-Schnabel's search does not end; More-Thuente's search takes a convex quartic from 0 to 1e17; Brent's search can increase the objective; Levenberg-Marquardt accepts an increase, the solver having overwritten the gradient; *eval is the value of the point before the last. Missing: the conjugate gradient and the variable metric method over a whole run."
  },
  {
   "property": "C104",
   "status": "partial",
   "theorems": [
    "C104_formula",
    "C104_secant",
    "C104_iteration",
    "C104_dfp_refuted"
   ],
   "note": "Proved for both updates: the BFGS formula, symmetry, the secant equation, positive definiteness when step and gradient change agree; one iteration with Nocedal's search reduces the objective strictly and keeps positive definiteness when the step length is above 0.001. Refuted: \"DFP\" is the BFGS formula, not that of Davidon, Fletcher and Powell. Missing: steps of length within 0.001, for which the search does not test the curvature."
  },
  {
   "property": "C105",
   "status": "partial",
   "theorems": [
    "C105_gradient",
    "C105_quadratic",
    "C105_error",
    "C105_hessian",
    "C105_round_refuted"
   ],
   "note": "Proved over the reals. Refuted in binary64: where 1e-6 is below the spacing of the numbers the differences vanish, and x^2/2 from 1e12 is answered 0 iterations."
  },
  {
   "property": "C106",
   "status": "partial",
   "theorems": [
    "C106_direction",
    "C106_step",
    "C106_longest",
    "C106_unblocked_refuted",
    "C106_run_partial",
    "C106_unbounded_refuted",
    "C106_infeasible_refuted",
    "C106_redundant_refuted"
   ],
   "note": "Proved: the direction solves Newton's equations; the step is the longest possible one when some component decreases; a whole run with independent rows answers, for every small tolerance of the linear solvers, true with a nonnegative answer and its cost, all iterates positive, the primal and dual residuals being the initial ones times the product of (1 - step); when it ends by its test of convergence the cost is within a bound proportional to the tolerance of the cost of every feasible point. Refuted: the step is 0 when nothing blocks it; true is also answered for unbounded, infeasible and redundant programs. Missing: that the test of convergence is ever met (it need not be: the code also ends silently when the steps vanish or the iterations run out)."
  },
  {
   "property": "C107",
   "status": "partial",
   "theorems": [
    "C107_monotone_partial",
    "C107_run_partial",
    "C107_run_small",
    "C107_single",
    "C107_collapse_refuted",
    "C107_criteria_refuted"
   ],
   "note": "Proved over the reals for all small tolerances, any dimension and number of components: from a proper mixture every number of iterations gives a proper mixture, at least as likely, and the reported log-likelihood is its log-likelihood within the tolerance on convergence and a lower bound of it otherwise; whole runs answer a proper mixture when K-means leaves no cluster empty, which is shown for one and two components and distinct samples; one component is the mean and the covariance of the sample. Refuted: a singular covariance counts as the density 1 everywhere, so that two components started on flat clusters (any triangle) end as two copies of the normal density of the whole sample; AIC and BIC count n K parameters instead of K-1 + K n + K n(n+1)/2. Missing: empty clusters (0/0) and rounding."
  },
  {
   "property": "C108",
   "status": "partial",
   "theorems": [
    "C108_solve_partial",
    "C108_direct_partial",
    "C108_few",
    "C108_order_refuted",
    "C108_bound_refuted",
    "C108_again_refuted",
    "C108_flat_refuted"
   ],
   "note": "Proved over the reals for all tolerances from 0 to a positive one that depends on the problem, any median function: zLPMegiddoDyerSolve without vertical constraints (a2 = 0) ends and every answer is right; zLPMegiddoDyerSolveDirect with vertical constraints too, except that \"infinite solution\" is right only if the constraint added last is not vertical; with at most four constraints that are not vertical the two are the same. Refuted: a vertical constraint added last is not taken into account by the test of boundedness (the same problem is solved in the other order); zLPMegiddoDyerSolve with five or more other constraints overwrites or ignores vertical ones (an answer that violates one, and a solvable problem reported as unsolvable); a constraint added after solving meets the bounds left by the first call; a minimum attained along a whole line is reported as infinite solution. Missing: rounding."
  },
  {
   "property": "C109",
   "status": "partial",
   "theorems": [
    "C109_spec",
    "C109_safe",
    "C109_domain",
    "C109_parity",
    "C109_recurrence",
    "C109_accuracy_partial",
    "C109_order_partial",
    "C109_J_refuted",
    "C109_I_refuted",
    "C109_nan_refuted"
   ],
   "note": "Proved over the reals, with the coefficient tables of the source: no table is read out of bounds and all values exist, for all n and x; domain, parity and recurrences; for every |x| < 12.5 J_0, J_1 are within 1e-17 and I_0, I_1 within the relative error 1e-16 of their power series, I_n (n >= 2) within 3e-16 for |x| <= 7 and 3e-7 for |x| < 12.5, J_n within 3^n 1e-17 for n < |x| < 12.5. Refuted: zBesselJ(2,2.0) is wrong by more than 1e-7; zBesselI(0,100) and zBesselI(3,100) are not both right to 0.0005; NaN arguments read outside the tables. Missing: accuracy for |x| >= 12.5, of Y and K, of J_n for |x| <= n (only the refutation), and rounding."
  },
  {
   "property": "C110",
   "status": "partial",
   "theorems": [
    "C110_hessenberg_partial",
    "C110_sizes",
    "C110_endless_refuted"
   ],
   "note": "Over the reals, for every square matrix there is a tolerance below which the reduction ends after one pass per column with the stated result; C110_sizes for any number type. Refuted in binary64 with zTOL = 1e-12: a 3x3 matrix with the element 1e-9 below an otherwise empty column is never done. Missing: rounding errors, and one tolerance for all matrices (impossible by the refutation)."
  },
  {
   "property": "C111",
   "status": "partial",
   "theorems": [
    "C111_dqr_memory_refuted",
    "C111_bisection_memory_refuted",
    "C111_nan_refuted",
    "C111_one",
    "C111_two_partial"
   ],
   "note": "Proved: 1x1 matrices; 2x2 matrices unless trace and determinant are both 0. Refuted for any number type: from three rows on the double QR step reads and writes the row after the last; the bisection method reads the element after the last for every matrix; [[1,-1],[1,-1]] gives NaN. Missing: convergence of the double QR method."
  },
  {
   "property": "C112",
   "status": "partial",
   "theorems": [
    "C112_power",
    "C112_power_range",
    "C112_power_eigenvalue",
    "C112_power_dominant",
    "C112_power_limit",
    "C112_singular_max",
    "C112_singular_min_partial",
    "C112_condnum_partial",
    "C112_power_dominant_refuted",
    "C112_singular_refuted"
   ],
   "note": "Over the reals: every answer is a Rayleigh quotient of a unit vector, so within the range of the quadratic form; an early stop is within sqrt(n) zTOL of an eigenvalue; explicit error bound and convergence to a dominant eigenvalue for every start with a component along its eigenvector; the greatest singular value and the condition number are never overestimated, the least singular value never underestimated (full rank, small tolerance). Refuted: diag(1,-1) does not converge from any start; for singular matrices the least singular value and the condition number of diag(1,0) come out as 1. Missing: convergence of the inverse iteration, rounding."
  },
  {
   "property": "C113",
   "status": "partial",
   "theorems": [
    "C113_residual_partial",
    "C113_dominant",
    "C113_dominant_ends",
    "C113_rejects",
    "C113_safe",
    "C113_row_dominant_refuted",
    "C113_division_refuted"
   ],
   "note": "Over the reals: column dominance gives convergence at the rate of the dominance and the end without a warning; every end without a warning bounds the residual. Any scalar: no access out of bounds. Refuted: a strictly row dominant matrix can diverge, because the rows are exchanged first; a nonsingular matrix can be divided by zero. Missing: rounding."
  },
  {
   "property": "C114",
   "status": "partial",
   "theorems": [
    "C114_residual_partial",
    "C114_rate",
    "C114_converges",
    "C114_singular",
    "C114_rejects",
    "C114_total",
    "C114_tolerance_refuted"
   ],
   "note": "Over the reals: residual bounded by r^(2^k) with r < 1 for every nonsingular matrix, end without a warning when enough iterations are allowed, singular matrices never inverted when n t < 1, answer within the square root of the tolerance. Refuted: within the tolerance itself, since the matrix before the tested one is returned. Missing: rounding."
  },
  {
   "property": "C115",
   "status": "partial",
   "theorems": [
    "C115_luri_partial",
    "C115_rejects",
    "C115_size_refuted",
    "C115_worse_refuted",
    "C115_both_partial",
    "C115_both_exact",
    "C115_both_rejects",
    "C115_both_safe"
   ],
   "note": "Over the reals: both functions return solutions; without a tolerance they refuse exactly the singular matrices, with one a matrix that is singular up to a negligible change (combined function). Any scalar: sizes. Refuted: the size of the answer of zLESolveLURI is not checked; in double precision the residual of the answer can be larger than that of the plain LU solution. Missing: rounding in general."
  },
  {
   "property": "C116",
   "status": "partial",
   "theorems": [
    "C116_pca_partial",
    "C116_rejects",
    "C116_count_refuted",
    "C116_order_refuted",
    "C116_constant_refuted",
    "C116_one_refuted",
    "C116_empty_refuted"
   ],
   "note": "Over the reals, dimension 2 or more, points not all equal in the first two coordinates: orthogonal loading, scores are variances, sum of scores, error of the truncation, uncorrelated up to the tolerance without the warning, meaning of the answer. Refuted: the answer is the index at which the ratio is passed, one less than the number of components; the scores are not sorted; points that differ only from the third coordinate on give NaN; one-dimensional points and an empty list are read out of bounds. Missing: rounding."
  },
  {
   "property": "C117",
   "status": "partial",
   "theorems": [
    "C117_moments_partial",
    "C117_rejects",
    "C117_safe",
    "C117_indefinite_refuted",
    "C117_zero_refuted"
   ],
   "note": "Over the reals: affine map of the numbers, mean exact, covariance within twice the tolerance (exact without one) for every rank from one on. Any scalar: sizes refused, no access out of bounds, count. Refuted: a matrix which is not positive semidefinite is not refused and all vectors are the mean; the zero covariance generates nothing. Missing: the distribution of zRandND0, rounding."
  },
  {
   "property": "C118",
   "status": "partial",
   "theorems": [
    "C118_elementwise",
    "C118_rejects",
    "C118_scaling_partial",
    "C118_rows_columns",
    "C118_rows_columns_rejects",
    "C118_product_partial",
    "C118_from_real_partial",
    "C118_vector_conversions",
    "C118_tests",
    "C118_norm",
    "C118_normalise_partial",
    "C118_negative_index_refuted",
    "C118_convert_size_refuted",
    "C118_convert_capacity_refuted",
    "C118_product_alias_refuted",
    "C118_scaling_in_place_refuted",
    "C118_quotient_refuted",
    "C118_normalise_size_refuted"
   ],
   "note": "Over the reals: elementwise results with frame, in place too except for complex factors; rows and columns; product into a separate vector; conversions without spare capacity; tests; norm. Refuted: negative indices are not refused; the conversion of a real matrix neither compares sizes nor respects the capacity of its rows; products and complex multiples in place are wrong; a divisor whose modulus lies between the tolerance and its square root yields the product with the conjugate; normalisation into a longer vector is out of bounds. Missing: rounding."
  },
  {
   "property": "C119",
   "status": "partial",
   "theorems": [
    "C119_count_partial",
    "C119_count_decreases",
    "C119_range",
    "C119_bisection_partial",
    "C119_zero_pivot_refuted",
    "C119_lost_refuted",
    "C119_endless_refuted"
   ],
   "note": "Over the reals, with the number of eigenvalues above a shift defined by the Courant-Fischer principle: the count is right at every shift where no leading minor vanishes; the range contains all eigenvalues whatever number is read behind the last row (that read is C111); if no leading minor vanishes at the points visited, every eigenvalue is returned in its place within the width of the range over 2^steps, and the recursion ends when eigenvalues are separated. Refuted: a vanishing first pivot is counted twice; an eigenvalue at the end of the range is lost (the eigenvalue of a 1x1 matrix is never written); for a multiple eigenvalue inside of the range the recursion never ends. Missing: rounding, and the inverse iteration for the eigenvectors."
  },
  {
   "property": "C120",
   "status": "partial",
   "theorems": [
    "C120_phase",
    "C120_cycloid",
    "C120_sigmoid",
    "C120_cube_root",
    "C120_cube_root_exact",
    "C120_fraction",
    "C120_ceil",
    "C120_round_partial",
    "C120_sign",
    "C120_equal",
    "C120_equal_refuted",
    "C120_round_refuted",
    "C120_round_range_refuted",
    "C120_fraction_refuted"
   ],
   "note": "Over the reals everything holds, rounding for numbers that fit in int. Refuted: numbers out of the range of int are cast to int, which is undefined; in floating point the largest number below one half is rounded to one and the rest of a tiny negative number equals the divisor; equality up to a tolerance is not transitive. Missing: rounding errors of the other functions."
  },
  {
   "property": "C121",
   "status": "partial",
   "theorems": [
    "C121_distance",
    "C121_nearest_partial",
    "C121_farthest_refuted",
    "C121_precision_refuted"
   ],
   "note": "Over the reals: the search ends with a parameter of the range and its curve point; the parameter is the middle of two, the first of which is as near as every point of the uniform grid of 31 points; if the distance is unimodal in the parameter, the answer is within a fifteenth of the range of the nearest parameter. Refuted: with two near branches the middle between them is returned, which can be the farthest point of the curve; also for a unimodal distance the search can stop on the grid, away from the nearest point by much more than the tolerance. Missing: rounding."
  },
  {
   "property": "C122",
   "status": "partial",
   "theorems": [
    "C122_cats",
    "C122_linear_sum",
    "C122_linear_sum_partial",
    "C122_ring_error",
    "C122_ring_cat",
    "C122_ring_linear_sum",
    "C122_ring_fill",
    "C122_array_fill",
    "C122_reorder_partial",
    "C122_alias_refuted",
    "C122_skip_refuted",
    "C122_ring_error_refuted",
    "C122_ring_fill_refuted",
    "C122_reorder_refuted",
    "C122_reorder_alias_refuted"
   ],
   "note": "For destinations distinct from the terms: the sums are the linear combinations for every number of terms and every head position (more coefficients than vectors go round the ring); fills make all vectors equal; reordering in place applies the index. Refuted: the destination among the terms of zVecLinearSum is cleared first; a term of another size is left out while the call succeeds; zVecRingLinearSum clears the destination before it reports a mismatch; filling a ring with one of its own vectors is memcpy onto itself; zVecReorderDRC succeeds with an index of the wrong size; zVecReorder with equal source and destination is wrong."
  },
  {
   "property": "C123",
   "status": "partial",
   "theorems": [
    "C123_real",
    "C123_imaginary",
    "C123_complex",
    "C123_unit",
    "C123_roundtrip_partial",
    "C123_null_refuted",
    "C123_overflow_refuted"
   ],
   "note": "For all numbers whose numerals are read back by printf, zSNumToken and atof (stated as a hypothesis about these external functions): every form is read as the number it denotes, and the round trip holds for all complex numbers except those with zero real part and positive imaginary part. Refuted for all of those: a null character is printed in front, so that the string read back is empty and gives zero. Refuted: a string of BUFSIZ or more characters overflows the buffer."
  },
  {
   "property": "C124",
   "status": "partial",
   "theorems": [
    "C124_nearest_partial",
    "C124_own_partial",
    "C124_drift_refuted"
   ],
   "note": "Over the reals, for an inversion that inverts and a power method that gives a dominant eigenvector (hypotheses on zMatInv and zMatEigPower): whenever the loop ends every column is an eigenvector of the matrix, for the eigenvalue nearest to a number at least ten tolerances above the given one; if the inverse exists at the first attempt and eigenvalues are more than twenty tolerances apart, column i belongs to the i-th eigenvalue. Refuted: with eigenvalues 0, 10 and 110 tolerances the shift runs past them and is never set back, so that all columns are the same vector."
  },
  {
   "property": "C125",
   "status": "partial",
   "theorems": [
    "C125_bic_partial",
    "C125_variance",
    "C125_nan_refuted"
   ],
   "note": "Over the reals, for positive variances: the answer is true exactly if minus twice the log-likelihood of the normal density of the error of the whole is less than that of the even mixture of the two parts plus k log n, where k is the size of a core; the variance is the computed one. The densities are those of one dimension, and the even mixture is not the one with the sizes of the parts: the criterion proper for other dimensions is not what is computed. Refuted: for coincident points the densities are 0/0, the criterion is not a number and the cluster is divided whatever its criterion is."
  },
  {
   "property": "C126",
   "status": "proved",
   "theorems": [
    "C126_data_sum",
    "C126_inner_prod",
    "C126_weighted_norm",
    "C126_correctly_rounded",
    "C126_relative"
   ],
   "note": "The functions are run in the scalars RndS rnd: every operation is the exact one followed by rnd, an arbitrary function. The specification (plain, corrections, cerr) names the three roundings of a round's correction. Exceptional values (infinity, NaN) are outside this arithmetic."
  },
  {
   "property": "C127",
   "status": "partial",
   "theorems": [
    "C127_vec_scan",
    "C127_vec_refused",
    "C127_vec_round_trip",
    "C127_mat_scan",
    "C127_mat_complete",
    "C127_mat_round_trip",
    "C127_count_refuted"
   ],
   "note": "A file is the list of its numbers (ZEDA's zFInt and zFDouble are taken to skip the punctuation and to fail at the end only). Proved: the elements, sizes, rest of the file, and the warnings for every stream. Refuted for matrices: the warning counts i*row+j instead of i*col+j elements, and is repeated for every row left. Objects whose capacity differs from the size, which is then printed too, are not covered."
  },
  {
   "property": "C128",
   "status": "partial",
   "theorems": [
    "C128_extrema",
    "C128_image",
    "C128_sign_refuted"
   ],
   "note": "Over the reals. The extrema with their positions are proved. The picture: proved which character every element gets, and that neither the patterns nor the range of int are exceeded. Refuted: elements between the tolerance and an eighth of the greatest magnitude have the comma whatever their sign; the dot of the negative pattern is never printed."
  },
  {
   "property": "C129",
   "status": "partial",
   "theorems": [
    "C129_scan",
    "C129_refused",
    "C129_round_trip",
    "C129_defined",
    "C129_empty_refuted"
   ],
   "note": "On lists of numbers as in C127. Proved: coefficients, degree, rest of the file, warnings; every file with at least one number is read without undefined behaviour. Refuted: at the end of the file the error is reported and the function goes on with the uninitialized degree."
  }
 ]
}