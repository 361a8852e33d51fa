# What `Print Assumptions` lists

Generated by `tools/assumptions.py`; every axiom below belongs to Coq's standard library.
This table was last generated before the newest theorems were added. Not listed individually below (485 theorems): every one of them is followed by `Print Assumptions` in its file or is checked by coqchk; the axioms of the whole development, as the last check reported them, are the following, all from Coq's standard library:

`Coq.Logic.ClassicalEpsilon.constructive_indefinite_description`, `Coq.Logic.Classical_Prop.classic`, `Coq.Logic.FunctionalExtensionality.functional_extensionality_dep`, `Coq.Reals.ClassicalDedekindReals.sig_forall_dec`, `Coq.Reals.ClassicalDedekindReals.sig_not_dec`, `Coq.Reals.Rdefinitions.RbaseSymbolsImpl.R`, `Coq.Reals.Rdefinitions.RbaseSymbolsImpl.R0`, `Coq.Reals.Rdefinitions.RbaseSymbolsImpl.R0_def`, `Coq.Reals.Rdefinitions.RbaseSymbolsImpl.R1`, `Coq.Reals.Rdefinitions.RbaseSymbolsImpl.R1_def`, `Coq.Reals.Rdefinitions.RbaseSymbolsImpl.Rabst`, `Coq.Reals.Rdefinitions.RbaseSymbolsImpl.Rlt`, `Coq.Reals.Rdefinitions.RbaseSymbolsImpl.Rlt_def`, `Coq.Reals.Rdefinitions.RbaseSymbolsImpl.Rmult`, `Coq.Reals.Rdefinitions.RbaseSymbolsImpl.Rmult_def`, `Coq.Reals.Rdefinitions.RbaseSymbolsImpl.Ropp`, `Coq.Reals.Rdefinitions.RbaseSymbolsImpl.Ropp_def`, `Coq.Reals.Rdefinitions.RbaseSymbolsImpl.Rplus`, `Coq.Reals.Rdefinitions.RbaseSymbolsImpl.Rplus_def`, `Coq.Reals.Rdefinitions.RbaseSymbolsImpl.Rquot1`, `Coq.Reals.Rdefinitions.RbaseSymbolsImpl.Rquot2`, `Coq.Reals.Rdefinitions.RbaseSymbolsImpl.Rrepr`, `Coq.Reals.Rdefinitions.RinvImpl.Rinv`, `Coq.Reals.Rdefinitions.RinvImpl.Rinv_def`, `Coq.ssr.ssrunder.Under_rel.Over_rel`, `Coq.ssr.ssrunder.Under_rel.Under_rel`, `Coq.ssr.ssrunder.Under_rel.Under_relE`, `Coq.ssr.ssrunder.Under_rel.Under_rel_from_rel`, `Coq.ssr.ssrunder.Under_rel.over_rel`, `Coq.ssr.ssrunder.Under_rel.over_rel_done`, `Coq.ssr.ssrunder.Under_rel.under_rel_done`

Theorems concerned: C06_always_first_refuted, C13_both_constant_partial, C17_one_more_partial, C19_diff_exact, C34_division_partial, C34_power_partial, C35_handler_refuted, C35_handler_partial, C40_bemw_solve_null_adj, C40_bemw_solve_zero_adj, C52_adds_to_out_refuted, C55_lines_partial, C65_resample_general, C66_conjugate_refuted, C80_brd_null_simp_partial, C84_deepcopy_content, C89_success_partial, C91_nleq_partial, C92_some_full_step_partial, C96_newton_rhs, C103_block_exact, C103_block_leading, C103_leading_sharp, C104_system_exact, C104_system_leading, C104_square, C105_adjoint_partial, C105_self_adjoint_refuted, C106_add_partial, C106_neg_partial, C106_sub_partial, C106_system_add_partial, C106_system_sub_partial, C106_add_integral_refuted, C106_neg_integral_refuted, C106_mul_refuted, C107_row_partial, C107_newton_partial, C107_values_refuted, C108_eigenpair, C109_sizes, C109_upper, C109_returns, C109_run, C109_success, C109_failure, C109_stops, C109_all_fail, C110_nested_partial, C110_nested_refuted, C111_agree_partial, C111_agree_refuted, C112_block_fourier, C112_block_error, C112_constant_exact, C112_derivative_real, C112_integrand_refuted, C112_two_integrals_refuted, C112_even_refuted, C113_system, C113_galerkin, C113_constant_solves, C114_aggregation, C114_aggregation_total, C114_derivative_refuted, C115_adjoint_blocks, C115_adjoint_refuted, C116_tangent, C116_tangent_unique, C117_correction_partial, C117_hyperplane_refuted, C118_bif, C118_system_refuted, C119_solve_refuted, C119_solve_adj_refuted, C120_lu_partial, C120_qr_refuted, C121_corrector_matvec, C121_corrector_adjoint, C121_precond_refuted, C122_roots_complete, C122_roots_defined, C122_sign_changes, C123_roots_sound_partial, C123_roots_outside_refuted, C124_residual_partial, C124_tolerance_refuted, C125_defined_partial, C125_zero_column_refuted, C126_minandmax_partial, C126_values_consistent, C126_quadratic_refuted, C127_orthonormal, C128_factorisation_partial, C128_large_refuted, C129_defined_partial, C129_one_column_refuted, C129_unhappy_refuted, C129_zero_refuted, C130_strided_refuted, C131_even_norm_partial, C131_aliasing_refuted, C132_one_norm_partial, C132_aliasing_refuted, C132_long_refuted, C133_max_norm_partial, C133_quadratic_refuted, C134_weighted_norm, C135_sobolev_partial, C135_h1_h2, C135_aliasing_refuted, C136_sturm_partial, C136_zero_slope_refuted, C137_normalize_partial, C137_aliasing_refuted, C138_ufunc_partial, C138_ufunc2_partial, C138_aliasing_refuted, C139_quotient_partial, C139_reciprocal_partial, C139_columns_refuted, C140_inplace_partial, C140_out_refuted, C140_out_function, C141_compose_partial, C141_domain_refuted, C141_rescaling_refuted, C142_backward_partial, C142_inverse_refuted, C143_constants, C144_conversion, C144_from_ultra, C144_roundtrip, C145_argument_partial, C145_overwritten_refuted, C145_from_ultra_refuted, C146_matrix_agrees, C147_orders_partial, C147_third_refuted, C147_rest_refuted, C148_diffmat_partial, C148_highest_mode_refuted, C149_call_partial, C149_diff_partial, C149_getitem, C149_one_point_refuted, C150_linearize_partial, C150_coefficients_closed, C150_compile_partial, C150_single, C150_system_refuted, C151_second_derivative, C152_parameter_derivative_partial, C152_both_refuted, C153_dxdp_partial, C153_compiled_partial, C153_constraints_refuted, C154_residual, C154_linearisation_partial, C154_linearisation_refuted, C155_adjoint_algebraic_partial, C155_adjoint_refuted, C156_nonlocal_partial, C156_sum_coefficient_refuted, C156_derivative_refuted, C156_coefficient_refuted, C157_correction, C157_exact, C157_polynomial, C158_copy_partial, C158_equal_iff_partial, C158_refuted, C159_history, C159_current_partial, C159_edit_refuted, C159_fold_refuted, C160_residual_partial, C160_sizes_partial, C160_residual_refuted, C160_history_refuted, C160_nmin_refuted, C161_roundtrip_partial, C161_equation_refuted, C161_names_refuted, C161_raises_refuted, C162_defined_partial, C162_correction_partial, C162_integral_equations_partial, C162_order_refuted, C162_number_refuted, C162_integrals_refuted, C163_residual_partial, C163_coefficient_partial, C163_integral_coefficient, C163_domain_refuted, C163_nested_refuted, C163_number_refuted, C163_bounds_refuted, C163_definite_refuted, C163_raises_refuted, C164_discretize, C164_call_partial, C164_stale_refuted, C164_edit_refuted, C164_history, C165_matrix_partial, C165_solution_partial, C165_length_refuted, C165_in_place_refuted, C165_adjoint, C166_tiles_partial, C166_mirror_partial, C166_integral_partial, C166_first_refuted, C166_domain_refuted, C167_handles, C167_digits, C167_names_partial, C167_safe_partial, C167_clash_refuted, C168_backward, C168_evaluation, C168_domain, C169_integral, C169_domain, C170_evaluable_iff, C170_left_end, C170_exact_partial, C170_from_zero_partial, C170_integer_ends_partial, C170_tenth_refuted, C170_sample_ends, C170_own_points_refuted, C171_constant, C171_prolong, C171_negative, C171_reflection, C171_even, C172_history_partial, C172_fun_level_partial, C172_inplace_refuted, C172_write_refuted, C172_constant_refuted, C173_large_partial, C173_decimal_partial, C173_error_partial, C173_seventh_refuted, C173_tiny_refuted, C174_positive, C174_no_kinks, C174_refuted, C174_example, C175_left, C175_turns, C175_one_sign_partial, C175_refuted, C176_mean, C176_monotone, C176_ends, C177_reference, C177_domain, C177_shape, C177_line, C178_reference, C178_left_end, C178_domain, C179_accuracy, C179_self, C179_exact, C179_commutes_partial, C179_commutes_refuted, C180_near_partial, C180_construct_partial, C180_real_partial, C180_low_degree_partial, C180_low_degree_example, C180_highest_mode_refuted, C180_negative_frequency_refuted, C180_real_at_one_point_refuted, C181_roll_partial, C181_length_two_partial, C181_case, C181_roll_refuted, C182_convolve_partial, C182_symmetric_partial, C182_case, C182_domains, C182_convolve_refuted, C183_adhesion, C183_case, C184_sum, C184_inner, C184_diff, C184_derivative_mean, C184_case, C185_eigenvalues, C185_failure, C185_real, C186_short_partial, C186_truncated_refuted, C186_argument_refuted, C186_T9_refuted, C187_functions_partial, C187_number_refuted, C187_operand_refuted, C188_call, C188_add_partial, C188_add_refuted, C188_multiply_partial, C188_multiply_constant, C188_constants_refuted, C188_constants_operand_refuted, C188_operand_refuted, C189_rhs_refuted, C190_mixed_partial, C190_mixed_reversed_partial, C190_sum_partial, C190_jump_refuted, C190_complex_refuted, C191_mass, C191_plot_partial, C191_mean_partial, C191_sturm0_partial, C191_mean_refuted, C191_wkp_refuted, C191_range, C191_variation_partial, C191_variation_range_partial, C191_variation_refuted, C192_real_partial, C192_complex_partial, C192_complex_refuted, C192_real_part_refuted, C192_one_partial, C193_add_partial, C193_subtract_partial, C193_number_partial, C193_multiply_partial, C193_divide_partial, C193_case, C193_constant_refuted, C193_complex_refuted, C193_failure_refuted, C193_square_refuted, C194_history_partial, C194_monotone_partial, C194_nleq_refuted, C194_list_refuted, C194_guess, C194_alias_refuted, C194_miter_refuted, C194_case, C195_others_partial, C195_raises, C195_making, C195_add, C195_row, C195_scale, C195_product, C195_unary_plus_refuted, C195_column_refuted, C195_real_refuted, C195_times_row_refuted, C195_widens_refuted, C195_case, C196_evaluation, C196_flagged, C196_domain, C196_ends, C196_case, C197_constant, C197_reflection, C197_even, C197_negative, C197_prolong, C197_case, C198_coefficients, C198_values, C198_domain, C198_commutes, C198_case, C199_coefficients, C199_interpolates, C199_values, C199_values_roundtrip, C199_coefficients_roundtrip, C199_constant, C199_case, C200_coefficients, C200_interpolates, C200_values, C200_values_roundtrip, C200_coefficients_roundtrip, C200_symmetric, C200_real, C200_constant, C200_case, C201_points, C201_single_point, C201_nested, C201_symmetric, C201_coefficients, C201_function, C201_sample_and_evaluate, C201_case, C202_mapping, C202_inside_partial, C202_coefficients, C202_function, C202_integral, C202_derivative, C202_outside_refuted, C202_case, C203_points, C203_nested, C203_coefficients, C203_function, C203_evaluate, C203_integral, C203_derivative, C203_case, C204_sound, C204_sound_periodic, C204_complete, C204_complete_periodic, C204_equivalence, C204_deepcopy, C204_double_negation, C204_add_commutes, C204_length_refuted, C204_mixed_refuted, C204_call_refuted, C204_not_equal_refuted, C204_add_tolerance_refuted, C205_integral, C205_mismatch, C205_symmetric, C205_positive, C205_cauchy_schwarz, C205_weighted_refuted, C205_columns_refuted, C206_expression, C206_program, C206_no_errors, C206_names_refuted, C206_comparison_refuted, C206_less_refuted, C206_dot_refuted, C206_alias_refuted, C207_interpolates, C207_polynomials, C207_exact, C207_readable, C207_read_back, C207_equal, C207_equal_refuted, C207_tolerance_refuted, C207_case, C208_interpolates, C208_polynomials, C208_read_back, C208_equal, C208_long_refuted, C208_called_refuted, C208_nearly_real_refuted, C208_case, C209_random, C209_reaches, C209_random_decay, C209_decay_refuted, C209_decay_grows_refuted, C209_case, C210_coefficients, C210_place_refuted, C211_interpolates, C211_values, C211_raises_refuted, C211_count_refuted, C212_product_called, C212_built_called, C212_built_product, C212_built_running, C212_product_integral, C212_product_derivative, C212_case


## Closed under the global context (no axiom)

* PropLin.v: C38_minimumSwaps, C26_next_power_of_two, C26_small, C26_fixed_points, C27_delete_col_out_of_range, C27_delete_rows_out_of_range, C28_delete_row_malformed_refuted, C57_find_nearest_empty
* PropNewton.v: C93_newton_solve, C93_seeker_refuted
* PropVs.v: C46_sync_any_number_partial, C46_items_dict, C83_loop, C83_nested_partial, C83_nested_refuted

## `ClassicalDedekindReals.sig_forall_dec`

* PropBord.v: C71_bem_history
* PropCheb.v: C04_prolong_length, C04_prolong_truncates
* PropLin.v: C27_delete_col, C27_delete_cols, C27_vappend, C28_delete_empty_row_partial, C56_remove_bc, C56_get_bc, C56_replace_bc
* PropVs.v: C46_cont_namespace_partial, C46_history_nodup, C46_history_synced_partial, C46_twopar_refuted, C47_binary, C47_unary, C47_mismatch, C47_real_partial, C47_real_refuted, C47_innerw_refuted, C47_size_partial, C47_size_refuted, C82_inplace, C84_deepcopy, C84_const_like, C85_from_state_partial, C85_from_state_two_partial, C85_name_clash_refuted

## `ClassicalDedekindReals.sig_forall_dec`, `FunctionalExtensionality.functional_extensionality_dep`

* PropBord.v: C40_bem_solve, C40_bem_solve_adj, C40_bem_solve_zero, C40_bem_solve_null_partial, C40_bem_solve_null_adj_partial, C40_bem_solve_null_refuted, C40_bem_min_norm, C40_bemw_solve, C40_bemw_solve_adj, C40_bemw_solve_null, C40_bemw_solve_zero, C40_bemw_min_norm, C41_nullspace_refuted, C41_nullspace_singular_refuted, C71_bemw_history
* PropBrd.v: C78_argument_kept_refuted, C79_solve, C79_solve_null, C79_bmatrix, C79_bmatrix_null_partial, C80_brd_null_simp_refuted
* PropCheb.v: C01_evaluation, C01_evaluation_shape, C04_prolong_keeps_function, C11_iadd, C22_lval, C22_rval, C52_add_out_refuted
* PropChol.v: C75_solve_square, C75_solves, C75_min_norm_partial, C75_min_norm_refuted, C76_pseudo_rank_partial, C76_pseudo_rank_refuted
* PropDefl.v: C97_residual_precond_partial, C97_frechet_precond_refuted
* PropFun.v: C18_call_outside, C20_rejects_partial, C20_both_orders_partial
* PropGiant.v: C94_broyden_inverse
* PropLin.v: C27_delete_rows, C28_delete_row_refuted, C37_detH_refuted, C37_detH_partial, C39_lucp, C57_round_up, C57_secant, C57_moving_average, C57_find_nearest, C58_eliminate_zeros, C58_flip_rows
* PropNewton.v: C88_broyden_secant
* PropQR.v: C72_solve, C72_solve_adj, C72_null_right, C72_null_left, C72_particular, C72_particular_adj, C74_bem_det
* PropTrig.v: C31_prolong_shorter, C68_prolong_function_same_refuted, C68_prolong_coeffs_refuted, C65_resample, C65_refine
* PropUltra.v: C24_convertmat, C24_convertmat_inv_left, C24_convertmat_inv_right, C25_multmat_partial, C25_multmat_large_refuted, C25_multmat_long_refuted, C69_multmat_high
* PropVs.v: C47_dot, C47_dot_symmetric, C47_dot_additive_partial, C47_dot_weights_refuted, C84_arithmetic_refuted

## `ClassicalDedekindReals.sig_forall_dec`, `ClassicalDedekindReals.sig_not_dec`, `FunctionalExtensionality.functional_extensionality_dep`

* PropBrd.v: C78_right_null_partial, C78_right_null_refuted
* PropCheb.v: C02_values_at_points, C02_points, C03_coeffs_values_coeffs, C03_values_coeffs_values, C10_quadrature_length, C10_quadrature_symmetric, C45_nested_grid, C45_points_nested
* PropChol.v: C75_tangent
* PropFnl.v: C44_row_is_quadrature, C98_weighted_row_refuted, C99_argument_kept_partial, C99_argument_kept_refuted, C100_convert_functional, C100_evaluation_row, C101_to_function_row, C101_row_to_function, C102_weights_positive
* PropFun.v: C19_inner_mismatch
* PropGiant.v: C94_gbit_ends, C94_gbit_broyden, C94_exact_guess, C94_exact_guess_refuted, C94_limit_refuted, C95_giant_partial, C95_success_refuted, C95_failure_refuted
* PropLin.v: C36_givens
* PropNewton.v: C42_nleq_err_stops, C42_iteration_limit_refuted, C88_qnerr_stops, C88_qnerr_broyden, C89_first_test_refuted, C89_contraction_refuted, C89_failure_refuted, C90_newton_standard_partial, C90_linear_failure_refuted, C91_standard_refuted, C91_nleq_refuted, C92_full_step_refuted
* PropTrig.v: C29_values, C29_values_coeffs_values, C29_coeffs_values_coeffs, C29_interpolation, C29_unique, C30_horner_complex, C30_horner_real, C30_call, C30_call_error, C31_prolong, C31_prolong_object, C68_prolong_function, C68_prolong_coeffs_partial, C33_cumsum_refuted, C33_cumsum_constant_refuted, C34_number_divided_by_function_refuted, C34_number_to_the_power_refuted, C35_real_partial, C35_imag, C35_real_refuted, C35_conj_refuted, C35_conj_partial, C59_call_stable_partial, C59_call_refuted, C61_add, C61_subtract, C61_negative, C61_add_number, C61_multiply_number, C61_divide_number, C66_multiply_even_refuted, C62_simplify_error, C63_circshift_partial, C63_circshift_refuted, C65_objects
* PropVs.v: C47_norm, C47_normalize, C86_tangent

## `ClassicalDedekindReals.sig_forall_dec`, `ClassicalDedekindReals.sig_not_dec`, `Classical_Prop.classic`, `FunctionalExtensionality.functional_extensionality_dep`

* PropBrd.v: C79_bmatrix_singular, C81_logdet_partial, C81_logdet_refuted
* PropCheb.v: C05_diff, C05_diff_exact, C05_trunc_error, C06_diff_order_zero_refuted, C07_sum, C08_cumsum, C09_inner, C09_dot, C09_innerw, C10_quadrature, C10_quadrature_interval, C11_add, C11_add_error, C11_subtract, C11_negative, C11_add_number, C11_add_row, C12_multiply, C12_multiply_error, C12_multiply_number, C12_multiply_constant_left, C12_multiply_constant_right, C12_divide_number, C13_multiply_constant_columns_refuted, C14_chop_total, C14_chop_tol, C14_chop_short, C14_chop_zero, C14_chop_tail, C15_chop_scale_refuted, C15_chop_sign_partial, C16_simplify_prefix, C17_simplify_longer_refuted, C22_flipud, C22_fliplr, C48_restrict, C48_restrict_single_refuted, C49_construct, C49_construct_error, C49_construct_short_refuted, C50_hstack, C50_getitem, C51_deepcopy_partial, C51_deepcopy_hscale_refuted, C53_barycentric_evaluation, C54_differentiation_matrix, C55_type1_quadrature_refuted
* PropChol.v: C77_det, C77_detH
* PropDefl.v: C43_deflation_derivative, C43_frechet_matvec_partial, C43_newton_system_refuted, C43_deflated_residual_refuted, C96_eta_formula, C96_deflated_roots, C96_known_root_removed, C97_residual_precond_refuted
* PropFnl.v: C44_row_exact_partial, C44_row_exact_refuted, C98_weighted_row_partial, C102_quadrature_stable
* PropFun.v: C18_map_bijection, C18_call, C19_diff, C19_sum, C19_cumsum, C19_inner, C19_dot, C19_norm, C19_innerw, C11_fun_add, C11_fun_subtract, C11_fun_negative, C12_fun_multiply, C20_domain_check_refuted, C20_hstack_refuted, C21_flatten_from_coeffs, C21_from_coeffs_flatten, C21_from_coeffs_misfit, C49_fun_construct
* PropGiant.v: C94_gbit_exact
* PropLin.v: C37_slogdet_hessenberg
* PropQR.v: C72_bem_on_qr, C72_bem_on_singular_qr, C73_det, C73_det_rectangular
* PropTrig.v: C32_diff_partial, C32_diff_refuted, C67_sum, C33_cumsum_partial, C60_inner, C66_multiply_partial, C66_multiply_constant, C66_square_refuted, C62_simplify, C64_convolution_partial, C64_convolution_refuted
* PropUltra.v: C23_diffmat, C70_intmat
* PropVs.v: C47_flatten_from_coeffs_partial, C47_from_coeffs_flatten, C47_flatten_phi_refuted, C82_atomic_refuted, C87_fun_file, C87_cont_file
