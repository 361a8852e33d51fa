import re
# (theorem name, lemma name, file, comment)
items = [
("C01_evaluation","feval_correct","C01: calling a function at points returns the Chebyshev series of every column."),
("C01_evaluation_shape","feval_shape","C01: the result has one column per column of f and one row per point."),
("C02_values_at_points","values_correct","C02: values() are the values at the second-kind points."),
("C02_points","chebpts_chebnode","C02: the points are -cos(pi j/(N-1)), ascending."),
("C03_coeffs_values_coeffs","polyfit_polyval","C03"),
("C03_values_coeffs_values","polyval_polyfit","C03"),
("C04_prolong_length","prolong1_length","C04"),
("C04_prolong_keeps_function","prolong1_eval","C04"),
("C04_prolong_truncates","prolong1_trunc","C04"),
("C05_diff","diff_correct","C05: diff is the n-th derivative of the function whose coefficients below eps^(2/5) at the end have been dropped (evK with K terms)."),
("C05_diff_exact","diff_exact","C05: and of f itself when its last coefficient exceeds eps^(2/5)."),
("C05_trunc_error","evK_err","C05: size of the difference between f and its truncation."),
("C06_diff_order_zero_refuted","diff0_refuted","C06"),
("C07_sum","sum_correct","C07"),
("C08_cumsum","cumsum_correct","C08: K is the number of retained coefficients; with K > len f nothing was dropped."),
("C09_inner","inner_correct","C09"),
("C09_dot","dot_correct","C09"),
("C09_innerw","innerw_correct","C09: the weighted product, after substituting x = cos t."),
("C10_quadrature","quadwts_exact","C10"),
("C10_quadrature_length","quadwts_some","C10"),
("C10_quadrature_symmetric","quadwts_sym","C10"),
("C11_add","add_correct","C11: bc g j is column j of g, or its only column."),
("C11_add_error","add_error","C11: the effect of the snap to zero."),
("C11_subtract","subtract_correct","C11"),
("C11_negative","negative_correct","C11"),
("C11_add_number","add_number_correct","C11"),
("C11_add_row","add_row_correct","C11"),
("C11_iadd","iadd_correct","C11: f += g changes f to the sum and leaves the function g unchanged."),
("C12_multiply","multiply_correct","C12: p j are the coefficients of the exact product."),
("C12_multiply_error","multiply_error","C12"),
("C12_multiply_number","multiply_number_correct","C12"),
("C12_multiply_constant_left","multiply_const_l","C12"),
("C12_multiply_constant_right","multiply_const_r","C12"),
("C12_divide_number","divide_number_correct","C12"),
("C13_multiply_constant_columns_refuted","multiply_const_multi","C13: the product is rejected for every such pair."),
("C14_chop_total","standardChop_total","C14"),
("C14_chop_tol","standardChop_big_tol","C14"),
("C14_chop_short","standardChop_short","C14"),
("C14_chop_zero","standardChop_zero","C14"),
("C14_chop_tail","standardChop_tail","C14: what is cut off is small."),
("C15_chop_scale_refuted","chop_scale_refuted","C15"),
("C15_chop_sign_partial","chop_sign","C15: the only scale factor for which it is unconditional."),
("C16_simplify_prefix","simplify_coeffs_spec","C16"),
("C17_simplify_longer_refuted","simplify_longer","C17"),
("C22_flipud","flipud_correct","C22"),
("C22_lval","lval_correct","C22"),
("C22_rval","rval_correct","C22"),
("C22_fliplr","fliplr_correct","C22"),
("C45_nested_grid","nested_values_correct","C45"),
("C45_points_nested","chebpts_nested","C45"),
("C48_restrict","restrict_correct","C48"),
("C48_restrict_single_refuted","restrict_single_fails","C48"),
("C49_construct","construct_spec","C49"),
("C49_construct_error","construct_error","C49"),
("C49_construct_short_refuted","construct_short_fails","C49"),
("C50_hstack","hstack_correct","C50"),
("C50_getitem","getitem_correct","C50"),
("C51_deepcopy_partial","deepcopy_correct","C51"),
("C51_deepcopy_hscale_refuted","deepcopy_hscale_refuted","C51"),
("C52_add_out_refuted","add_out_refuted","C52"),
]
