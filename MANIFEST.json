{
 "claims": [
  {
   "property": "C01",
   "status": "proved",
   "theorems": [
    "wrap_in_range"
   ],
   "note": ""
  },
  {
   "property": "C02",
   "status": "proved",
   "theorems": [
    "wrap_idempotent",
    "wrap_fixes_range"
   ],
   "note": ""
  },
  {
   "property": "C03",
   "status": "proved",
   "theorems": [
    "wrap_preserves_point"
   ],
   "note": ""
  },
  {
   "property": "C04",
   "status": "proved",
   "theorems": [
    "from_to_is_wrap"
   ],
   "note": "for scalar types whose pi equals the declared limits (the unscaled branch) the limits -pi,pi are excluded; see C10"
  },
  {
   "property": "C05",
   "status": "proved",
   "theorems": [
    "to_from_normalises",
    "to_from_identity_on_manifold"
   ],
   "note": ""
  },
  {
   "property": "C06",
   "status": "proved",
   "theorems": [
    "wrap_is_canonical"
   ],
   "note": ""
  },
  {
   "property": "C07",
   "status": "partial",
   "theorems": [
    "collections_componentwise",
    "concatenated_patterns",
    "from_stat_dynamic_cxx23_refuted"
   ],
   "note": "proved for every path except the dynamic-range overload of from_stat_space compiled with __cpp_lib_containers_ranges, which calls to_stat_space and is refuted"
  },
  {
   "property": "C08",
   "status": "proved",
   "theorems": [
    "euclidean_transparent"
   ],
   "note": ""
  },
  {
   "property": "C09",
   "status": "proved",
   "theorems": [
    "wrap_angle_outcomes",
    "wrap_inclination_outcomes",
    "wrap_polar_outcomes",
    "wrap_spherical_returns"
   ],
   "note": "angle, inclination, polar: exact outcome characterisation; spherical: sufficient condition for returning"
  },
  {
   "property": "C10",
   "status": "partial",
   "theorems": [
    "angle_from_stat_range_partial",
    "angle_from_stat_closed_range_partial",
    "angle_from_stat_upper_limit_refuted",
    "from_stat_in_range"
   ],
   "note": "false as stated: the unscaled branch returns Max for direction (-1,+0); proved elsewhere"
  },
  {
   "property": "C100",
   "status": "partial",
   "theorems": [
    "compare_collections_partial",
    "compare_collections_refuted"
   ],
   "note": "proved for tuples, and for collections of run-time size of the same length; false for collections of different run-time lengths when the compiler is sure about every element (refuted); less and greater left out"
  },
  {
   "property": "C101",
   "status": "proved",
   "theorems": [
    "strip_1D_tail_correct",
    "largest_pattern_correct",
    "smallest_pattern_correct"
   ],
   "note": "dimensions below the largest size; no coordinate with the hash code of one axis (see C16); collections without a size are not modelled"
  },
  {
   "property": "C102",
   "status": "partial",
   "theorems": [
    "common_dimension_partial",
    "compare_with_dimension_partial",
    "dimension_concepts_partial",
    "dimension_refuted"
   ],
   "note": "proved whenever there is a place to look at, and for the concepts when the places are within a run-time collection; an empty array answers differently from an empty vector, and the concepts forget that beyond the end there is one axis (refuted); collections without a size are not modelled"
  },
  {
   "property": "C103",
   "status": "partial",
   "theorems": [
    "uniform_component_found_partial",
    "uniform_component_none_partial",
    "is_uniform_component_partial",
    "uniform_concept_partial",
    "uniform_refuted"
   ],
   "note": "proved for non-empty patterns without zero-dimensional descriptors whose hash codes do not clash; false for two-dimensional descriptors, type-erased plain axes in a tuple, a single type-erased angle, and next to zero-dimensional descriptors (refuted)"
  },
  {
   "property": "C104",
   "status": "partial",
   "theorems": [
    "adapter_claims_partial",
    "integer_laws",
    "transpose_of_later_index_claims_refuted",
    "conjugate_constant_refuted",
    "square_in_one_index_refuted",
    "attached_size_refuted"
   ],
   "note": "proved for every object whose transposes exchange the first two indices, whose conjugates are not of a triangle of complex constants, and whose attached patterns do not make a triangle of constants a vector; each exception is false in the code (refuted), as is squareness in a single index"
  },
  {
   "property": "C105",
   "status": "partial",
   "theorems": [
    "transpose_gives_partial",
    "conjugate_transpose_gives_partial",
    "conjugate_gives",
    "diagonal_of_gives",
    "to_diagonal_gives",
    "to_diagonal_square_gives",
    "make_constant_gives",
    "make_constant_diagonal_gives",
    "to_triangular_gives",
    "to_hermitian_gives",
    "attach_patterns_gives",
    "transpose_of_later_index_refuted"
   ],
   "note": "proved in full for all functions when the first two indices are exchanged; for other index pairs the shortcuts of transpose and conjugate_transpose for diagonal and Hermitian arguments return wrong components (refuted)"
  },
  {
   "property": "C106",
   "status": "partial",
   "theorems": [
    "copy_from_partial",
    "copy_from_elsewhere_partial",
    "copy_transpose_in_place_refuted",
    "copy_larger_source_refuted",
    "copy_smaller_source_refuted"
   ],
   "note": "the generic path (no library-specific copy); proved for sources of the same size whose components read no other component of the destination; refuted for a matrix copied onto its own transpose and for run-time sizes that differ, which are not checked"
  },
  {
   "property": "C107",
   "status": "partial",
   "theorems": [
    "matrix_from_list",
    "mean_from_list_partial",
    "diagonal_from_list_partial",
    "matrix_from_values",
    "fill_components_partial",
    "fill_components_too_few",
    "mean_in_two_statements_refuted",
    "diagonal_in_two_statements_refuted",
    "diagonal_of_run_time_size_refuted",
    "fill_components_count_refuted"
   ],
   "note": "proved in full for plain matrices; means and diagonal matrices when filled in one statement (or a first statement of one item) and, for the latter, of a size fixed at compile time; the rest is refuted; the conversion of a filled matrix to a covariance is that of C28-C31 and not repeated"
  },
  {
   "property": "C108",
   "status": "partial",
   "theorems": [
    "set_triangle_partial",
    "set_triangle_dense",
    "generic_set_triangle_refuted",
    "generic_lower_corner_refuted",
    "generic_tall_refuted",
    "hermitian_other_triangle_refuted"
   ],
   "note": "proved in full for dense Eigen matrices, and through adapters when the triangle is the stored one or the diagonal; the loops for other libraries' objects and the other triangle of a Hermitian adapter are wrong (refuted)"
  },
  {
   "property": "C109",
   "status": "partial",
   "theorems": [
    "tensor_constant_partial",
    "tensor_diagonal_partial",
    "tensor_hermitian_partial",
    "contraction_of_constants",
    "contraction_of_constants_exact",
    "square_matrix_product",
    "matrix_product_constant_refuted",
    "matrix_vector_product_refuted",
    "outer_product_refuted",
    "two_pairs_refuted",
    "zero_minus_refuted",
    "product_of_constants_refuted",
    "imaginary_multiple_refuted"
   ],
   "note": "proved for every expression outside the uses listed in sound_use (TensSpec.v); contraction_of_constants_exact says precisely when the claim about a contraction of constants is right; each excluded use is false in the code (refuted)"
  },
  {
   "property": "C11",
   "status": "proved",
   "theorems": [
    "spherical_from_stat_canonical",
    "to_from_normalises"
   ],
   "note": ""
  },
  {
   "property": "C110",
   "status": "partial",
   "theorems": [
    "component_read_back",
    "component_place",
    "component_places_are_all",
    "component_index_count",
    "component_out_of_range_refuted"
   ],
   "note": "everything but the refusal of indices out of range is proved for every rank, size and storage order; an index out of range is not noticed and may reach another component (refuted)"
  },
  {
   "property": "C111",
   "status": "partial",
   "theorems": [
    "log_accurate_partial",
    "log_special",
    "log_double",
    "log_relative_refuted"
   ],
   "note": "termination, special values and a small absolute error are proved for every positive number of every format; accuracy relative to the logarithm fails near 1 (refuted)"
  },
  {
   "property": "C112",
   "status": "partial",
   "theorems": [
    "cosh_accurate_partial",
    "sinh_accurate_partial",
    "tanh_accurate_partial",
    "atanh_accurate_partial",
    "asinh_accurate_partial",
    "acosh_accurate_partial",
    "acosh_from_two",
    "hyperbolic_special",
    "hyperbolic_double",
    "tanh_artanh",
    "sinh_arsinh",
    "cosh_arcosh",
    "tanh_large_refuted",
    "cosh_symmetry_refuted",
    "sinh_small_refuted",
    "atanh_small_refuted",
    "asinh_negative_refuted",
    "asinh_large_refuted"
   ],
   "note": "termination and accuracy are proved for atanh on all of (-1, 1), and for the others below the range where an intermediate result overflows (asinh: arguments that are not negative); outside the claim is false: tanh 400 is NaN, cosh(-709) is infinite while cosh 709 is not, asinh(-2^30) is minus infinity (refuted)"
  },
  {
   "property": "C113",
   "status": "partial",
   "theorems": [
    "pow_int_accurate_partial",
    "pow_real_accurate_partial",
    "pow_int_special",
    "pow_underflow_refuted",
    "pow_least_exponent_refuted",
    "pow_minus_zero_refuted",
    "pow_negative_base_refuted",
    "pow_zero_refuted",
    "pow_nan_refuted",
    "pow_large_refuted"
   ],
   "note": "accuracy is proved for integral exponents while the power and its reciprocal are in range, and for positive bases with exponents of floating type; elsewhere the claim is false: pow(2, -1074) is zero, pow(-2., 3.) is NaN, pow(0., 0.) is 0, pow(x, INT_MIN) has no defined behaviour (refuted)"
  },
  {
   "property": "C114",
   "status": "partial",
   "theorems": [
    "near_err_partial",
    "near_eps_partial",
    "near_symmetric",
    "near_reflexive",
    "near_monotone",
    "near_special",
    "near_complex_parts",
    "near_complex_reflexive",
    "near_complex_partial",
    "compare_near_partial",
    "compare_near_special",
    "near_large_refuted",
    "near_small_refuted",
    "near_int_partial",
    "near_int_undefined",
    "near_int_overflow_refuted",
    "near_unsigned_exact",
    "near_unsigned_refuted",
    "near_exact_refuted",
    "near_infinity_refuted",
    "near_neighbours_refuted",
    "near_complex_underflow_refuted",
    "near_complex_overflow_refuted",
    "near_complex_negative_refuted"
   ],
   "note": "completeness, soundness up to one rounding, symmetry, reflexivity on finite numbers and monotonicity are proved for every format; the rest is false: the default tolerance is absolute, so that from 4 on near means equal and below epsilon all numbers are near; infinity is not near itself; unsigned numbers with a tolerance are never near; complex tolerances overflow and underflow (refuted)"
  },
  {
   "property": "C115",
   "status": "partial",
   "theorems": [
    "log1p_accurate_partial",
    "log1p_near_zero",
    "log1p_special",
    "log1p_double",
    "log1p_double_near_zero"
   ],
   "note": "termination and a small absolute error are proved for -1 < x <= -1/8, 1/8 <= x <= 14 and 16 <= x up to a quarter of the largest power of two, and a small relative error between -1/8 and 1/8; the error of the iteration for 14 < x < 16, and anything about larger x, is not proved"
  },
  {
   "property": "C12",
   "status": "proved",
   "theorems": [
    "any_transparent"
   ],
   "note": ""
  },
  {
   "property": "C13",
   "status": "proved",
   "theorems": [
    "dimensions_additive",
    "conversion_lengths",
    "to_stat_total",
    "from_stat_total"
   ],
   "note": ""
  },
  {
   "property": "C14",
   "status": "partial",
   "theorems": [
    "pattern_equivalence_partial",
    "pattern_equivalence_reflexive",
    "pattern_equivalence_symmetric",
    "pattern_equivalence_transitive_partial",
    "pattern_transitivity_refuted",
    "pattern_any_consolidation_refuted",
    "pattern_empty_refuted",
    "pattern_unbounded_reflexive_refuted"
   ],
   "note": "an equivalence on sized collections without Any in collections of constant size; refuted otherwise"
  },
  {
   "property": "C15",
   "status": "partial",
   "theorems": [
    "pattern_order_partial",
    "pattern_order_swap",
    "pattern_order_transitive_partial",
    "pattern_order_descriptor_refuted",
    "pattern_order_unbounded_refuted",
    "pattern_order_two_unbounded_refuted"
   ],
   "note": "the prefix order on the same patterns; swap holds for all; the other cases are refuted"
  },
  {
   "property": "C16",
   "status": "partial",
   "theorems": [
    "distinct_descriptors_refuted",
    "dimension_hash_refuted",
    "distinct_dimensions",
    "distinct_inclinations_partial",
    "distance_not_inclination_partial"
   ],
   "note": "false: hash codes of different angles collide"
  },
  {
   "property": "C17",
   "status": "partial",
   "theorems": [
    "pattern_collections_spec",
    "trailing_one_dimensional",
    "trailing_one_dimensional_refuted",
    "collections_equivalence_reflexive",
    "collections_equivalence_symmetric",
    "collections_equivalence_transitive_partial"
   ],
   "note": "place by place for all comparisons; trailing patterns are immaterial exactly for comparisons that accept equivalence; transitivity under the conditions of C14"
  },
  {
   "property": "C18",
   "status": "proved",
   "theorems": [
    "fmod_remainder",
    "fmod_out_of_range",
    "fmod_limit_refuted"
   ],
   "note": "over the real numbers; undefined behaviour exactly at quotient 2^63 shown"
  },
  {
   "property": "C19",
   "status": "proved",
   "theorems": [
    "sqrt_iterates",
    "sqrt_correct"
   ],
   "note": "over the real numbers"
  },
  {
   "property": "C20",
   "status": "proved",
   "theorems": [
    "complex_sqrt"
   ],
   "note": "exact arithmetic"
  },
  {
   "property": "C21",
   "status": "proved",
   "theorems": [
    "hypot_norm",
    "hypot_scales",
    "complex_hypot"
   ],
   "note": "exact arithmetic"
  },
  {
   "property": "C22",
   "status": "proved",
   "theorems": [
    "pow_integer",
    "pow_zero",
    "exp_integer",
    "pow_lowest_refuted"
   ],
   "note": "the least exponent of its type is undefined, as the property excludes"
  },
  {
   "property": "C23",
   "status": "proved",
   "theorems": [
    "range_reduction",
    "sin_cos_tan",
    "range_reduction_limit_refuted"
   ],
   "note": "over the real numbers; series loops return their limit (rounding: C95-C97)"
  },
  {
   "property": "C24",
   "status": "proved",
   "theorems": [
    "inverse_trig",
    "atan2_angle",
    "atan2_origin",
    "atan2_infinities"
   ],
   "note": "over the real numbers with signed zeros and infinities for atan2"
  },
  {
   "property": "C25",
   "status": "proved",
   "theorems": [
    "log_scaling",
    "log_exact"
   ],
   "note": "over the real numbers; Halley loop returns its limit"
  },
  {
   "property": "C26",
   "status": "partial",
   "theorems": [
    "wrap_symmetric_partial",
    "wrap_positive_partial",
    "wrap_degrees",
    "wrap_positive_degrees",
    "wrap_half_open_refuted",
    "wrap_positive_degrees_refuted",
    "wrap_large_refuted",
    "wrap_throws_refuted"
   ],
   "note": "true on [-M,M) within one and a half turns, for every IEEE format; false for large angles, and on [0,M) for small negative angles"
  },
  {
   "property": "C27",
   "status": "partial",
   "theorems": [
    "spherical_returns",
    "spherical_finite_partial",
    "spherical_finite_refuted"
   ],
   "note": "distance and longitude always finite; inclination finite away from the pole; NaN near the pole (refuted)"
  },
  {
   "property": "C28",
   "status": "partial",
   "theorems": [
    "covariance_history",
    "covariance_self_adjoint_form",
    "covariance_negative_scalar_refuted"
   ],
   "note": "proved for all histories with non-negative scalar factors; false for negative factors (refuted): the result depends on the hidden synchronisation state"
  },
  {
   "property": "C29",
   "status": "partial",
   "theorems": [
    "covariance_assignment_partial",
    "covariance_assignment_refuted"
   ],
   "note": "false as stated: copy assignment consults the wrong object's synchronisation state; proved when both representations of the target were just read"
  },
  {
   "property": "C30",
   "status": "proved",
   "theorems": [
    "covariance_rank_update",
    "covariance_rank_update_self_adjoint"
   ],
   "note": ""
  },
  {
   "property": "C31",
   "status": "partial",
   "theorems": [
    "square_root_history",
    "square_root_triangular_form",
    "square_root_negative_scalar_refuted"
   ],
   "note": "proved for all histories with non-negative scalar factors; false for negative factors (refuted)"
  },
  {
   "property": "C32",
   "status": "partial",
   "theorems": [
    "view_coherence_partial",
    "view_coherence_refuted"
   ],
   "note": "false as stated: an in-place update through the view discards a pending update of the owner; proved when the factor was read since the owner last changed"
  },
  {
   "property": "C33",
   "status": "proved",
   "theorems": [
    "kalman_gain_normal_equations",
    "kalman_update_step",
    "kalman_update_step_total"
   ],
   "note": "solve() and the triangular back ends are oracles with contracts (solver_ok, lib_ok)"
  },
  {
   "property": "C34",
   "status": "proved",
   "theorems": [
    "kalman_update_optimal"
   ],
   "note": ""
  },
  {
   "property": "C35",
   "status": "proved",
   "theorems": [
    "kalman_history_sound",
    "kalman_history_dense",
    "kalman_history_cholesky"
   ],
   "note": "linear, identity and recursive-least-squares process transforms; linear measurement transforms"
  },
  {
   "property": "C36",
   "status": "partial",
   "theorems": [
    "kalman_branches_agree",
    "kalman_perfect_measurement_refuted"
   ],
   "note": "the branches agree whenever both return; the Cholesky branch throws where the dense one returns when the posterior is singular and a downdate of several columns is needed (refuted for perfect measurements under the strict rank-update contract)"
  },
  {
   "property": "C37",
   "status": "proved",
   "theorems": [
    "kalman_cycle",
    "kalman_information_form",
    "kalman_order_independent",
    "kalman_stacked"
   ],
   "note": ""
  },
  {
   "property": "C38",
   "status": "proved",
   "theorems": [
    "linear_transform_moments",
    "linear_transform_moments_dense"
   ],
   "note": ""
  },
  {
   "property": "C39",
   "status": "proved",
   "theorems": [
    "consecutive_transforms",
    "consecutive_transforms_product"
   ],
   "note": ""
  },
  {
   "property": "C40",
   "status": "partial",
   "theorems": [
    "identity_transforms_partial",
    "identity_transforms_refuted"
   ],
   "note": "false as stated: the linear identity ignores noise covariance; proved without noise"
  },
  {
   "property": "C41",
   "status": "proved",
   "theorems": [
    "recursive_least_squares"
   ],
   "note": ""
  },
  {
   "property": "C42",
   "status": "proved",
   "theorems": [
    "unscented_points_moments",
    "cubature_points_moments"
   ],
   "note": "alpha <> 0 and dim + kappa > 0; inputs whose covariance has a Cholesky factor (positive definite or zero, or stored as a factor)"
  },
  {
   "property": "C43",
   "status": "proved",
   "theorems": [
    "unscented_affine_exact",
    "unscented_affine_returns",
    "cubature_affine_exact",
    "sample_points_agree_with_linear"
   ],
   "note": ""
  },
  {
   "property": "C44",
   "status": "partial",
   "theorems": [
    "simplex_points_refuted"
   ],
   "note": "false: every coefficient of the first coordinate divides by zero"
  },
  {
   "property": "C45",
   "status": "partial",
   "theorems": [
    "unscented_transform_moments",
    "unscented_transform_returns",
    "cubature_transform_moments",
    "unscented_singular_refuted"
   ],
   "note": "equal whenever the Cholesky branch returns; it throws for singular output covariances with a negative centre weight (refuted under the strict rank-update contract)"
  },
  {
   "property": "C46",
   "status": "proved",
   "theorems": [
    "montecarlo_any_schedule",
    "montecarlo_schedule_independent",
    "montecarlo_single_draw"
   ],
   "note": "every schedule of at least two draws gives the sample mean, unbiased covariance and cross-covariance; a single draw divides by zero"
  },
  {
   "property": "C47",
   "status": "partial",
   "theorems": [
    "montecarlo_angular_mean_partial",
    "montecarlo_angular_covariance_refuted"
   ],
   "note": "the mean is schedule independent for every kind of output; the covariance is not (refuted over the reals with four draws of an angle)"
  },
  {
   "property": "C48",
   "status": "proved",
   "theorems": [
    "linearized_second_order",
    "second_order_correction_psd",
    "linearized_first_order",
    "linearized_exact_mean",
    "linearized_exact_moments",
    "linearized_interaction_refuted"
   ],
   "note": "moments of the second-order transform for every function; exact mean for every quadratic of uncorrelated arguments; exact covariance and cross-covariance when the arguments do not interact, refuted when they do; probability spaces are finite"
  },
  {
   "property": "C49",
   "status": "proved",
   "theorems": [
    "finite_difference_jacobian_exact",
    "finite_difference_jacobian_even",
    "finite_difference_hessian_exact",
    "finite_difference_hessian_symmetric",
    "finite_difference_argument_restored",
    "finite_difference_order_independent",
    "finite_difference_zero_delta"
   ],
   "note": "exact arithmetic; no zero delta"
  },
  {
   "property": "C50",
   "status": "partial",
   "theorems": [
    "gaussian_arithmetic",
    "gaussian_add_laws",
    "gaussian_subtraction_partial",
    "gaussian_difference_refuted"
   ],
   "note": "- subtracts covariances, so it undoes + but is not the difference of independent variables (refuted)"
  },
  {
   "property": "C51",
   "status": "proved",
   "theorems": [
    "log_likelihood_density",
    "log_likelihood_permutation",
    "log_likelihood_cat",
    "log_likelihood_singular",
    "entropy_is_mean_log_density"
   ],
   "note": "over the real numbers, solver contract A X = B; mean density over finite probability spaces with the distribution's moments"
  },
  {
   "property": "C52",
   "status": "proved",
   "theorems": [
    "covariance_sum",
    "covariance_difference",
    "covariance_scalar_product",
    "covariance_scalar_quotient",
    "covariance_scale"
   ],
   "note": ""
  },
  {
   "property": "C53",
   "status": "partial",
   "theorems": [
    "decompositions_exist",
    "cholesky_shortcut_partial",
    "cholesky_definite_partial",
    "cholesky_singular_partial",
    "cholesky_indefinite_partial",
    "cholesky_singular_refuted",
    "cholesky_upper_refuted",
    "cholesky_indefinite_refuted",
    "cholesky_negative_refuted",
    "cholesky_failure_refuted"
   ],
   "note": "proved for positive definite, constant and diagonal matrices; a singular stored matrix squares back only up to the pivot permutation (refuted), or is rejected when stored in the upper triangle (refuted); indefinite matrices are rejected when LDLT succeeds, but diagonal and negative ones give NaN (refuted)"
  },
  {
   "property": "C54",
   "status": "partial",
   "theorems": [
    "contract_partial",
    "contract_refuted",
    "scalar_product_partial",
    "scalar_quotient_partial",
    "scalar_product_refuted",
    "reduce_partial",
    "reduce_plus_partial",
    "reduce_plus_refuted",
    "reduce_times_rows_partial",
    "reduce_times_columns_partial",
    "reduce_times_refuted",
    "reduce_all_plus",
    "reduce_all_times_partial",
    "reduce_all_other",
    "average_reduce_partial",
    "average_all_correct",
    "average_reduce_refuted",
    "trace_partial",
    "trace_refuted",
    "determinant_partial",
    "determinant_refuted",
    "sum_partial",
    "LQ_partial",
    "QR_partial",
    "lq_library_exists",
    "LQ_refuted",
    "QR_refuted"
   ],
   "note": "proved for every kind of argument, size and value except rectangular diagonals, sums and products along the columns of stored diagonals, tall triangular LQ, and powers of negative constants, each refuted"
  },
  {
   "property": "C55",
   "status": "partial",
   "theorems": [
    "solve_partial",
    "solve_constant_partial",
    "solve_library_exists",
    "solve_singular_diagonal_refuted",
    "solve_shape_refuted",
    "solve_unique_refuted"
   ],
   "note": "proved for every invertible matrix of any kind and for constant systems of any shape; false for singular diagonal matrices and for non-square constant matrices (wrong shape)"
  },
  {
   "property": "C56",
   "status": "partial",
   "theorems": [
    "set_slice_writes",
    "set_slice_loops",
    "set_slice_range_unchecked",
    "set_slice_get_slice",
    "get_slice_exactly_when",
    "get_slice_rows_refuted",
    "get_slice_columns_refuted",
    "get_slice_leading_refuted",
    "get_chip_column",
    "get_chip_row_refuted",
    "set_chip_row",
    "set_chip_column",
    "tile_regular_partial",
    "tile_incomplete_refuted",
    "tile_single_ignores_dimensions",
    "tile_empty_block_refuted",
    "tile_terminates_refuted",
    "concatenate_along_partial",
    "concatenate_first_of_three_refuted",
    "concatenate_new_index_refuted",
    "concatenate_near_constants_refuted",
    "concatenate_diagonal_blocks",
    "concatenate_hermitian_refuted",
    "split_slices_partial",
    "split_too_large",
    "split_concatenate_diagonal_partial",
    "split_concatenate_columns_partial",
    "concatenate_split_column_partial",
    "split_concatenate_rows_refuted"
   ],
   "note": "proved: set_slice then get_slice for every rank; concatenation along the last index of any rank, the rows of matrices and block diagonals; splitting along all indices and of column vectors, with both round trips. Refuted: slices of rows or columns alone have the wrong shape, so rows of a matrix do not come back; concatenation along other indices of higher-rank objects; near constants; complex Hermitian adapters with different triangles"
  },
  {
   "property": "C57",
   "status": "partial",
   "theorems": [
    "n_ary_each_once_partial",
    "n_ary_values_partial",
    "n_ary_mismatch_reported",
    "n_ary_indices_single_refuted",
    "n_ary_library_refuted",
    "n_ary_constants_once",
    "n_ary_auto_values_partial",
    "n_ary_auto_dynamic_checked",
    "n_ary_auto_fixed_refuted",
    "n_ary_auto_order_refuted",
    "unary_in_place_each_once",
    "unary_in_place_result_refuted",
    "nullary_each_operation_partial",
    "nullary_element_order_refuted"
   ],
   "note": "True for any rank, shapes and number of arguments when the call is accepted: values with broadcasting, and each index visited once (the constants shortcut calls the operation once). False: operations on indices are rejected for 1x1 fixed sizes and where the library has its own version; fixed sizes that do not match are accepted when the dimensions come from the arguments, and compatible ones are rejected in one order; the in-place version drops what the operation returns; one operation per element follows the layout of the pattern instead of the order of the indices."
  },
  {
   "property": "C58",
   "status": "partial",
   "theorems": [
    "reduce_order_partial",
    "reduce_partial",
    "average_reduce_partial",
    "average_all_correct",
    "average_reduce_refuted",
    "reduce_plus_refuted"
   ],
   "note": "proved for every associative commutative operation on objects not stored as a diagonal"
  },
  {
   "property": "C59",
   "status": "partial",
   "theorems": [
    "layout_span_partial",
    "identity_span_refuted",
    "wide_triangle_span_refuted",
    "packed_triangle_square",
    "packed_triangle_wide_large",
    "packed_triangle_tall_refuted"
   ],
   "note": "proved for every composition of views that fits its span; refuted for constant diagonals of size two or more and for triangles on the long side of a rectangle"
  },
  {
   "property": "C60",
   "status": "partial",
   "theorems": [
    "unique_claim_partial",
    "exhaustive_claim_partial",
    "strided_claim_partial",
    "to_diagonal_unique_refuted",
    "to_diagonal_exhaustive_refuted",
    "triangle_strided_refuted",
    "triangle_exhaustive_refuted",
    "diagonal_of_stride_refuted",
    "always_unique_claims",
    "always_exhaustive_claims",
    "always_strided_claims",
    "always_unique_sound",
    "always_exhaustive_refuted",
    "always_strided_refuted",
    "always_exhaustive_transpose_refuted"
   ],
   "note": "the static promises agree with the claims at run time, and is_always_unique is true for every rank and nesting; the false claims (exhaustive diagonals and triangles, strided triangles and diagonals of stacks, unique diagonals of rank three) are refuted"
  },
  {
   "property": "C61",
   "status": "partial",
   "theorems": [
    "view_read_partial",
    "to_diagonal_read_partial",
    "diagonal_of_read_partial",
    "diagonal_of_to_diagonal_partial",
    "transpose_read_partial",
    "transpose_twice_partial"
   ],
   "note": "for nested views that fit their span"
  },
  {
   "property": "C62",
   "status": "partial",
   "theorems": [
    "triangular_read_partial",
    "hermitian_read_partial",
    "hermitian_symmetric_partial",
    "hermitian_of_constant_diagonal_refuted",
    "nested_triangle_refuted"
   ],
   "note": "for nested views that fit their span; refuted otherwise"
  },
  {
   "property": "C63",
   "status": "partial",
   "theorems": [
    "packed_triangle_square",
    "packed_triangle_wide_large",
    "packed_triangle_tall_refuted"
   ],
   "note": "square of any size in both variants, and wide in the large variant; the other rectangles are refuted"
  },
  {
   "property": "C64",
   "status": "partial",
   "theorems": [
    "offset_law_partial",
    "offset_law_zeros_partial",
    "offset_law_refuted"
   ],
   "note": "false for the to_diagonal, triangular and hermitian accessors"
  },
  {
   "property": "C65",
   "status": "proved",
   "theorems": [
    "collection_views",
    "complementary_slices",
    "slice_of_concat",
    "nested_views",
    "flatten_leaves"
   ],
   "note": "every composition of views, by iteration, by run-time and by fixed index"
  },
  {
   "property": "C66",
   "status": "proved",
   "theorems": [
    "lex_compare_spec",
    "lex_compare_order",
    "lex_compare_views"
   ],
   "note": ""
  },
  {
   "property": "C67",
   "status": "proved",
   "theorems": [
    "compare_indices_spec"
   ],
   "note": ""
  },
  {
   "property": "C68",
   "status": "proved",
   "theorems": [
    "to_stat_encodes_position",
    "to_stat_on_manifold",
    "to_stat_total"
   ],
   "note": ""
  },
  {
   "property": "C69",
   "status": "partial",
   "theorems": [
    "square_root_times_scalar_refuted"
   ],
   "note": "false: the product is a Covariance; scale() does return the scaled square root"
  },
  {
   "property": "C70",
   "status": "partial",
   "theorems": [
    "concatenate_split",
    "split_marginals_partial",
    "split_marginals_refuted"
   ],
   "note": "round trip proved; marginals proved for self-adjoint storage, refuted for Cholesky storage"
  },
  {
   "property": "C71",
   "status": "partial",
   "theorems": [
    "consecutive_cross_covariance_partial",
    "consecutive_cross_covariance_refuted",
    "sample_point_chain_cross_refuted"
   ],
   "note": "false for more than one transform"
  },
  {
   "property": "C72",
   "status": "proved",
   "theorems": [
    "identity_transform_moments",
    "rls_transform_moments"
   ],
   "note": ""
  },
  {
   "property": "C73",
   "status": "proved",
   "theorems": [
    "unscented_covariance_psd",
    "cubature_covariance_psd",
    "unscented_negative_variance_refuted"
   ],
   "note": "the condition beta >= alpha^2 is needed (refuted without it)"
  },
  {
   "property": "C74",
   "status": "proved",
   "theorems": [
    "unscented_chain",
    "cubature_chain"
   ],
   "note": "the cross-covariance of a chain is C71"
  },
  {
   "property": "C75",
   "status": "proved",
   "theorems": [
    "unscented_filter_is_kalman",
    "cubature_filter_is_kalman",
    "sample_point_filter_returns"
   ],
   "note": "self-adjoint states must stay positive definite, so that they have a Cholesky factor"
  },
  {
   "property": "C76",
   "status": "partial",
   "theorems": [
    "mapping_equality_partial",
    "mapping_equality_refuted"
   ],
   "note": "false: nested mappings are not compared"
  },
  {
   "property": "C77",
   "status": "partial",
   "theorems": [
    "transposed_patterns_partial",
    "transposed_index_refuted"
   ],
   "note": "false for subscripts of the begin iterator and for run-time indices, which read the original collection at an offset"
  },
  {
   "property": "C78",
   "status": "proved",
   "theorems": [
    "draws_have_moments"
   ],
   "note": "finite probability spaces; the random engine is not modelled"
  },
  {
   "property": "C79",
   "status": "proved",
   "theorems": [
    "log_likelihood_maximum"
   ],
   "note": "over the real numbers, solver contract A X = B"
  },
  {
   "property": "C80",
   "status": "proved",
   "theorems": [
    "exponentials",
    "inverse_hyperbolic"
   ],
   "note": "over the real numbers; series loops return their limit (rounding: C95-C97)"
  },
  {
   "property": "C81",
   "status": "partial",
   "theorems": [
    "exponentials",
    "exp_defined_refuted"
   ],
   "note": "false: undefined for arguments beyond the range of int; exact inside it"
  },
  {
   "property": "C82",
   "status": "partial",
   "theorems": [
    "pow_real",
    "pow_agree_refuted"
   ],
   "note": "true for positive bases; false for base 0 with exponent 0 and for negative bases"
  },
  {
   "property": "C83",
   "status": "proved",
   "theorems": [
    "complex_exponentials",
    "complex_trigonometric",
    "complex_logarithm",
    "complex_inverses",
    "complex_pow",
    "complex_pow_integer"
   ],
   "note": "exact arithmetic; series loops return their limit"
  },
  {
   "property": "C84",
   "status": "partial",
   "theorems": [
    "complex_atan2_tangent_partial",
    "complex_atan2_quadrant_refuted"
   ],
   "note": "the tangent is right; the quadrant is lost when Re x < 0 (refuted)"
  },
  {
   "property": "C85",
   "status": "partial",
   "theorems": [
    "from_stat_symmetric",
    "from_stat_degrees",
    "from_stat_positive_partial",
    "from_stat_positive_refuted"
   ],
   "note": "proved for [-M,M); on [0,M) the excluded end is returned for small negative arc tangents"
  },
  {
   "property": "C86",
   "status": "partial",
   "theorems": [
    "sqrt_returns",
    "sqrt_faithful",
    "sqrt_accuracy",
    "hypot_accuracy",
    "hypot_at_least",
    "sqrt_denormal_refuted",
    "sqrt_of_square_refuted"
   ],
   "note": "proved in every IEEE format, except for one argument: the smallest positive number, whose root is returned as zero (sqrt_denormal_refuted)"
  },
  {
   "property": "C87",
   "status": "partial",
   "theorems": [
    "chipwise_values_partial",
    "chipwise_columns",
    "chipwise_rows_refuted",
    "chipwise_replication_refuted",
    "nullary_chipwise_values_partial"
   ],
   "note": "Right when every index from the number of named indices on is named or one wide (so by columns, or all indices), and without arguments for any indices. False by rows, where most of the result is never written, and for arguments of different sizes, which throw instead of being repeated."
  },
  {
   "property": "C88",
   "status": "partial",
   "theorems": [
    "rank_one_exists",
    "rank_update_triangular_partial",
    "rank_update_succeeds_partial",
    "rank_update_undone",
    "rank_update_hermitian_value",
    "rank_update_mismatch_partial",
    "rank_update_zero_refuted",
    "rank_update_mismatch_refuted"
   ],
   "note": "proved for every kind of square matrix and update with the same number of rows (exact arithmetic, contract of Eigen's rank-one update); false for a zero matrix updated with a tall column, and different numbers of rows are not always reported"
  },
  {
   "property": "C89",
   "status": "partial",
   "theorems": [
    "expression_constant_partial",
    "expression_constant_diagonal_partial",
    "expression_triangle_partial",
    "expression_hermitian_partial",
    "ordinary_expression_claims",
    "expression_sizes",
    "triangle_operations",
    "triangle_match",
    "zero_operand_refuted",
    "constant_product_diagonal_refuted",
    "number_comparison_refuted",
    "logical_or_refuted",
    "replicate_triangle_refuted",
    "replicate_hermitian_refuted",
    "reverse_diagonal_refuted",
    "product_identity_refuted",
    "unit_triangle_refuted",
    "complex_hermitian_refuted",
    "reduction_function_refuted",
    "reduction_single_refuted",
    "reshape_hermitian_refuted"
   ],
   "note": "true for every expression that avoids the listed uses (exclusions in XprSpec.safe, each refuted by an expression), in particular for every ordinary expression, a class described without the model; sizes and triangle-type arithmetic without exclusions. Exact scalars; the interface is between two versions of the core and is read as XprModel.v says"
  },
  {
   "property": "C90",
   "status": "partial",
   "theorems": [
    "to_stat_space_columns",
    "from_stat_space_columns",
    "to_stat_space_returns_partial",
    "from_stat_space_returns_partial",
    "wrap_angles_columns_partial",
    "to_stat_space_single_refuted",
    "to_stat_space_dynamic_refuted",
    "from_stat_space_dynamic_refuted",
    "to_stat_space_rank_refuted"
   ],
   "note": "what is returned is right for any rank, size and pattern; returning is proved for sizes fixed at compile time and ranks up to one more than the number of indices. False: a single angle overflows its store, sizes known only at run time write beyond the end of an empty vector, and trailing dimensions of one are rejected"
  },
  {
   "property": "C91",
   "status": "partial",
   "theorems": [
    "views_without_copies_partial",
    "copies_without_changes_partial",
    "copy_outlives_refuted",
    "move_outlives_refuted",
    "write_to_copy_refuted",
    "assignment_refuted"
   ],
   "note": "true for every history without copies, and for every history of constructions, copies and moves; false otherwise: a copy reads the store of its original"
  },
  {
   "property": "C92",
   "status": "partial",
   "theorems": [
    "wrapping_returns",
    "means_stay_in_range_partial",
    "means_stay_in_range_refuted",
    "when_wrapped_partial",
    "when_wrapped_halves_refuted",
    "when_wrapped_distances_refuted"
   ],
   "note": "proved for every pattern and history unless limits are -pi, pi (where pi is kept with the shortcut); the time of wrapping does not matter for numbers, angles and whole multiples; it does for halves and for distances (refuted)"
  },
  {
   "property": "C93",
   "status": "partial",
   "theorems": [
    "sample_mean_direction",
    "sample_mean_rotates",
    "sample_mean_balanced",
    "sample_turns_do_not_matter",
    "sample_covariance_rotates_partial",
    "sample_covariance_rotates_refuted"
   ],
   "note": "the mean is right for every angle; the covariance is right only when nothing crosses the limits: deviations are not wrapped (refuted)"
  },
  {
   "property": "C94",
   "status": "partial",
   "theorems": [
    "updated_mean_in_range",
    "measurement_turns_do_not_matter",
    "update_rotates_partial",
    "update_rotates_refuted"
   ],
   "note": "true unless the measurement crosses the limits: the innovation is not wrapped (refuted)"
  },
  {
   "property": "C95",
   "status": "partial",
   "theorems": [
    "exp_accurate_partial",
    "exp_special",
    "exp_double",
    "exp_underflow_refuted",
    "exp_large_refuted"
   ],
   "note": "proved for every format and every argument up to 11/16 of the largest exponent; beyond that false: results that are denormal come back as zero, and arguments beyond int are undefined behaviour (refuted)"
  },
  {
   "property": "C96",
   "status": "partial",
   "theorems": [
    "expm1_accurate_partial",
    "expm1_sign_refuted"
   ],
   "note": "proved for every format and every argument up to 11/16 of the largest exponent, relative to exp x + 1, and relative to exp x - 1 for arguments not below zero; false for small negative arguments, where even the sign is wrong (refuted)"
  },
  {
   "property": "C97",
   "status": "partial",
   "theorems": [
    "sin_accurate_partial",
    "cos_accurate_partial",
    "sin_cos_special",
    "sin_cos_double",
    "cos_range_refuted",
    "sin_large_refuted",
    "sin_overflow_refuted",
    "sin_turns_refuted"
   ],
   "note": "proved for every format and every argument up to 2^(prec-5); beyond that false: 10^18 gives -10^37 and others undefined behaviour; cos can exceed 1 (refuted)"
  },
  {
   "property": "C98",
   "status": "partial",
   "theorems": [
    "views_of_self_adjoint_partial",
    "views_of_triangular_partial",
    "view_copy_refuted",
    "view_of_view_refuted",
    "view_of_view_after_read",
    "view_sign_refuted"
   ],
   "note": "proved for all histories in which a view is used only while the views it was made from exist; false for copies that outlive the view they were copied from (undefined behaviour), for the square root of the square of a view (stale), and a factor is read back with a positive diagonal (refuted)"
  },
  {
   "property": "C99",
   "status": "partial",
   "theorems": [
    "guaranteed_comparison_partial",
    "permitted_comparison_partial",
    "permitted_strict_comparison_partial",
    "constant_comparison",
    "size_comparison",
    "guaranteed_equivalence_refuted",
    "compile_time_symmetry_refuted",
    "permitted_less_refuted",
    "guaranteed_descriptor_refuted",
    "guaranteed_zero_refuted"
   ],
   "note": "proved for descriptors, tuples and collections of run-time size, and for sizes in full; false where the second pattern has run-time dimensions behind plain axes (two axes guaranteed equivalent to three or more), for less and greater behind run-time coordinates, and next to patterns of dimension zero (refuted); unbounded collections are not modelled"
  }
 ]
}