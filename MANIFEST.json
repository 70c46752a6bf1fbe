{
 "claims": [
  {
   "property": "C01",
   "status": "proved",
   "theorems": [
    "deque_refines_list"
   ],
   "note": "every program over deque variables; also no leak. Element operations are total; index_t overflow not modelled"
  },
  {
   "property": "C02",
   "status": "proved",
   "theorems": [
    "deque_index_wraps",
    "deque_index_empty_undefined"
   ],
   "note": ""
  },
  {
   "property": "C03",
   "status": "proved",
   "theorems": [
    "deque_copy_isolated",
    "deque_copy_assign_isolated",
    "deque_copy_ctor_refuted"
   ],
   "note": "positive under the guard; the violation named in the statement is the refuted theorem"
  },
  {
   "property": "C04",
   "status": "proved",
   "theorems": [
    "deque_move_transfers",
    "deque_refines_list",
    "deque_self_move_refuted"
   ],
   "note": "self-move violation is the refuted theorem"
  },
  {
   "property": "C05",
   "status": "proved",
   "theorems": [
    "small_refines_list",
    "small_growth_refuted",
    "small_push_full_refuted"
   ],
   "note": "refinement of lists for all programs within capacity; growth shown undefined for every reachable container"
  },
  {
   "property": "C06",
   "status": "proved",
   "theorems": [
    "small_move_transfers",
    "small_move_ctor_refuted",
    "small_self_move_refuted"
   ],
   "note": "transfer under the guard; double destruction shown for every reachable non-empty inline source"
  },
  {
   "property": "C07",
   "status": "proved",
   "theorems": [
    "unique_storage_refines_list",
    "unique_storage_static_bounds"
   ],
   "note": "UniqueStorage dynamic and static; the other storage types are in C83"
  },
  {
   "property": "C08",
   "status": "proved",
   "theorems": [
    "positive_mod_signed",
    "positive_mod_signed_half",
    "positive_mod_signed_overflow_refuted",
    "positive_mod_unsigned",
    "positive_mod_unsigned_refuted"
   ],
   "note": ""
  },
  {
   "property": "C09",
   "status": "proved",
   "theorems": [
    "ceil_div_correct_iff",
    "floor_div_correct_iff",
    "ceil_floor_div_refuted",
    "snap_next_multiple",
    "ceil_div_unsigned",
    "floor_div_unsigned"
   ],
   "note": ""
  },
  {
   "property": "C10",
   "status": "proved",
   "theorems": [
    "is_power_of_two_signed",
    "is_power_of_two_unsigned"
   ],
   "note": ""
  },
  {
   "property": "C100",
   "status": "proved",
   "theorems": [
    "flsolve_residual",
    "flsolve_skip",
    "flsolve_columns",
    "flsolve_permuted",
    "flsolve_overflow_refuted",
    "flsolve_digits_refuted"
   ],
   "note": "All claims in the statement proved, including the stated violations (_refuted)."
  },
  {
   "property": "C101",
   "status": "proved",
   "theorems": [
    "flplu_accurate",
    "flplu_order",
    "flplu_multipliers",
    "flplu_pivots",
    "flplu_regular_refuted",
    "flplu_singular_refuted"
   ],
   "note": "All claims in the statement proved, including the stated violations (_refuted)."
  },
  {
   "property": "C102",
   "status": "proved",
   "theorems": [
    "flsys_residual",
    "flsys_answers",
    "flsys_refusal",
    "flsys_skip",
    "flsys_columns",
    "flsys_singular_refuted",
    "flsys_regular_refuted",
    "flsys_last_refuted"
   ],
   "note": "All claims in the statement proved, including the stated violations (_refuted)."
  },
  {
   "property": "C103",
   "status": "proved",
   "theorems": [
    "flup_accurate",
    "flup_order",
    "flup_pivots",
    "flup_degenerate_refuted",
    "flup_overflow_refuted"
   ],
   "note": "All claims in the statement proved, including the stated violations (_refuted)."
  },
  {
   "property": "C104",
   "status": "proved",
   "theorems": [
    "flinvn_residual",
    "flinvn_pivots",
    "flinvn_flag",
    "flinvn_refusal",
    "flinvn_overwrites",
    "flinvn_singular_refuted",
    "flinvn_regular_refuted",
    "flinvn_last_refuted"
   ],
   "note": "All claims in the statement proved, including the stated violations (_refuted)."
  },
  {
   "property": "C105",
   "status": "proved",
   "theorems": [
    "florth_dots",
    "florth_last",
    "florth_zero",
    "florth_independent_refuted",
    "florth_dependent_refuted",
    "florth_nan_refuted"
   ],
   "note": "All claims in the statement proved, including the stated violations (_refuted)."
  },
  {
   "property": "C106",
   "status": "proved",
   "theorems": [
    "flnull_dots",
    "flnull_unit",
    "flnull_false",
    "flnull_independent_refuted",
    "flnull_dependent_refuted",
    "flnull_nan_refuted"
   ],
   "note": "All claims in the statement proved, including the stated violations (_refuted)."
  },
  {
   "property": "C107",
   "status": "proved",
   "theorems": [
    "flproj_fraction",
    "flproj_project",
    "flproj_zero",
    "flproj_small_refuted",
    "flproj_large_refuted"
   ],
   "note": "All claims in the statement proved, including the stated violations (_refuted)."
  },
  {
   "property": "C108",
   "status": "proved",
   "theorems": [
    "flgs_kept",
    "flgs_step",
    "flgs_chain",
    "flgs_neighbours",
    "flgs_orthogonal_refuted",
    "flgs_short_refuted"
   ],
   "note": "All claims in the statement proved, including the stated violations (_refuted)."
  },
  {
   "property": "C109",
   "status": "proved",
   "theorems": [
    "flon_plane",
    "flon_overloads",
    "flon_unit",
    "flon_length",
    "flon_orthogonal_refuted",
    "flon_dependent_refuted"
   ],
   "note": "All claims in the statement proved, including the stated violations (_refuted)."
  },
  {
   "property": "C11",
   "status": "proved",
   "theorems": [
    "lcg_full_period"
   ],
   "note": "All claims in the statement proved, including the stated violations (_refuted)."
  },
  {
   "property": "C110",
   "status": "proved",
   "theorems": [
    "flsub_sum",
    "flsub_basis",
    "flsub_inside_refuted"
   ],
   "note": "All claims in the statement proved, including the stated violations (_refuted)."
  },
  {
   "property": "C12",
   "status": "proved",
   "theorems": [
    "xoshiro_bijective",
    "xoshiro_never_zero",
    "xoshiro_seeded_nonzero",
    "splitmix64_bijective",
    "xoshiro_entropy_seed_refuted",
    "xoshiro_seeds_distinct"
   ],
   "note": "All claims in the statement proved, including the stated violations (_refuted)."
  },
  {
   "property": "C13",
   "status": "proved",
   "theorems": [
    "bounded_draw_uniform",
    "bounded_draw_first_accepted",
    "int_range_draw",
    "bounded_draw_uniform_refuted"
   ],
   "note": "All claims in the statement proved, including the stated violations (_refuted)."
  },
  {
   "property": "C14",
   "status": "proved",
   "theorems": [
    "reseed_words_reproducible",
    "reseed_reproducible_empty_pool",
    "reseed_bools_refuted",
    "reseed_bools_lcg_refuted"
   ],
   "note": "All claims in the statement proved, including the stated violations (_refuted)."
  },
  {
   "property": "C15",
   "status": "proved",
   "theorems": [
    "hash_combine_injective",
    "hash_combine_onto",
    "hash_array_last_injective",
    "hash_many_last_injective",
    "hash_array_first_refuted"
   ],
   "note": "All claims in the statement proved, including the stated violations (_refuted)."
  },
  {
   "property": "C16",
   "status": "proved",
   "theorems": [
    "siphash_is_siphash24_64",
    "siphash_is_siphash24_128",
    "hash_bytes_128_is_siphash",
    "sipround_injective"
   ],
   "note": "All claims in the statement proved, including the stated violations (_refuted)."
  },
  {
   "property": "C17",
   "status": "proved",
   "theorems": [
    "grid_visits_every_cell_once",
    "grid_empty_region_refuted",
    "grid1_visits_every_cell_once",
    "grid1_corners_refuted"
   ],
   "note": "All claims in the statement proved, including the stated violations (_refuted)."
  },
  {
   "property": "C18",
   "status": "proved",
   "theorems": [
    "grid_distance_counts_increments",
    "grid_decrement_inverts_iff",
    "grid_advance_is_absolute",
    "grid_advance_from_begin",
    "grid_advance_refuted",
    "grid1_arithmetic"
   ],
   "note": "All claims in the statement proved, including the stated violations (_refuted)."
  },
  {
   "property": "C19",
   "status": "proved",
   "theorems": [
    "layout_index_bijective",
    "row_iterator_addresses",
    "col_iterator_addresses",
    "row_iterator_contiguous",
    "col_iterator_contiguous",
    "transpose_iterator_arithmetic"
   ],
   "note": "All claims in the statement proved, including the stated violations (_refuted)."
  },
  {
   "property": "C20",
   "status": "proved",
   "theorems": [
    "edge_behaviours",
    "mirror_laws_determine",
    "mirror_single_sample_refuted",
    "raster_index_bijective",
    "sample_any_coordinate",
    "sample_inside",
    "raster_set",
    "raster_set_outside",
    "raster_new",
    "constant_outside",
    "constant_outside_refuted",
    "raster_copy",
    "raster_of_data"
   ],
   "note": "All claims in the statement proved, including the stated violations (_refuted)."
  },
  {
   "property": "C21",
   "status": "proved",
   "theorems": [
    "rect_contains",
    "rect_is_empty",
    "rect_intersection",
    "rect_union_contains",
    "rect_union_smallest",
    "rect_union_in_place",
    "rect_contains_box",
    "rect_spanning_smallest",
    "rect_from_points",
    "rect_from_no_points",
    "rect_cartesian",
    "rect_clip_inside",
    "rect_clip_fixes",
    "rect_clip_nearest",
    "rect_distance",
    "rect_convex_support"
   ],
   "note": "All claims in the statement proved; order-only claims over any total order, metric claims over the reals."
  },
  {
   "property": "C22",
   "status": "proved",
   "theorems": [
    "rect_intersects_sound",
    "rect_intersects_misses_iff_touching",
    "rect_intersects_interior",
    "rect_intersects_refuted",
    "rect_intersects_empty_refuted",
    "rect_contains_empty_box",
    "rect_contains_empty_refuted",
    "rect_exclusion_refuted",
    "rect_exclusion_modifies_operand_refuted",
    "rect_project_interval",
    "rect_project_refuted",
    "rect_sdf_corner",
    "rect_sdf_interval"
   ],
   "note": "All claims in the statement proved, including the stated violations (_refuted)."
  },
  {
   "property": "C23",
   "status": "proved",
   "theorems": [
    "rect_remap_unmap",
    "rect_remap_unit_box"
   ],
   "note": "Proved over the reals; rounding is not modelled."
  },
  {
   "property": "C24",
   "status": "proved",
   "theorems": [
    "rect_ray_intersection",
    "rect_ray_empty_refuted",
    "rect_ray_empty_witness_refuted"
   ],
   "note": "All claims in the statement proved, including the stated violations (_refuted). Reals with infinite interval ends; rounding is not modelled."
  },
  {
   "property": "C25",
   "status": "proved",
   "theorems": [
    "permutation_matrix_inverse_maps",
    "permutation_matrix_elements",
    "permutation_matrix_operations",
    "permutation_matrix_sign",
    "permutation_matrix_sign_defined",
    "permutation_matrix_sign_refuted",
    "permutation_matrix_swap_self_refuted"
   ],
   "note": "All claims in the statement proved, including the stated violations (_refuted)."
  },
  {
   "property": "C26",
   "status": "proved",
   "theorems": [
    "permutation_apply_correct",
    "destructive_apply_permutation_correct",
    "permutation_apply_identity_refuted"
   ],
   "note": "All claims in the statement proved, including the stated violations (_refuted)."
  },
  {
   "property": "C27",
   "status": "proved",
   "theorems": [
    "parity_well_defined",
    "permutation_sign_value",
    "permutation_sign_correct_iff",
    "permutation_sign_refuted",
    "compute_sign_correct"
   ],
   "note": "All claims in the statement proved, including the stated violations (_refuted)."
  },
  {
   "property": "C28",
   "status": "proved",
   "theorems": [
    "plu_factors",
    "plu_tall_error",
    "plu_tall_refuted",
    "plu_degenerate_singular",
    "plu_nonsingular_pivots",
    "lup_factors",
    "lup_degenerate_refuted"
   ],
   "note": "All claims in the statement proved, including the stated violations (_refuted)."
  },
  {
   "property": "C29",
   "status": "proved",
   "theorems": [
    "linear_solve_solves",
    "linear_solve_failure",
    "linear_solve_skips",
    "backsolve_plu_solves",
    "linear_solve_small_solves",
    "linear_solve_singular_refuted"
   ],
   "note": "All claims in the statement proved, including the stated violations (_refuted)."
  },
  {
   "property": "C30",
   "status": "proved",
   "theorems": [
    "det_zero_iff_singular",
    "closed_form_determinants",
    "closed_form_inverses",
    "flat_inverses",
    "inverse_general",
    "inverse_singular_refuted",
    "transpose_square_transposes"
   ],
   "note": "All claims in the statement proved, including the stated violations (_refuted)."
  },
  {
   "property": "C31",
   "status": "proved",
   "theorems": [
    "plu_determinant",
    "determinant_general_refuted",
    "determinant_one",
    "determinant_degenerate",
    "determinant_diagonal",
    "determinant_permutation",
    "determinant_diagonal_oblong"
   ],
   "note": "All claims in the statement proved, including the stated violations (_refuted)."
  },
  {
   "property": "C32",
   "status": "proved",
   "theorems": [
    "cholesky_decides",
    "cholesky_factors",
    "cholesky_square",
    "cholesky_asymmetric_refuted"
   ],
   "note": "All claims in the statement proved, including the stated violations (_refuted)."
  },
  {
   "property": "C33",
   "status": "proved",
   "theorems": [
    "orthogonalize_orthogonal",
    "orthogonalize_independent",
    "orthogonalize_2d_refuted",
    "orthonormalize_orthonormal",
    "project_orthogonal_nearest",
    "project_subspace_nearest"
   ],
   "note": "All claims in the statement proved, including the stated violations (_refuted)."
  },
  {
   "property": "C34",
   "status": "proved",
   "theorems": [
    "dense_product",
    "matrix_vector_product",
    "vector_matrix_product",
    "matrix_diagonal_product",
    "matrix_wide_diagonal_refuted",
    "diagonal_matrix_product_refuted",
    "permutation_matrix_product",
    "matrix_permutation_product",
    "permutation_vector_product",
    "permutation_product",
    "permutation_product_sign_refuted",
    "permutation_product_dense_refuted"
   ],
   "note": "All claims in the statement proved, including the stated violations (_refuted)."
  },
  {
   "property": "C35",
   "status": "proved",
   "theorems": [
    "quaternion_algebra",
    "quaternion_rotates",
    "quaternion_composition",
    "axis_angle_rotation",
    "rodrigues_sane",
    "axis_angle_round_trip",
    "angular_velocity_round_trip",
    "quaternion_exp_log",
    "quaternion_powers",
    "quaternion_real_log_refuted",
    "quaternion_align_refuted"
   ],
   "note": "All claims in the statement proved, including the stated violations (_refuted)."
  },
  {
   "property": "C36",
   "status": "proved",
   "theorems": [
    "rotate_axis_right_iff",
    "rotate_axis_error",
    "rotate_axis_refuted",
    "rotate_center_error",
    "rotate_center_refuted",
    "align_rotates"
   ],
   "note": "All claims in the statement proved, including the stated violations (_refuted)."
  },
  {
   "property": "C37",
   "status": "proved",
   "theorems": [
    "transform_carries_inverse",
    "transform_round_trip",
    "composition_order",
    "division_order",
    "inverse_applies",
    "vector_is_difference",
    "normal_stays_perpendicular",
    "translation_translates",
    "scale_scales",
    "transformation_multiplies",
    "rotation_turns",
    "rotation_about_turns",
    "rotmat_about_point_turns",
    "rotation_quat_turns",
    "axis_rotations_turn",
    "rotation_2d_turns",
    "transformation_singular_refuted",
    "resized_applies",
    "resized_inverse_refuted",
    "divide_by_itself_refuted"
   ],
   "note": "All claims in the statement proved, including the stated violations (_refuted)."
  },
  {
   "property": "C38",
   "status": "proved",
   "theorems": [
    "direction_align_maps",
    "direction_align_isometry",
    "direction_align_opposite_refuted"
   ],
   "note": "All claims in the statement proved, including the stated violations (_refuted)."
  },
  {
   "property": "C39",
   "status": "proved",
   "theorems": [
    "expression_derivative_exact",
    "finite_result_is_right",
    "partial_derivative",
    "program_derivative_exact",
    "min_at_tie",
    "max_at_tie",
    "abs_at_zero",
    "abs_at_zero_refuted",
    "exp_derivative_refuted",
    "tan_derivative_refuted",
    "scalar_minus_dual_refuted",
    "pow_derivative_refuted",
    "pow_at_zero_refuted",
    "policy_conversion_refuted",
    "max_value_refuted",
    "scalar_pow_value_refuted",
    "dual_multiply_by_itself_refuted",
    "dual_divide_by_itself_refuted"
   ],
   "note": "All claims in the statement proved, including the stated violations (_refuted)."
  },
  {
   "property": "C40",
   "status": "proved",
   "theorems": [
    "eval_is_noise",
    "gradient_is_derivative",
    "gradient_directional",
    "noise_continuous",
    "cells_agree",
    "zero_at_lattice_points",
    "noise_bounded",
    "eval_overflow_refuted",
    "eval_overflow_1d_refuted",
    "gradient_1d_refuted",
    "noise_repeats_refuted",
    "noise_repeats_1d_refuted",
    "noise_repeats_2d_refuted"
   ],
   "note": "All claims in the statement proved, including the stated violations (_refuted)."
  },
  {
   "property": "C41",
   "status": "proved",
   "theorems": [
    "deque_push_own_element_with_room",
    "deque_push_own_element_refuted"
   ],
   "note": ""
  },
  {
   "property": "C42",
   "status": "proved",
   "theorems": [
    "mt_recurrence",
    "mt_first_block"
   ],
   "note": "All claims in the statement proved, including the stated violations (_refuted)."
  },
  {
   "property": "C43",
   "status": "proved",
   "theorems": [
    "float_in_unit_interval",
    "double_in_unit_interval",
    "float_exponent_flips",
    "float_exponent_distribution"
   ],
   "note": "All claims in the statement proved, including the stated violations (_refuted)."
  },
  {
   "property": "C44",
   "status": "proved",
   "theorems": [
    "domain_to_grid",
    "nearest_sample_refuted",
    "linear_parameter_refuted"
   ],
   "note": "All claims in the statement proved, including the stated violations (_refuted)."
  },
  {
   "property": "C45",
   "status": "proved",
   "theorems": [
    "rect_translate",
    "rect_scale",
    "rect_scale_empty_refuted",
    "rect_minkowski",
    "rect_dilated",
    "rect_point_minus_rect_refuted"
   ],
   "note": "All claims in the statement proved, including the stated violations (_refuted)."
  },
  {
   "property": "C46",
   "status": "proved",
   "theorems": [
    "rect_from_center_real",
    "rect_from_corner_real",
    "rect_set_dimensions_real",
    "rect_from_center_int",
    "rect_center_int_refuted",
    "rect_negative_length_int_refuted",
    "rect_from_corner_int",
    "rect_set_dimensions_int",
    "rect_set_dimensions_int_refuted"
   ],
   "note": "All claims in the statement proved, including the stated violations (_refuted)."
  },
  {
   "property": "C47",
   "status": "proved",
   "theorems": [
    "rect_fitted_to"
   ],
   "note": "Proved over the reals."
  },
  {
   "property": "C48",
   "status": "proved",
   "theorems": [
    "rect_contact_vector",
    "rect_contact_vector_shortest",
    "rect_contact_vector_closes_gap"
   ],
   "note": "Integer coordinates; for floating-point T the initialisation of an integer from numeric_limits<T>::max() is undefined behaviour and not modelled."
  },
  {
   "property": "C49",
   "status": "proved",
   "theorems": [
    "orthogonal_low",
    "orthogonal_high",
    "orthogonal_high_refuted",
    "nullspace_general",
    "nullspace_refuted",
    "nullspace_last_refuted"
   ],
   "note": "All claims in the statement proved, including the stated violations (_refuted)."
  },
  {
   "property": "C50",
   "status": "proved",
   "theorems": [
    "product_shared_storage",
    "product_overlap_refuted",
    "accumulate_disjoint",
    "accumulate_shared_refuted"
   ],
   "note": "All claims in the statement proved, including the stated violations (_refuted)."
  },
  {
   "property": "C51",
   "status": "proved",
   "theorems": [
    "transpose_in_place",
    "transpose_same_type",
    "transpose_other_type",
    "transpose_shared_refuted",
    "transpose_shared_layouts",
    "transpose_shared_square_refuted"
   ],
   "note": "All claims in the statement proved, including the stated violations (_refuted)."
  },
  {
   "property": "C52",
   "status": "proved",
   "theorems": [
    "rotation_2d",
    "polar_angle",
    "from_polar_refuted"
   ],
   "note": "All claims in the statement proved, including the stated violations (_refuted)."
  },
  {
   "property": "C53",
   "status": "proved",
   "theorems": [
    "spherical_round_trip",
    "spherical_round_trip_back"
   ],
   "note": "All claims in the statement proved, including the stated violations (_refuted)."
  },
  {
   "property": "C54",
   "status": "proved",
   "theorems": [
    "dot_mag_spec",
    "dist_is_metric",
    "unit_spec",
    "project_on_spec",
    "fraction_on_spec",
    "with_length_is",
    "mix_is_linear",
    "angle_to_spec",
    "angle_to_symmetric",
    "vec_equality",
    "extreme_elements",
    "extreme_indices",
    "elementwise_min_max",
    "clamp_is_nearest",
    "clamp_crossed",
    "vec_resized_spec"
   ],
   "note": "All claims in the statement proved. reflect_about and bounce_on do not compile and are not modelled."
  },
  {
   "property": "C55",
   "status": "proved",
   "theorems": [
    "at_distance_is",
    "at_multiple_is",
    "ray_project_spec",
    "ray_project_on_ray_refuted",
    "ray_dist2_refuted",
    "ray_dist2_wrong_values",
    "transformed_ray",
    "ray_resized_spec"
   ],
   "note": "All claims in the statement proved, including the stated violations (_refuted)."
  },
  {
   "property": "C56",
   "status": "proved",
   "theorems": [
    "quadratic_solve_false",
    "quadratic_solve_roots"
   ],
   "note": "All claims in the statement proved, for both signs of a zero b."
  },
  {
   "property": "C57",
   "status": "proved",
   "theorems": [
    "mix_endpoints",
    "interp_linear_is_multilinear",
    "interp_linear_corner",
    "interp_linear_between",
    "interp_linear_no_axis_refuted",
    "interp_cubic_hermite",
    "interp_cubic_quadratic",
    "interp_cubic_is_tensor",
    "interp_cubic_corner"
   ],
   "note": "All claims in the statement proved, including the stated violations (_refuted)."
  },
  {
   "property": "C58",
   "status": "proved",
   "theorems": [
    "angle_to_shortest",
    "real_positive_mod",
    "real_positive_mod_negative_refuted",
    "snap_up",
    "snap_negative_refuted",
    "clamp_nearest",
    "clamp_bounds_crossed",
    "degrees_radians",
    "real_divisions"
   ],
   "note": "All claims in the statement proved, including the stated violations (_refuted)."
  },
  {
   "property": "C59",
   "status": "proved",
   "theorems": [
    "legendre_rodrigues",
    "legendre_values",
    "legendre_orthogonal",
    "legendre_norm",
    "legendre_integral_spec",
    "assoc_legendre_spec",
    "assoc_legendre_zero",
    "assoc_legendre_high_refuted"
   ],
   "note": "All claims in the statement proved, including the stated violations (_refuted)."
  },
  {
   "property": "C60",
   "status": "proved",
   "theorems": [
    "chebyshev_first_kind",
    "chebyshev_second_kind"
   ],
   "note": "All claims in the statement proved."
  },
  {
   "property": "C61",
   "status": "proved",
   "theorems": [
    "path_eval_defined",
    "path_extrapolate_refuted",
    "path_empty",
    "path_through_knots",
    "path_smooth",
    "path_between",
    "path_before",
    "path_after",
    "path_append"
   ],
   "note": "All claims in the statement proved, including the stated violations (_refuted)."
  },
  {
   "property": "C62",
   "status": "proved",
   "theorems": [
    "zonal_eval_spec",
    "zonal_fn_integral",
    "zonal_lambertian",
    "zonal_lambertian_order_refuted",
    "zonal_spot",
    "zonal_dot_spec",
    "zonal_dot_bounds_refuted",
    "zonal_product_integral",
    "zonal_dot_integral_refuted",
    "zonal_convolve_spec",
    "zonal_convolve_bounds_refuted",
    "zonal_convolve_refuted",
    "zonal_diffuse_spec",
    "zonal_project_refuted",
    "zonal_normalize_refuted"
   ],
   "note": "All claims in the statement proved, including the stated violations (_refuted)."
  },
  {
   "property": "C63",
   "status": "proved",
   "theorems": [
    "sh_basis_function",
    "sh_basis_orthonormal",
    "sphere_integral_unique",
    "sh_fill_column"
   ],
   "note": "All claims in the statement proved."
  },
  {
   "property": "C64",
   "status": "proved",
   "theorems": [
    "sh_eval_sum",
    "sh_eval_direction",
    "sh_project_adds",
    "sh_basis_dot",
    "sh_dot_integral",
    "sh_coefficient_integral",
    "sh_total",
    "sh_pointwise",
    "sh_add_truncates",
    "sh_of_zonal_same",
    "sh_convolve_scales",
    "sh_convolve_refuted",
    "sh_normalize_refuted",
    "sh_normalize_spec",
    "sh_add_const_refuted",
    "zonal_of_sh_refuted",
    "sh_of_zonal_axis_spec",
    "sh_of_zonal_axis_refuted"
   ],
   "note": "All claims in the statement proved, including the stated violations (_refuted)."
  },
  {
   "property": "C65",
   "status": "proved",
   "theorems": [
    "sphere_contains_ball",
    "sphere_support_extreme",
    "sphere_signed_distance",
    "sphere_project_nearest",
    "sphere_normal_outward",
    "sphere_bounds_tight",
    "sphere_ray_interval",
    "sphere_intersects_exact",
    "sphere_intersects_refuted",
    "sphere_rect_exact",
    "sphere_rect_refuted",
    "sphere_ray_still_refuted"
   ],
   "note": "All claims in the statement proved, including the stated violations (_refuted)."
  },
  {
   "property": "C66",
   "status": "proved",
   "theorems": [
    "plane_through_point",
    "plane_of_simplex_low",
    "plane_of_simplex_high",
    "plane_of_simplex_high_refuted",
    "plane_queries",
    "plane_contains_shape_exact",
    "plane_intersects_shape_exact",
    "plane_touch_refuted",
    "plane_sphere_refuted",
    "plane_hull_refuted",
    "plane_transform_exact",
    "plane_translation_refuted"
   ],
   "note": "All claims in the statement proved, including the stated violations (_refuted)."
  },
  {
   "property": "C67",
   "status": "proved",
   "theorems": [
    "capsule_contains_exact",
    "capsule_signed_distance",
    "capsule_support_extreme",
    "capsule_bounds_tight",
    "capsule_intersects_exact"
   ],
   "note": "All claims in the statement proved. project and normal do not compile and are not modelled."
  },
  {
   "property": "C68",
   "status": "proved",
   "theorems": [
    "cylinder_contains_exact",
    "cylinder_contains_cap_refuted",
    "cylinder_sdf_outside",
    "cylinder_sdf_inside_refuted",
    "cylinder_project_nearest",
    "cylinder_project_axis_refuted",
    "cylinder_normal_outward",
    "cylinder_normal_beyond_refuted",
    "cylinder_bounds_tight",
    "cylinder_support_extreme",
    "cylinder_support_axis_refuted",
    "cylinder_ray_exact",
    "cylinder_ray_wall_refuted"
   ],
   "note": "All claims in the statement proved, including the stated violations (_refuted)."
  },
  {
   "property": "C69",
   "status": "proved",
   "theorems": [
    "default_bounds_tight",
    "default_contains_exact",
    "default_sdf_exact",
    "default_normal_direction",
    "default_clip_nearest"
   ],
   "note": "All claims in the statement proved, including the stated violations (_refuted)."
  },
  {
   "property": "C70",
   "status": "proved",
   "theorems": [
    "dilated_sdf_exact",
    "dilated_contains_interior",
    "dilated_contains_surface_refuted",
    "dilated_support_extreme",
    "dilated_bounds_tight",
    "dilated_project_exact",
    "dilated_normal_agrees",
    "dilate_plane_refuted",
    "roundrect_extents"
   ],
   "note": "All claims in the statement proved, including the stated violations (_refuted)."
  },
  {
   "property": "C71",
   "status": "proved",
   "theorems": [
    "extruded_contains_exact",
    "extruded_sdf_exact",
    "extruded_project_exact",
    "extruded_normal_agrees",
    "extruded_support_extreme",
    "extruded_bounds_tight",
    "extruded_ray_exact"
   ],
   "note": "All claims in the statement proved, including the stated violations (_refuted)."
  },
  {
   "property": "C72",
   "status": "proved",
   "theorems": [
    "frustum_contains_exact",
    "frustum_support_extreme",
    "frustum_bounds_tight",
    "frustum_ray_aside",
    "frustum_ray_into",
    "frustum_ray_into_refuted",
    "frustum_ray_vertical_refuted",
    "frustum_ray_tip",
    "frustum_ray_tip_refuted",
    "frustum_ray_level_refuted"
   ],
   "note": "All claims in the statement proved, including the stated violations (_refuted)."
  },
  {
   "property": "C73",
   "status": "proved",
   "theorems": [
    "oriented_contains_exact",
    "oriented_support_extreme",
    "oriented_bounds_tight",
    "oriented_ray_exact",
    "oriented_box_holds",
    "oriented_rect_exact",
    "oriented_rect_volume_refuted",
    "orient_operators"
   ],
   "note": "All claims in the statement proved, including the stated violations (_refuted)."
  },
  {
   "property": "C74",
   "status": "proved",
   "theorems": [
    "simplex_insert_appends",
    "simplex_exclude_drops",
    "simplex_constructors",
    "simplex_eq_exact",
    "simplex_transform_exact",
    "standard_simplex_exact",
    "simplex_support_extreme",
    "simplex_contains_exact",
    "simplex_degenerate_refuted",
    "simplex_ray_sound",
    "simplex_ray_graze_refuted",
    "simplex_ray_few",
    "simplex_facet_ray_refuted",
    "simplex_facing_exact",
    "simplex_facing_triangle_refuted",
    "simplex_volume_exact",
    "simplex_volume_refuted",
    "simplex_measure_exact",
    "simplex_measure_refuted"
   ],
   "note": "All claims in the statement proved, including the stated violations (_refuted)."
  },
  {
   "property": "C75",
   "status": "proved",
   "theorems": [
    "simplex_clip_nearest",
    "simplex_project_flat_nearest",
    "simplex_project_nearest",
    "simplex_sdf_exact",
    "simplex_sdf_flat",
    "simplex_normal_direction",
    "simplex_normal_outward_refuted",
    "simplex_normal_unit_refuted"
   ],
   "note": "All claims in the statement proved, including the stated violations (_refuted)."
  },
  {
   "property": "C76",
   "status": "proved",
   "theorems": [
    "gjk_miss_separated",
    "gjk_touching_hit",
    "gjk_apart_miss",
    "gjk_total",
    "gjk_iteration_limit_refuted",
    "gjk_tangent_spheres_refuted",
    "gjk_reuse_refuted",
    "gjk_degenerate_flag_refuted"
   ],
   "note": "All claims in the statement proved, including the stated violations (_refuted)."
  },
  {
   "property": "C77",
   "status": "proved",
   "theorems": [
    "obox_apart_missed",
    "obox_miss_divided",
    "obox_overlap_hit",
    "oboxes_apart_missed",
    "oboxes_miss_divided",
    "oboxes_overlap_hit",
    "obox_touching_refuted",
    "obox_touching_inconsistent_refuted",
    "obox_empty_refuted"
   ],
   "note": "All claims in the statement proved, including the stated violations (_refuted)."
  },
  {
   "property": "C78",
   "status": "proved",
   "theorems": [
    "permute_rearranges",
    "permute_uniform",
    "ball_first_inside",
    "cube_points",
    "sphere_direction",
    "sphere_radius_length",
    "sphere_center_refuted",
    "ball_radius_inside",
    "ball_radius_uniform_refuted",
    "shell_inside",
    "shell_uniform",
    "shell_uniform_refuted",
    "box_inside",
    "box_uniform",
    "rect_samples",
    "cap_on_sphere",
    "cap_uniform",
    "cap_about_direction",
    "cap_about_height",
    "cap_about_down_refuted",
    "solidcap_inside",
    "solidcap_uniform_refuted",
    "disk_inside",
    "disk_scaled",
    "oriented_disk_perpendicular",
    "arc_in_range",
    "solidarc_refuted"
   ],
   "note": "All claims in the statement proved, including the stated violations (_refuted)."
  },
  {
   "property": "C79",
   "status": "proved",
   "theorems": [
    "tree_children",
    "tree_connected",
    "tree_item_counts",
    "tree_items_owned",
    "tree_items_owned_once",
    "tree_insert_child",
    "tree_insert_child_refuses",
    "tree_append_child",
    "tree_insert_item",
    "tree_append_item",
    "tree_insert_item_refuses",
    "tree_split",
    "tree_split_refuses",
    "tree_erase",
    "tree_erase_refuses",
    "tree_find_parent",
    "tree_query",
    "tree_flatten",
    "tree_flatten_refuted",
    "tree_clear_refuted",
    "tree_of_range_refuted",
    "tree_equal_refl",
    "tree_equal_iff",
    "tree_items_refuted",
    "tree_find_parent_refuted",
    "tree_order_refuted",
    "tree_query_refuted",
    "tree_equal_refuted",
    "tree_equal_different_refuted",
    "tree_split_order_refuted"
   ],
   "note": "All claims in the statement proved, including the stated violations (_refuted)."
  },
  {
   "property": "C80",
   "status": "proved",
   "theorems": [
    "lattice_bin",
    "lattice_size",
    "lattice_query_block",
    "lattice_query",
    "lattice_query_refuted"
   ],
   "note": "All claims in the statement proved, including the stated violations (_refuted)."
  },
  {
   "property": "C81",
   "status": "proved",
   "theorems": [
    "flat_element",
    "flat_transposed_view",
    "flat_zero",
    "flat_times",
    "flat_identity_rows",
    "flat_identity_cols",
    "flat_new_refuted",
    "flat_new",
    "flat_copy",
    "flat_clear_cases",
    "flat_copy_own_view_refuted",
    "flat_construct",
    "flat_construct_refuted",
    "flat_from_array",
    "flat_from_array_refuted",
    "flat_add",
    "flat_sub",
    "flat_scale",
    "diag_into_dense",
    "diag_into_diag",
    "diag_new",
    "diag_new_refuted",
    "flat_equal",
    "diag_equal",
    "permutation_equal",
    "flat_empty",
    "flat_empty_refuted"
   ],
   "note": "All claims in the statement proved, including the stated violations (_refuted)."
  },
  {
   "property": "C82",
   "status": "proved",
   "theorems": [
    "diff_of_products_accurate",
    "sum_of_products_accurate",
    "products_finite",
    "multiply_add_correctly_rounded",
    "mix_exact_at_ends",
    "diff_of_products_tiny_refuted",
    "diff_of_products_large_refuted",
    "positive_mod_range_refuted"
   ],
   "note": "All claims in the statement proved, including the stated violations (_refuted)."
  },
  {
   "property": "C83",
   "status": "proved",
   "theorems": [
    "storage_policies",
    "storage_shared_copy",
    "storage_own_copy",
    "storage_fixed_source_refuted",
    "storage_fixed_overflow_refuted",
    "storage_moved_size_refuted",
    "storage_wrapped_null_refuted"
   ],
   "note": "All claims in the statement proved, including the stated violations (_refuted)."
  },
  {
   "property": "C84",
   "status": "proved",
   "theorems": [
    "flquad_decides",
    "flquad_accurate",
    "flquad_linear",
    "flquad_double",
    "flquad_underflow_refuted",
    "flquad_overflow_refuted",
    "flquad_large_b_refuted"
   ],
   "note": "All claims in the statement proved, including the stated violations (_refuted)."
  },
  {
   "property": "C85",
   "status": "proved",
   "theorems": [
    "flvec_symmetric",
    "flvec_dot_accurate",
    "flvec_mag_accurate",
    "flvec_unit_accurate",
    "flvec_dist_accurate",
    "flvec_with_length_accurate",
    "flvec_cosine_accurate",
    "flvec_cosine_range",
    "flvec_cosine_zero",
    "flvec_cross_accurate",
    "flvec_unit_large_refuted",
    "flvec_unit_small_refuted"
   ],
   "note": "All claims in the statement proved, including the stated violations (_refuted)."
  },
  {
   "property": "C86",
   "status": "proved",
   "theorems": [
    "flutil_clamp",
    "flutil_vector_clamp",
    "flutil_mix",
    "flutil_interp_linear",
    "flutil_ceil_floor",
    "flutil_snap",
    "flutil_snap_multiple",
    "flutil_positive_mod",
    "flutil_angle_to",
    "flutil_vector_clamp_nan_refuted",
    "flutil_mix_between_refuted",
    "flutil_mix_monotone_refuted",
    "flutil_snap_range_refuted",
    "flutil_angle_range_refuted"
   ],
   "note": "All claims in the statement proved, including the stated violations (_refuted)."
  },
  {
   "property": "C87",
   "status": "proved",
   "theorems": [
    "flrand_unit",
    "flrand_calls",
    "flrand_below",
    "flrand_range",
    "flrand_range_exact",
    "flrand_range_refuted",
    "flrand_range_overflow_refuted"
   ],
   "note": "All claims in the statement proved, including the stated violations (_refuted)."
  },
  {
   "property": "C88",
   "status": "proved",
   "theorems": [
    "flconv_pi",
    "flconv_radians",
    "flconv_degrees",
    "flconv_round_trip",
    "flconv_monotone",
    "flconv_right_angles",
    "flconv_round_trip_refuted",
    "flconv_radians_overflow_refuted",
    "flconv_interp_cubic",
    "flconv_interp_cubic_node",
    "flconv_interp_cubic_end_refuted",
    "flconv_interp_cubic_constant_refuted"
   ],
   "note": "All claims in the statement proved, including the stated violations (_refuted)."
  },
  {
   "property": "C89",
   "status": "proved",
   "theorems": [
    "perlin_construction",
    "perlin_construction_line",
    "perlin_range",
    "perlin_range_table",
    "perlin_range_attained",
    "perlin_construction_refuted"
   ],
   "note": "All claims in the statement proved, including the stated violations (_refuted)."
  },
  {
   "property": "C90",
   "status": "proved",
   "theorems": [
    "matrix_iteration",
    "matrix_iteration_refuted",
    "region_iteration",
    "region_upper_refuted",
    "region_whole_refuted",
    "region_documented_refuted",
    "region_writing",
    "matrix_random_access",
    "matrix_random_access_refuted",
    "matrix_backwards_refuted",
    "column_iteration",
    "column_arithmetic",
    "column_equality"
   ],
   "note": "All claims in the statement proved, including the stated violations (_refuted)."
  },
  {
   "property": "C91",
   "status": "proved",
   "theorems": [
    "flmtx_mul_accurate",
    "flmtx_mul_acc_accurate",
    "flmtx_vec_accurate",
    "flmtx_vec_acc_accurate",
    "flmtx_mul_finite",
    "flmtx_mul_integers",
    "flmtx_mul_transpose",
    "flmtx_identity",
    "flmtx_identity_refuted",
    "flxf_translation",
    "flxf_scale",
    "flxf_translation_back",
    "flxf_translation_infinite_refuted",
    "flxf_apply_accurate",
    "flxf_inverse_accurate",
    "flxf_composition_accurate",
    "flxf_translation_back_refuted",
    "flxf_composition_refuted"
   ],
   "note": "All claims in the statement proved, including the stated violations (_refuted)."
  },
  {
   "property": "C92",
   "status": "proved",
   "theorems": [
    "flbox_contains",
    "flbox_contains_nan_refuted",
    "flbox_is_empty",
    "flbox_default_identity",
    "flbox_union",
    "flbox_intersection",
    "flbox_spanning",
    "flbox_clip",
    "flbox_translate",
    "flbox_scale",
    "flbox_minkowski",
    "flbox_dilated",
    "flbox_center",
    "flbox_center_refuted",
    "flbox_dimensions",
    "flbox_from_center",
    "flbox_unmap",
    "flbox_remap",
    "flbox_ray_inside",
    "flbox_ray_interval",
    "flbox_remap_outside_refuted"
   ],
   "note": "All claims in the statement proved, including the stated violations (_refuted)."
  },
  {
   "property": "C93",
   "status": "proved",
   "theorems": [
    "ibox_dimensions",
    "ibox_center",
    "ibox_default_refuted",
    "ibox_center_refuted",
    "ibox_volume",
    "ibox_volume_refuted",
    "ibox_translate",
    "ibox_translate_back",
    "ibox_scale",
    "ibox_dilated",
    "ibox_from_center",
    "ibox_from_corner",
    "ibox_set_dimensions",
    "ubox_exact",
    "ubox_wraps_refuted"
   ],
   "note": "All claims in the statement proved, including the stated violations (_refuted)."
  },
  {
   "property": "C94",
   "status": "proved",
   "theorems": [
    "machine_edge",
    "machine_index",
    "machine_size",
    "machine_mirror_lowest_refuted",
    "machine_periodic_refuted",
    "machine_mirror_narrow_refuted",
    "machine_walk",
    "machine_walk_refuted",
    "machine_distance",
    "machine_advance",
    "machine_advance_refuted"
   ],
   "note": "All claims in the statement proved, including the stated violations (_refuted)."
  },
  {
   "property": "C95",
   "status": "proved",
   "theorems": [
    "flq_product_accurate",
    "flq_product_finite",
    "flq_product_integers",
    "flq_conjugate",
    "flq_identity",
    "flq_identity_infinite_refuted",
    "flq_rotation_accurate",
    "flq_rotation_length",
    "flq_round_trip",
    "flq_round_trip_refuted",
    "flq_rotation_overflow_refuted"
   ],
   "note": "All claims in the statement proved, including the stated violations (_refuted)."
  },
  {
   "property": "C96",
   "status": "proved",
   "theorems": [
    "flsph_contains_accurate",
    "flsph_contains_monotone",
    "flsph_contains_center",
    "flsph_contains_nan",
    "flsph_contained_sdf",
    "flsph_sdf_accurate",
    "flsph_bounds",
    "flpl_side",
    "flpl_through",
    "flsph_sdf_contained_refuted",
    "flsph_contains_tiny_refuted",
    "flsph_contains_huge_refuted",
    "flsph_contained_bounds_refuted"
   ],
   "note": "All claims in the statement proved, including the stated violations (_refuted)."
  },
  {
   "property": "C97",
   "status": "proved",
   "theorems": [
    "flray_from_inside",
    "flray_from_outside",
    "flray_decides",
    "flray_tiny_direction_refuted",
    "flray_overflow_refuted",
    "flray_far_miss_refuted"
   ],
   "note": "All claims in the statement proved, including the stated violations (_refuted)."
  },
  {
   "property": "C98",
   "status": "proved",
   "theorems": [
    "fldet2_accurate",
    "flinv2_singular",
    "flinv2_accurate",
    "fldet3_accurate",
    "flinv3_refuses",
    "flinv3_accurate",
    "flinv3_singular_refuted",
    "flinv3_regular_refuted",
    "flinv2_overflow_refuted",
    "flinv2_underflow_refuted"
   ],
   "note": "All claims in the statement proved, including the stated violations (_refuted)."
  },
  {
   "property": "C99",
   "status": "proved",
   "theorems": [
    "flchol_success",
    "flchol_failure",
    "flchol_lower",
    "flchol_singular_refuted",
    "flchol_definite_refuted"
   ],
   "note": "All claims in the statement proved, including the stated violations (_refuted)."
  }
 ]
}