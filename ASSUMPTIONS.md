# What `Print Assumptions` lists for each theorem of MANIFEST.json

Grouped by the set of axioms; all are of the standard library.

## Closed under the global context

* C01: deque_refines_list
* C02: deque_index_wraps, deque_index_empty_undefined
* C03: deque_copy_isolated, deque_copy_assign_isolated, deque_copy_ctor_refuted
* C04: deque_move_transfers, deque_refines_list, deque_self_move_refuted
* C05: small_refines_list, small_growth_refuted, small_push_full_refuted
* C06: small_move_transfers, small_move_ctor_refuted, small_self_move_refuted
* C07: unique_storage_refines_list, unique_storage_static_bounds
* C08: positive_mod_signed, positive_mod_signed_half, positive_mod_signed_overflow_refuted, positive_mod_unsigned, positive_mod_unsigned_refuted
* C09: ceil_div_correct_iff, floor_div_correct_iff, ceil_floor_div_refuted, snap_next_multiple, ceil_div_unsigned, floor_div_unsigned
* C10: is_power_of_two_signed, is_power_of_two_unsigned
* C11: lcg_full_period
* C12: xoshiro_bijective, xoshiro_never_zero, xoshiro_seeded_nonzero, splitmix64_bijective, xoshiro_entropy_seed_refuted, xoshiro_seeds_distinct
* C13: bounded_draw_uniform, bounded_draw_first_accepted, int_range_draw, bounded_draw_uniform_refuted
* C14: reseed_words_reproducible, reseed_reproducible_empty_pool, reseed_bools_refuted, reseed_bools_lcg_refuted
* C15: hash_combine_injective, hash_combine_onto, hash_array_last_injective, hash_many_last_injective, hash_array_first_refuted
* C16: siphash_is_siphash24_64, siphash_is_siphash24_128, hash_bytes_128_is_siphash, sipround_injective
* C17: grid_visits_every_cell_once, grid_empty_region_refuted, grid1_visits_every_cell_once, grid1_corners_refuted
* C18: grid_distance_counts_increments, grid_decrement_inverts_iff, grid_advance_is_absolute, grid_advance_from_begin, grid_advance_refuted, grid1_arithmetic
* C19: layout_index_bijective, row_iterator_addresses, col_iterator_addresses, row_iterator_contiguous, col_iterator_contiguous, transpose_iterator_arithmetic
* C20: edge_behaviours, mirror_laws_determine, mirror_single_sample_refuted, raster_index_bijective, sample_any_coordinate, sample_inside, raster_set, raster_set_outside, raster_new, constant_outside, constant_outside_refuted, raster_copy, raster_of_data
* C21: rect_contains, rect_is_empty, rect_intersection, rect_union_contains, rect_union_smallest, rect_union_in_place, rect_contains_box, rect_spanning_smallest, rect_from_points, rect_from_no_points, rect_cartesian, rect_clip_inside, rect_clip_fixes
* C22: rect_intersects_sound, rect_intersects_misses_iff_touching, rect_intersects_interior, rect_intersects_refuted, rect_intersects_empty_refuted, rect_contains_empty_box, rect_contains_empty_refuted, rect_exclusion_refuted, rect_exclusion_modifies_operand_refuted
* C25: permutation_matrix_inverse_maps, permutation_matrix_elements, permutation_matrix_operations, permutation_matrix_sign, permutation_matrix_sign_defined, permutation_matrix_sign_refuted, permutation_matrix_swap_self_refuted
* C26: permutation_apply_correct, destructive_apply_permutation_correct, permutation_apply_identity_refuted
* C27: parity_well_defined, permutation_sign_value, permutation_sign_correct_iff, permutation_sign_refuted, compute_sign_correct
* C28: plu_factors, plu_tall_error, plu_tall_refuted, plu_degenerate_singular, plu_nonsingular_pivots, lup_factors, lup_degenerate_refuted
* C29: linear_solve_solves, linear_solve_failure, linear_solve_skips, backsolve_plu_solves, linear_solve_small_solves, linear_solve_singular_refuted
* C30: det_zero_iff_singular, closed_form_determinants, closed_form_inverses, flat_inverses, inverse_general, inverse_singular_refuted, transpose_square_transposes
* C31: plu_determinant, determinant_general_refuted, determinant_one, determinant_degenerate, determinant_diagonal, determinant_permutation, determinant_diagonal_oblong
* C34: dense_product, matrix_vector_product, vector_matrix_product, matrix_diagonal_product, matrix_wide_diagonal_refuted, diagonal_matrix_product_refuted, permutation_matrix_product, matrix_permutation_product, permutation_vector_product, permutation_product, permutation_product_sign_refuted, permutation_product_dense_refuted
* C39: policy_conversion_refuted
* C41: deque_push_own_element_with_room, deque_push_own_element_refuted
* C42: mt_recurrence, mt_first_block
* C43: float_in_unit_interval, double_in_unit_interval, float_exponent_flips, float_exponent_distribution
* C44: domain_to_grid, nearest_sample_refuted, linear_parameter_refuted
* C46: rect_from_center_int, rect_center_int_refuted, rect_negative_length_int_refuted, rect_from_corner_int, rect_set_dimensions_int, rect_set_dimensions_int_refuted
* C48: rect_contact_vector, rect_contact_vector_shortest, rect_contact_vector_closes_gap
* C49: orthogonal_low, orthogonal_high, orthogonal_high_refuted, nullspace_general, nullspace_refuted, nullspace_last_refuted
* C50: product_shared_storage, product_overlap_refuted, accumulate_disjoint, accumulate_shared_refuted
* C51: transpose_in_place, transpose_same_type, transpose_other_type, transpose_shared_refuted, transpose_shared_layouts, transpose_shared_square_refuted
* C74: simplex_insert_appends
* C78: permute_rearranges, permute_uniform
* C79: tree_children, tree_connected, tree_item_counts, tree_items_owned, tree_items_owned_once, tree_insert_child, tree_insert_child_refuses, tree_append_child, tree_insert_item, tree_append_item, tree_insert_item_refuses, tree_split, tree_split_refuses, tree_erase, tree_erase_refuses, tree_find_parent, tree_query, tree_flatten, tree_flatten_refuted, tree_clear_refuted, tree_of_range_refuted, tree_equal_refl, tree_equal_iff, tree_items_refuted, tree_find_parent_refuted, tree_order_refuted, tree_query_refuted, tree_equal_refuted, tree_equal_different_refuted, tree_split_order_refuted
* C81: flat_element, flat_transposed_view, flat_zero, flat_times, flat_identity_rows, flat_identity_cols, flat_new_refuted, flat_new, flat_copy, flat_clear_cases, flat_copy_own_view_refuted, flat_construct, flat_construct_refuted, flat_from_array, flat_from_array_refuted, flat_add, flat_sub, flat_scale, diag_into_dense, diag_into_diag, diag_new, diag_new_refuted, flat_equal, diag_equal, permutation_equal, flat_empty, flat_empty_refuted
* C83: storage_policies, storage_shared_copy, storage_own_copy, storage_fixed_source_refuted, storage_fixed_overflow_refuted, storage_moved_size_refuted, storage_wrapped_null_refuted
* C90: matrix_iteration, matrix_iteration_refuted, region_iteration, region_upper_refuted, region_whole_refuted, region_documented_refuted, region_writing, matrix_random_access, matrix_random_access_refuted, matrix_backwards_refuted, column_iteration, column_arithmetic, column_equality
* C92: flbox_contains_nan_refuted
* C93: ibox_dimensions, ibox_center, ibox_default_refuted, ibox_center_refuted, ibox_volume, ibox_volume_refuted, ibox_translate, ibox_translate_back, ibox_scale, ibox_dilated, ibox_from_center, ibox_from_corner, ibox_set_dimensions, ubox_exact, ubox_wraps_refuted
* C94: machine_edge, machine_index, machine_size, machine_mirror_lowest_refuted, machine_periodic_refuted, machine_mirror_narrow_refuted, machine_walk, machine_walk_refuted, machine_distance, machine_advance, machine_advance_refuted

## `ClassicalDedekindReals.sig_forall_dec`

* C54: vec_resized_spec
* C62: zonal_dot_spec, zonal_dot_bounds_refuted
* C64: sh_convolve_scales
* C74: simplex_exclude_drops, simplex_constructors

## `ClassicalDedekindReals.sig_forall_dec`, `FunctionalExtensionality.functional_extensionality_dep`

* C21: rect_clip_nearest, rect_distance, rect_convex_support
* C22: rect_project_interval
* C23: rect_remap_unmap, rect_remap_unit_box
* C24: rect_ray_intersection, rect_ray_empty_refuted, rect_ray_empty_witness_refuted
* C33: orthogonalize_orthogonal, orthogonalize_independent, orthogonalize_2d_refuted, project_orthogonal_nearest
* C35: quaternion_algebra, quaternion_rotates, quaternion_composition, quaternion_align_refuted
* C36: align_rotates
* C37: inverse_applies, vector_is_difference, translation_translates, scale_scales, transformation_multiplies, transformation_singular_refuted
* C38: direction_align_maps, direction_align_isometry, direction_align_opposite_refuted
* C39: min_at_tie, max_at_tie, abs_at_zero, abs_at_zero_refuted, scalar_minus_dual_refuted, max_value_refuted, dual_multiply_by_itself_refuted, dual_divide_by_itself_refuted
* C40: eval_is_noise, gradient_is_derivative, gradient_directional, noise_continuous, cells_agree, zero_at_lattice_points, noise_bounded, eval_overflow_refuted, eval_overflow_1d_refuted, gradient_1d_refuted, noise_repeats_refuted, noise_repeats_1d_refuted, noise_repeats_2d_refuted
* C45: rect_translate, rect_scale, rect_scale_empty_refuted, rect_minkowski, rect_dilated, rect_point_minus_rect_refuted
* C46: rect_from_center_real, rect_from_corner_real, rect_set_dimensions_real
* C47: rect_fitted_to
* C54: fraction_on_spec, vec_equality, extreme_elements, extreme_indices, elementwise_min_max, clamp_is_nearest, clamp_crossed
* C55: at_multiple_is, ray_project_on_ray_refuted, ray_dist2_wrong_values, transformed_ray, ray_resized_spec
* C57: mix_endpoints, interp_linear_is_multilinear, interp_linear_corner, interp_linear_between, interp_linear_no_axis_refuted, interp_cubic_hermite, interp_cubic_quadratic, interp_cubic_is_tensor, interp_cubic_corner
* C58: real_positive_mod, real_positive_mod_negative_refuted, snap_up, snap_negative_refuted, clamp_nearest, clamp_bounds_crossed, real_divisions
* C59: legendre_values, legendre_integral_spec
* C61: path_eval_defined, path_extrapolate_refuted, path_empty, path_through_knots, path_smooth, path_between, path_before, path_after, path_append
* C62: zonal_eval_spec, zonal_lambertian_order_refuted, zonal_spot, zonal_project_refuted
* C64: sh_normalize_spec
* C66: plane_contains_shape_exact, plane_intersects_shape_exact, plane_touch_refuted, plane_hull_refuted
* C69: default_bounds_tight
* C71: extruded_contains_exact, extruded_support_extreme, extruded_bounds_tight, extruded_ray_exact
* C72: frustum_contains_exact, frustum_support_extreme, frustum_bounds_tight, frustum_ray_aside, frustum_ray_into_refuted, frustum_ray_vertical_refuted, frustum_ray_tip, frustum_ray_tip_refuted, frustum_ray_level_refuted
* C73: oriented_contains_exact, oriented_support_extreme, oriented_bounds_tight, oriented_ray_exact, oriented_box_holds, oriented_rect_exact, oriented_rect_volume_refuted, orient_operators
* C74: simplex_eq_exact, simplex_transform_exact, standard_simplex_exact, simplex_support_extreme, simplex_contains_exact, simplex_degenerate_refuted, simplex_ray_sound, simplex_ray_graze_refuted, simplex_ray_few, simplex_facing_exact, simplex_facing_triangle_refuted, simplex_volume_exact, simplex_volume_refuted
* C75: simplex_normal_unit_refuted
* C76: gjk_total, gjk_degenerate_flag_refuted
* C77: obox_miss_divided, oboxes_miss_divided, obox_touching_refuted, obox_touching_inconsistent_refuted
* C78: cube_points, box_inside, box_uniform, rect_samples
* C80: lattice_bin, lattice_size, lattice_query_block, lattice_query, lattice_query_refuted
* C95: flq_conjugate

## `ClassicalDedekindReals.sig_forall_dec`, `ClassicalDedekindReals.sig_not_dec`, `FunctionalExtensionality.functional_extensionality_dep`

* C22: rect_project_refuted, rect_sdf_corner, rect_sdf_interval
* C32: cholesky_decides, cholesky_factors, cholesky_square, cholesky_asymmetric_refuted
* C33: orthonormalize_orthonormal, project_subspace_nearest
* C35: axis_angle_rotation, rodrigues_sane
* C36: rotate_axis_right_iff, rotate_axis_error, rotate_axis_refuted, rotate_center_error, rotate_center_refuted
* C37: transform_carries_inverse, transform_round_trip, composition_order, division_order, normal_stays_perpendicular, rotation_turns, rotation_about_turns, rotmat_about_point_turns, rotation_quat_turns, axis_rotations_turn, rotation_2d_turns, resized_applies, resized_inverse_refuted, divide_by_itself_refuted
* C39: exp_derivative_refuted, tan_derivative_refuted
* C52: rotation_2d
* C54: dot_mag_spec, dist_is_metric, unit_spec, project_on_spec, with_length_is, mix_is_linear
* C55: at_distance_is, ray_project_spec, ray_dist2_refuted
* C56: quadratic_solve_false, quadratic_solve_roots
* C58: angle_to_shortest, degrees_radians
* C60: chebyshev_first_kind, chebyshev_second_kind
* C62: zonal_convolve_spec, zonal_convolve_bounds_refuted
* C64: sh_pointwise, sh_add_truncates, zonal_of_sh_refuted
* C65: sphere_contains_ball, sphere_support_extreme, sphere_signed_distance, sphere_project_nearest, sphere_normal_outward, sphere_bounds_tight, sphere_ray_interval, sphere_intersects_exact, sphere_intersects_refuted, sphere_rect_exact, sphere_rect_refuted, sphere_ray_still_refuted
* C66: plane_through_point, plane_of_simplex_low, plane_of_simplex_high, plane_of_simplex_high_refuted, plane_queries, plane_sphere_refuted, plane_transform_exact, plane_translation_refuted
* C67: capsule_contains_exact, capsule_signed_distance, capsule_support_extreme, capsule_bounds_tight, capsule_intersects_exact
* C68: cylinder_contains_exact, cylinder_contains_cap_refuted, cylinder_sdf_outside, cylinder_sdf_inside_refuted, cylinder_project_nearest, cylinder_project_axis_refuted, cylinder_normal_outward, cylinder_normal_beyond_refuted, cylinder_bounds_tight, cylinder_support_extreme, cylinder_support_axis_refuted, cylinder_ray_exact, cylinder_ray_wall_refuted
* C69: default_contains_exact, default_sdf_exact, default_normal_direction, default_clip_nearest
* C70: dilated_sdf_exact, dilated_contains_interior, dilated_contains_surface_refuted, dilated_support_extreme, dilated_bounds_tight, dilated_project_exact, dilated_normal_agrees, dilate_plane_refuted, roundrect_extents
* C71: extruded_sdf_exact
* C72: frustum_ray_into
* C74: simplex_measure_exact, simplex_measure_refuted
* C75: simplex_clip_nearest, simplex_project_flat_nearest, simplex_project_nearest, simplex_sdf_exact, simplex_sdf_flat, simplex_normal_direction, simplex_normal_outward_refuted
* C76: gjk_miss_separated, gjk_touching_hit, gjk_apart_miss, gjk_iteration_limit_refuted, gjk_tangent_spheres_refuted, gjk_reuse_refuted
* C77: obox_overlap_hit, oboxes_overlap_hit, obox_empty_refuted
* C78: ball_first_inside, sphere_direction, sphere_radius_length, sphere_center_refuted, cap_on_sphere, disk_inside, disk_scaled, arc_in_range, solidarc_refuted
* C89: perlin_construction, perlin_construction_line, perlin_range, perlin_range_table, perlin_range_attained, perlin_construction_refuted

## `ClassicalDedekindReals.sig_forall_dec`, `Classical_Prop.classic`, `FunctionalExtensionality.functional_extensionality_dep`

* C74: simplex_facet_ray_refuted

## `ClassicalDedekindReals.sig_forall_dec`, `ClassicalDedekindReals.sig_not_dec`, `Classical_Prop.classic`, `FunctionalExtensionality.functional_extensionality_dep`

* C100: flsolve_residual, flsolve_skip, flsolve_columns, flsolve_permuted, flsolve_overflow_refuted, flsolve_digits_refuted
* C101: flplu_accurate, flplu_order, flplu_multipliers, flplu_pivots, flplu_regular_refuted, flplu_singular_refuted
* C102: flsys_residual, flsys_answers, flsys_refusal, flsys_skip, flsys_columns, flsys_singular_refuted, flsys_regular_refuted, flsys_last_refuted
* C103: flup_accurate, flup_order, flup_pivots, flup_degenerate_refuted, flup_overflow_refuted
* C104: flinvn_residual, flinvn_pivots, flinvn_flag, flinvn_refusal, flinvn_overwrites, flinvn_singular_refuted, flinvn_regular_refuted, flinvn_last_refuted
* C105: florth_dots, florth_last, florth_zero, florth_independent_refuted, florth_dependent_refuted, florth_nan_refuted
* C106: flnull_dots, flnull_unit, flnull_false, flnull_independent_refuted, flnull_dependent_refuted, flnull_nan_refuted
* C107: flproj_fraction, flproj_project, flproj_zero, flproj_small_refuted, flproj_large_refuted
* C108: flgs_kept, flgs_step, flgs_chain, flgs_neighbours, flgs_orthogonal_refuted, flgs_short_refuted
* C109: flon_plane, flon_overloads, flon_unit, flon_length, flon_orthogonal_refuted, flon_dependent_refuted
* C110: flsub_sum, flsub_basis, flsub_inside_refuted
* C35: axis_angle_round_trip, angular_velocity_round_trip, quaternion_exp_log, quaternion_powers, quaternion_real_log_refuted
* C39: expression_derivative_exact, finite_result_is_right, partial_derivative, program_derivative_exact, pow_derivative_refuted, pow_at_zero_refuted, scalar_pow_value_refuted
* C52: polar_angle, from_polar_refuted
* C53: spherical_round_trip, spherical_round_trip_back
* C54: angle_to_spec, angle_to_symmetric
* C59: legendre_rodrigues, legendre_orthogonal, legendre_norm, assoc_legendre_spec, assoc_legendre_zero, assoc_legendre_high_refuted
* C62: zonal_fn_integral, zonal_lambertian, zonal_product_integral, zonal_dot_integral_refuted, zonal_convolve_refuted, zonal_diffuse_spec, zonal_normalize_refuted
* C63: sh_basis_function, sh_basis_orthonormal, sphere_integral_unique, sh_fill_column
* C64: sh_eval_sum, sh_eval_direction, sh_project_adds, sh_basis_dot, sh_dot_integral, sh_coefficient_integral, sh_total, sh_of_zonal_same, sh_convolve_refuted, sh_normalize_refuted, sh_add_const_refuted, sh_of_zonal_axis_spec, sh_of_zonal_axis_refuted
* C71: extruded_project_exact, extruded_normal_agrees
* C77: obox_apart_missed, oboxes_apart_missed
* C78: ball_radius_inside, ball_radius_uniform_refuted, shell_inside, shell_uniform, shell_uniform_refuted, cap_uniform, cap_about_direction, cap_about_height, cap_about_down_refuted, solidcap_inside, solidcap_uniform_refuted, oriented_disk_perpendicular
* C82: diff_of_products_accurate, sum_of_products_accurate, products_finite, multiply_add_correctly_rounded, mix_exact_at_ends, diff_of_products_tiny_refuted, diff_of_products_large_refuted, positive_mod_range_refuted
* C84: flquad_decides, flquad_accurate, flquad_linear, flquad_double, flquad_underflow_refuted, flquad_overflow_refuted, flquad_large_b_refuted
* C85: flvec_symmetric, flvec_dot_accurate, flvec_mag_accurate, flvec_unit_accurate, flvec_dist_accurate, flvec_with_length_accurate, flvec_cosine_accurate, flvec_cosine_range, flvec_cosine_zero, flvec_cross_accurate, flvec_unit_large_refuted, flvec_unit_small_refuted
* C86: flutil_clamp, flutil_vector_clamp, flutil_mix, flutil_interp_linear, flutil_ceil_floor, flutil_snap, flutil_snap_multiple, flutil_positive_mod, flutil_angle_to, flutil_vector_clamp_nan_refuted, flutil_mix_between_refuted, flutil_mix_monotone_refuted, flutil_snap_range_refuted, flutil_angle_range_refuted
* C87: flrand_unit, flrand_calls, flrand_below, flrand_range, flrand_range_exact, flrand_range_refuted, flrand_range_overflow_refuted
* C88: flconv_pi, flconv_radians, flconv_degrees, flconv_round_trip, flconv_monotone, flconv_right_angles, flconv_round_trip_refuted, flconv_radians_overflow_refuted, flconv_interp_cubic, flconv_interp_cubic_node, flconv_interp_cubic_end_refuted, flconv_interp_cubic_constant_refuted
* C91: flmtx_mul_accurate, flmtx_mul_acc_accurate, flmtx_vec_accurate, flmtx_vec_acc_accurate, flmtx_mul_finite, flmtx_mul_integers, flmtx_mul_transpose, flmtx_identity, flmtx_identity_refuted, flxf_translation, flxf_scale, flxf_translation_back, flxf_translation_infinite_refuted, flxf_apply_accurate, flxf_inverse_accurate, flxf_composition_accurate, flxf_translation_back_refuted, flxf_composition_refuted
* C92: flbox_contains, flbox_is_empty, flbox_default_identity, flbox_union, flbox_intersection, flbox_spanning, flbox_clip, flbox_translate, flbox_scale, flbox_minkowski, flbox_dilated, flbox_center, flbox_center_refuted, flbox_dimensions, flbox_from_center, flbox_unmap, flbox_remap, flbox_ray_inside, flbox_ray_interval, flbox_remap_outside_refuted
* C95: flq_product_accurate, flq_product_finite, flq_product_integers, flq_identity, flq_identity_infinite_refuted, flq_rotation_accurate, flq_rotation_length, flq_round_trip, flq_round_trip_refuted, flq_rotation_overflow_refuted
* C96: flsph_contains_accurate, flsph_contains_monotone, flsph_contains_center, flsph_contains_nan, flsph_contained_sdf, flsph_sdf_accurate, flsph_bounds, flpl_side, flpl_through, flsph_sdf_contained_refuted, flsph_contains_tiny_refuted, flsph_contains_huge_refuted, flsph_contained_bounds_refuted
* C97: flray_from_inside, flray_from_outside, flray_decides, flray_tiny_direction_refuted, flray_overflow_refuted, flray_far_miss_refuted
* C98: fldet2_accurate, flinv2_singular, flinv2_accurate, fldet3_accurate, flinv3_refuses, flinv3_accurate, flinv3_singular_refuted, flinv3_regular_refuted, flinv2_overflow_refuted, flinv2_underflow_refuted
* C99: flchol_success, flchol_failure, flchol_lower, flchol_singular_refuted, flchol_definite_refuted
