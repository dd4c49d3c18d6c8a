[
[
[],
[
"C01_compact_inverts_expand",
"C01_expand_interleaves",
"C01_morton_32",
"C01_morton_64",
"C02_hash32_bijection",
"C02_hash64_bijection",
"C02_hash_combine_injective",
"C02_twang_bijection",
"C03_binary_reverse",
"C03_bit_length",
"C03_bit_pack",
"C03_bit_pack_spread_undefined_refuted",
"C03_bit_spread",
"C03_count_leading_zeros",
"C03_interleaved_bit_mask",
"C03_is_bit_on",
"C03_next_2pow",
"C03_next_2pow_top_undefined",
"C03_next_power_of_two",
"C03_num_bits_on",
"C03_round_down",
"C03_round_up",
"C03_spread_pack_roundtrip_partial",
"C04_all_on_missed_refuted",
"C04_countOffset_end_refuted",
"C04_equality_padding_refuted",
"C04_least_from_meaning",
"C04_mask_is_index_set_partial",
"C04_padding_leaks_refuted",
"C04_whole_queries_partial",
"C05_ring_counters_bounded",
"C05_ring_refines_bounded_deque",
"C05_ring_size1_head_bounded_refuted",
"C06_string_concat",
"C06_string_equality",
"C06_string_from_cstr",
"C06_string_from_object",
"C06_string_size",
"C07_no_double_delete",
"C07_no_leak",
"C07_owned_is_alive",
"C07_unique_owner",
"C08_failure_poisons_refuted",
"C08_fitting_request_served_partial",
"C08_free_then_reuse",
"C08_live_blocks_ok",
"C08_zero_size_free_refuted",
"C09_arena_commit_stays_resident",
"C09_arena_evict_local",
"C09_arena_residency_exact",
"C09_beyond_reserve_refuted",
"C09_stack_commit_evict",
"C09_stack_residency_exact",
"C101_literal",
"C101_octal_refuted",
"C101_separators",
"C102_monoids",
"C102_parts",
"C102_scan",
"C102_shuffle",
"C103_compwise",
"C103_copy_partial",
"C103_copy_refuted",
"C103_extent_refuted",
"C103_fill",
"C103_identity_channels",
"C103_identity_partial",
"C103_identity_refuted",
"C103_iterate",
"C103_mismatch",
"C103_read",
"C103_read_vector",
"C103_unary",
"C103_write",
"C103_write_vector_partial",
"C103_write_vector_refuted",
"C104_dispatch",
"C104_silent",
"C105_extend",
"C105_marks",
"C105_refit_partial",
"C105_refit_refuted",
"C105_room",
"C106_domain",
"C106_endless",
"C106_returns",
"C106_room",
"C107_distinct",
"C107_fewer",
"C107_root",
"C107_slice",
"C107_subscript",
"C107_val",
"C107_window",
"C108_affine",
"C108_cell",
"C108_component_partial",
"C108_component_refuted",
"C108_face_affine",
"C108_face_read",
"C108_four",
"C108_range",
"C108_read",
"C109_matrix",
"C109_reset",
"C109_reset_partial",
"C109_reset_refuted",
"C109_rotate",
"C109_roundtrip",
"C109_scale",
"C109_scale_uniform",
"C109_size_partial",
"C109_size_refuted",
"C109_skew_refuted",
"C109_translate",
"C109_velocity",
"C109_velocity_partial",
"C109_velocity_refuted",
"C10_aligned_resize_capacity",
"C10_push_back_own_element_refuted",
"C10_reorder_elements_partial",
"C10_reorder_keeps_size_refuted",
"C10_reorder_size_mismatch_throws",
"C10_vector_is_sequence",
"C110_back",
"C110_box",
"C110_box_tight",
"C110_cell",
"C110_face",
"C110_face_back",
"C110_face_position",
"C110_staggered_refuted",
"C111_level_set",
"C111_level_set_refuted",
"C111_origin",
"C111_projective_refuted",
"C111_rotate",
"C111_roundtrip",
"C111_scale",
"C111_translate",
"C111_turn_partial",
"C111_turn_refuted",
"C111_voxel",
"C112_preserve_partial",
"C112_preserve_refuted",
"C112_preserve_same",
"C112_resize",
"C112_resize_insert",
"C113_bijection",
"C113_offset",
"C113_prefix",
"C113_reshape",
"C113_size",
"C113_unchecked_refuted",
"C113_write",
"C114_copy",
"C114_empty_refuted",
"C114_no_leak",
"C114_ownership",
"C114_values",
"C115_deadlock_refuted",
"C115_destroyed_partial",
"C115_flush_partial",
"C115_flush_refuted",
"C115_join_refuted",
"C115_joins_partial",
"C115_late_refuted",
"C115_order",
"C115_progress",
"C115_race_refuted",
"C115_wakeup",
"C11_addresses_distinct_in_range",
"C11_copy_without_channels_refuted",
"C11_every_operation_runs",
"C11_property_ranges_partition_channels",
"C11_reorder_partial_tile_drops_element_refuted",
"C11_step_outcome",
"C11_tilevector_is_table",
"C12_callbacks_registered_partial",
"C12_callbacks_registered_refuted",
"C13_collapse_enumerates_box_partial",
"C13_collapse_nonnegative_extents",
"C13_collapse_zero_inner_extent_refuted",
"C13_lex_increasing_once",
"C14_seq_exclusive_scan_inplace_refuted",
"C14_seq_exclusive_scan_partial",
"C14_seq_inclusive_scan",
"C14_seq_reduce",
"C15_omp_inclusive_scan_noncommutative_refuted",
"C15_omp_inclusive_scan_partial",
"C16_omp_exclusive_scan_init_refuted",
"C16_omp_exclusive_scan_partial",
"C17_omp_reduce_init_refuted",
"C17_omp_reduce_partial",
"C18_seq_merge_sort_stable",
"C18_stable_sort_unique",
"C19_omp_merge_sort_even_split_partial",
"C19_omp_merge_sort_stable_partial",
"C19_omp_merge_sort_stable_refuted",
"C20_seq_radix_sort_numeric",
"C20_seq_radix_sort_stable",
"C21_omp_radix_sort_equals_seq",
"C22_sort_pair_ascending_by_less_partial",
"C22_sort_pair_comparator_refuted",
"C23_final_value_is_fold",
"C23_float_add_indivisible",
"C23_float_max_loses_update_refuted",
"C23_float_minmax_indivisible_partial",
"C23_integer_atomics_indivisible",
"C23_signed_atomics_indivisible",
"C24_rbtree_map_count_empty_refuted",
"C24_rbtree_map_count_nonempty",
"C24_rbtree_map_is_finite_map",
"C25_rbtree_map_balanced",
"C25_rbtree_map_search_cost",
"C26_const_reverse_decrement_refuted",
"C26_rbtree_map_erase_through_iterators",
"C26_rbtree_map_ordered_access",
"C27_failure_unflagged_refuted",
"C27_insertion_is_safe_and_wait_free",
"C27_insertion_numbers_each_key_once",
"C27_sentinel_key_refuted",
"C27_wide_key_slot_accesses_indivisible",
"C28_query_is_position_in_active_keys",
"C29_resize_keeps_dictionary_partial",
"C29_resize_loses_keys_refuted",
"C30_active_keys_overrun_refuted",
"C30_dictionary_partial",
"C30_failure_drops_one_key",
"C30_first_and_later_insertions_partial",
"C30_lost_key_refuted",
"C30_new_key_gets_next_number_partial",
"C30_reinsertion_refuted",
"C30_reserved_key_refuted",
"C30_resize_keeps_dictionary_partial",
"C31_insert_into_full_table_diverges",
"C31_insertions_number_the_keys",
"C31_query_finds_inserted_keys_partial",
"C31_query_out_of_bounds_refuted",
"C32_box_query_reports_shared_cells",
"C32_empty_build_refuted",
"C32_flat_box_refuted",
"C32_overlapping_boxes_are_reported_partial",
"C32_point_on_upper_face_refuted",
"C32_point_query_partial",
"C33_build_lays_out_tree_in_preorder",
"C34_iter_neighbors_exact",
"C34_monotone_query",
"C34_nearest_point",
"C34_subtree_query",
"C35_pairs_itself_refuted",
"C35_self_pairs_once_partial",
"C35_self_pairs_small",
"C36_refit_boxes_every_schedule",
"C37_build_total",
"C37_iter_neighbors_exact",
"C37_locate",
"C37_refit_total",
"C37_self_pairs_exact",
"C38_build_sums_duplicates",
"C38_fast_build_stores_every_coordinate",
"C38_topology_build_stores_each_coordinate_once",
"C39_transpose_from_partial",
"C39_transpose_in_place_refuted",
"C39_transpose_keeps_old_shape_refuted",
"C39_transpose_to_other_layout",
"C40_binary_search_out_of_bounds_refuted",
"C40_binary_search_partial",
"C40_lookup_finds_exactly_the_stored_entries",
"C41_integer_semirings_are_lawful",
"C41_spmv_classic_adds_the_product",
"C41_spmv_computes_the_product_partial",
"C41_spmv_mask_computes_the_unmasked_rows",
"C41_spmv_real_truncates_refuted",
"C41_spmv_tall_column_major_refuted",
"C41_spmv_wide_column_major_refuted",
"C42_fast_proper_partial",
"C42_fast_proper_with_ties_refuted",
"C42_fast_terminates_complete",
"C42_maximum_classes_maximal",
"C42_maximum_degree_bound",
"C42_maximum_proper_partial",
"C42_maximum_proper_with_ties_refuted",
"C42_maximum_terminates_complete",
"C43_array_holds_labels_refuted",
"C43_union_find_components",
"C43_union_find_progress",
"C43_union_find_terminates",
"C44_every_schedule_gives_a_feasible_flow",
"C44_maximum_flow_ends",
"C44_maximum_flow_partial",
"C44_missing_transposed_entry_refuted",
"C44_overlapping_invocations_miss_the_flow_refuted",
"C44_search_ends_on_every_schedule",
"C44_source_is_sink_refuted",
"C45_free_mutex_can_be_taken",
"C45_mutual_exclusion",
"C46_futex_wake_single_partial",
"C46_futex_wake_zero_refuted",
"C46_one_waiter_at_a_time_partial",
"C46_queue_well_formed",
"C46_removes_what_it_signals_refuted",
"C46_second_sleeper_refuted",
"C46_timeout_refuted",
"C46_timeout_removes_itself_partial",
"C46_timeout_result",
"C46_unrelated_address_refuted",
"C46_wake_all_last_partial",
"C46_wake_all_refuted",
"C46_wake_nobody",
"C46_wake_one_effect",
"C47_add_canonical_refuted",
"C47_add_mul_canonical_partial",
"C47_add_sub_mul_exact",
"C47_div_exact_canonical",
"C47_eq_is_value_equality",
"C47_make_exact_canonical",
"C47_neg_exact_canonical",
"C47_no_overflow_below_2_31",
"C48_greater_is_value_order_partial",
"C48_greater_unreduced_refuted",
"C48_less_after_add_refuted",
"C48_less_is_value_order",
"C49_bisect_exact",
"C49_dyadic_order_is_value_order",
"C49_dyadic_sum_exact_partial",
"C49_dyadic_sum_exact_refuted",
"C50_blocks_nest",
"C50_cell_size",
"C50_child_block_determined",
"C50_coordinate_determined",
"C50_hierarchy_coord_roundtrip",
"C50_hierarchy_offset_roundtrip",
"C50_key_is_block_origin",
"C50_leaf_cell_determined",
"C50_tile_coord_roundtrip",
"C50_tile_offset_roundtrip",
"C51_push_back_records_each_pair_once",
"C51_reorder_after_overflow_refuted",
"C51_reorder_groups_by_node",
"C52_growth_refuted",
"C52_in_place_partial",
"C52_offsets_in_buffer_partial",
"C53_no_lost_wakeup_partial",
"C53_three_threads_refuted",
"C53_two_threads",
"C54_arena_weights_are_bsplines",
"C54_bspline_weight_is_quadratic",
"C54_derivative_weights",
"C54_face_gradient_reproduces_slope",
"C54_face_sample_in_range",
"C54_face_sample_reproduces_affine",
"C54_gradient_reproduces_slope",
"C54_sample_in_range",
"C54_sample_reproduces_affine",
"C54_weights_are_bsplines",
"C54_weights_partition_unity",
"C55_assign_empty_refuted",
"C55_assign_noncopyable_refuted",
"C55_copy_assign_leaks_refuted",
"C55_move_assign_leaks_refuted",
"C55_move_self_referencing_refuted",
"C55_self_assign_refuted",
"C55_throwing_assign_refuted",
"C55_value_semantics_partial",
"C56_copy_assign_refuted",
"C56_copy_construct_refuted",
"C56_copy_empty_leaks_refuted",
"C56_owner_semantics_partial",
"C56_self_value_refuted",
"C56_throwing_constructor_refuted",
"C57_affine",
"C57_cross",
"C57_determinant",
"C57_inverse",
"C57_products",
"C57_scalars",
"C58_arrays2_partial",
"C58_arrays3_partial",
"C58_cofactor3d_refuted",
"C58_crossMul_refuted",
"C58_parallel_refuted",
"C59_abs_sqrt",
"C59_product_partial",
"C59_product_refuted",
"C59_quotients",
"C59_sums",
"C60_cubic_partial",
"C60_cubic_refuted",
"C60_linear",
"C60_quadratic_partial",
"C60_quadratic_refuted",
"C61_axis_angle",
"C61_between",
"C61_conventions",
"C61_euler",
"C61_extract_angles_partial",
"C61_extract_axis_partial",
"C61_orthogonal",
"C61_quaternions",
"C61_small_angles_refuted",
"C62_decompose",
"C62_decompose_parts",
"C62_post",
"C62_pre",
"C62_set",
"C63_accuracy",
"C63_relative_refuted",
"C63_terminates",
"C64_converges",
"C64_energy",
"C64_exact",
"C64_fixed_dofs",
"C64_optimal",
"C64_residual",
"C64_solves",
"C65_converges",
"C65_exact",
"C65_fixed_dofs",
"C65_independent_refuted",
"C65_optimal",
"C65_residual",
"C65_stops_when_met_refuted",
"C65_tolerance",
"C66_givens",
"C66_gram_schmidt",
"C66_qr",
"C66_upper_bidiagonalize",
"C66_zero_chasing",
"C67_polar",
"C67_svd",
"C68_polar",
"C68_polar_terminates",
"C68_relative_refuted",
"C68_svd",
"C68_terminates",
"C69_eigen2_partial",
"C69_integer_refuted",
"C69_make_pd",
"C69_orthogonal",
"C70_jacobi_partial",
"C70_make_pd",
"C70_make_pd_terminates",
"C70_one_refuted",
"C70_stale_refuted",
"C70_zero_refuted",
"C71_degenerate_refuted",
"C71_one_dimension_refuted",
"C71_point_edge",
"C71_point_interval",
"C71_point_triangle",
"C71_point_triangle_category",
"C72_crossing_refuted",
"C72_edge_edge",
"C72_edge_edge_attained",
"C72_edge_edge_category",
"C72_integer_coordinates",
"C72_point_second_refuted",
"C72_short_refuted",
"C72_unclassified",
"C73_coplanar_refuted",
"C73_intersection",
"C73_intersection_sound",
"C73_mollifier",
"C73_mollifier_derivatives",
"C73_one_dimension_hessian_refuted",
"C73_point_point_derivatives",
"C73_point_point_gradient",
"C74_box_distance",
"C74_cuboid",
"C74_cuboid_of",
"C74_cylinder",
"C74_cylinder_box",
"C74_plane_box_refuted",
"C74_plane_partial",
"C74_plane_refuted",
"C74_sphere",
"C74_sphere_box",
"C74_sphere_normal",
"C75_ee_broadphase",
"C75_ee_broadphase_discards",
"C75_get_bounding_box",
"C75_merge",
"C75_overlaps",
"C75_overlaps_point",
"C75_pt_broadphase",
"C75_pt_broadphase_discards",
"C75_ray_box_face_missed_refuted",
"C75_ray_box_face_refuted",
"C75_ray_box_partial",
"C75_ray_box_zero_refuted",
"C75_ray_tri_behind_refuted",
"C75_ray_tri_complete_partial",
"C75_ray_tri_small_refuted",
"C75_ray_tri_sound_partial",
"C75_sphere_point",
"C75_spheres_overlap",
"C75_uniform_coord_partial",
"C75_uniform_coord_refuted",
"C76_accessor",
"C76_accessor_side1_refuted",
"C76_accessor_stale_refuted",
"C76_defined",
"C76_inactive_write",
"C76_insert",
"C76_local_codec",
"C76_staggered_neighbour",
"C76_staggered_sample",
"C76_value",
"C76_voxels",
"C77_defined",
"C77_eos_symmetric",
"C77_g2p_affine",
"C77_internal_torque",
"C77_nodes_have_own_cells",
"C77_p2g_angular",
"C77_p2g_center",
"C77_p2g_totals",
"C77_reported_momentum",
"C77_step_conserves",
"C77_stress_acts_refuted",
"C78_buckets",
"C78_enlarge",
"C78_neighbours",
"C78_neighbours_displacement_refuted",
"C78_partition_capacity_refuted",
"C78_partition_covers",
"C78_partition_side2_refuted",
"C78_sparsity",
"C79_junk_unused",
"C79_reads_past_end_refuted",
"C83_comes_to_rest",
"C83_exclusive",
"C83_fifo",
"C83_linearizable",
"C83_no_lost_wakeup",
"C84_answers",
"C84_exclusion",
"C84_pointer_partial",
"C84_pointer_refuted",
"C84_race_refuted",
"C86_active_hidden_refuted",
"C86_background_refuted",
"C86_blocks",
"C86_child_masks",
"C86_data",
"C86_level",
"C86_oblivious",
"C86_reads",
"C86_twice_refuted",
"C86_unsorted_refuted",
"C87_grid_offsets",
"C87_grid_storage_refuted",
"C92_chunks_partial",
"C92_chunks_sequential_refuted",
"C92_descending_refuted",
"C92_large_unsigned_refuted",
"C92_ranges_partial",
"C92_strided",
"C92_strided_last_refuted",
"C92_strided_parallel_refuted",
"C92_wrong_way",
"C93_calls",
"C93_equidistributed",
"C93_period",
"C93_seed_refuted",
"C95_bijection",
"C95_block",
"C95_fewer",
"C95_order",
"C95_packs",
"C95_ranges",
"C96_abs",
"C96_clamp",
"C96_gcd_partial",
"C96_gcd_refuted",
"C96_lcm_partial",
"C96_lcm_refuted",
"C96_minmax",
"C96_pow_partial",
"C96_pow_refuted",
"C96_pow_signed",
"C96_pow_unsigned",
"C96_result",
"C96_result_holds_partial",
"C96_result_refuted",
"C97_defined_partial",
"C97_mutex",
"C97_no_spurious",
"C97_notified_partial",
"C97_notify_all_refuted",
"C97_notify_one",
"C97_timeout_refuted",
"C97_two_waiters_refuted",
"C98_and",
"C98_associative_refuted",
"C98_boolean",
"C98_boolean_refuted",
"C98_distributive_refuted",
"C98_exact",
"C98_max_partial",
"C98_min_partial",
"C98_overflow_refuted",
"C98_packs",
"C98_plus_times_partial",
"C98_plus_times_refuted",
"C98_sums"
]
],
[
[
"ClassicalDedekindReals.sig_forall_dec",
"ClassicalDedekindReals.sig_not_dec",
"Classical_Prop.classic",
"FunctionalExtensionality.functional_extensionality_dep"
],
[
"C79_consistent",
"C79_covers",
"C79_expansion_sum",
"C79_init",
"C79_orient2d",
"C79_orient3d_partial",
"C79_strongly_nonoverlapping_refuted",
"C79_two_product",
"C79_two_sum",
"C79_underflow_refuted",
"C80_coincident",
"C80_gradient",
"C80_hencky_coefficient",
"C80_hencky_inverted_refuted",
"C80_hessian_partial",
"C80_project_spd",
"C80_stiffness_partial",
"C80_stress",
"C81_friction_angle_refuted",
"C81_neo_hookean_agree_partial",
"C81_neo_hookean_agree_refuted",
"C81_objective",
"C81_rest",
"C81_stiffness",
"C81_stress",
"C82_cam_clay_admissible_refuted",
"C82_cam_clay_ellipse_partial",
"C82_cam_clay_tips",
"C82_capped_elastic",
"C82_capped_idempotent",
"C82_capped_result",
"C82_drucker_prager_admissible",
"C82_drucker_prager_elastic_refuted",
"C82_drucker_prager_flow_partial",
"C82_drucker_prager_idempotent_partial",
"C82_snow_hardening_partial",
"C82_von_mises_admissible",
"C82_von_mises_flow",
"C82_von_mises_surface_refuted",
"C89_angle",
"C89_exchange",
"C89_gradient",
"C89_mirror",
"C94_anti_normal",
"C94_densities",
"C94_normal_range",
"C94_normal_refuted",
"C94_poisson_fraction_refuted"
]
],
[
[
"ClassicalDedekindReals.sig_forall_dec",
"FunctionalExtensionality.functional_extensionality_dep"
],
[
"C100_ball",
"C100_box",
"C100_weights",
"C100_weights_all",
"C100_weights_first",
"C100_weights_refuted",
"C80_equation_of_state",
"C80_gamma_refuted",
"C80_hessian_1d_refuted",
"C80_lame",
"C80_lame_inverse",
"C80_symmetric",
"C81_I2",
"C81_I3",
"C81_I5",
"C81_dFAdF",
"C81_dFdX",
"C81_stretching",
"C85_inside",
"C85_no_gain_partial",
"C85_outside",
"C85_separate_partial",
"C85_slip_partial",
"C85_slip_refuted",
"C85_sticky",
"C85_velocity",
"C85_with_normal",
"C87_periodic_candidate",
"C87_space",
"C87_space_no_worker_refuted",
"C87_space_workers",
"C88_closest_edge",
"C88_closest_edges",
"C88_closest_triangle",
"C88_momentum",
"C88_relative_motion",
"C90_mollifier_kink",
"C90_mollifier_threshold",
"C90_mollifier_values",
"C99_flat"
]
],
[
[
"ClassicalDedekindReals.sig_forall_dec",
"ClassicalDedekindReals.sig_not_dec",
"FunctionalExtensionality.functional_extensionality_dep"
],
[
"C100_rotation",
"C100_rotation_all",
"C81_I1_partial",
"C81_arap_half",
"C81_arap_stiffness_refuted",
"C81_arap_stress_refuted",
"C82_drucker_prager_friction",
"C82_snow_bounds",
"C85_erosion_partial",
"C85_erosion_refuted",
"C85_small_sphere_refuted",
"C85_sphere_normal",
"C87_periodic_partial",
"C87_periodic_refuted",
"C87_plane_box_refuted",
"C87_plane_check_partial",
"C87_plane_finishes_partial",
"C87_plane_samples_partial",
"C87_plane_undefined_refuted",
"C87_space_apart",
"C88_basis_edge",
"C88_basis_edges",
"C88_basis_points",
"C88_basis_triangle",
"C88_edge_edge",
"C88_point_edge",
"C88_point_triangle",
"C88_points",
"C88_potential",
"C88_stiffness",
"C88_stiffness_sliding_refuted",
"C89_hessian",
"C89_hessian_symmetric",
"C90_cross_norm",
"C90_edge_edge",
"C90_mollifier_gradient",
"C90_mollifier_hessian",
"C90_point_edge",
"C90_point_edge_plane",
"C90_point_triangle",
"C91_edge_edge",
"C91_parallel_edge_edge",
"C91_parallel_point_edge",
"C91_parallel_point_point",
"C91_point_edge",
"C91_point_point",
"C91_point_triangle",
"C94_poisson_one_refuted",
"C94_poisson_partial",
"C99_given",
"C99_isolated_refuted",
"C99_length",
"C99_normals",
"C99_offset_refuted",
"C99_part_partial"
]
]
]