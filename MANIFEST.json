{
 "claims": [
  {
   "property": "C01",
   "status": "proved",
   "theorems": [
    "C01_flat_offset_affine"
   ],
   "note": ""
  },
  {
   "property": "C02",
   "status": "proved",
   "theorems": [
    "C02_flat_range_exact"
   ],
   "note": ""
  },
  {
   "property": "C03",
   "status": "proved",
   "theorems": [
    "C03_allocate_in_buffer"
   ],
   "note": ""
  },
  {
   "property": "C04",
   "status": "proved",
   "theorems": [
    "C04_resolve_fills_unknown_only"
   ],
   "note": ""
  },
  {
   "property": "C05",
   "status": "proved",
   "theorems": [
    "C05_resolve_injective",
    "C05_not_nested_refuted"
   ],
   "note": ""
  },
  {
   "property": "C06",
   "status": "proved",
   "theorems": [
    "C06_default_layout_dense"
   ],
   "note": ""
  },
  {
   "property": "C07",
   "status": "proved",
   "theorems": [
    "C07_tiling_resolve_compact",
    "C07_one_dense_dim_compact"
   ],
   "note": ""
  },
  {
   "property": "C08",
   "status": "proved",
   "theorems": [
    "C08_size_counts_indices",
    "C08_negative_extents_refuted"
   ],
   "note": ""
  },
  {
   "property": "C09",
   "status": "proved",
   "theorems": [
    "C09_not_one_to_one_collides",
    "C09_onto_is_compact",
    "C09_one_to_one_refuted",
    "C09_compact_refuted"
   ],
   "note": ""
  },
  {
   "property": "C10",
   "status": "proved",
   "theorems": [
    "C10_is_in_range_exact",
    "C10_is_in_range_slices",
    "C10_placeholder_refuted"
   ],
   "note": ""
  },
  {
   "property": "C11",
   "status": "proved",
   "theorems": [
    "C11_range_for_visits"
   ],
   "note": ""
  },
  {
   "property": "C12",
   "status": "proved",
   "theorems": [
    "C12_for_each_index_visits"
   ],
   "note": ""
  },
  {
   "property": "C13",
   "status": "proved",
   "theorems": [
    "C13_loop_order_visits"
   ],
   "note": ""
  },
  {
   "property": "C14",
   "status": "proved",
   "theorems": [
    "C14_for_each_value_visits",
    "C14_negative_extents_refuted"
   ],
   "note": ""
  },
  {
   "property": "C15",
   "status": "proved",
   "theorems": [
    "C15_copy_traversal_pairs"
   ],
   "note": ""
  },
  {
   "property": "C16",
   "status": "proved",
   "theorems": [
    "C16_copy",
    "C16_copy_rejects",
    "C16_move"
   ],
   "note": ""
  },
  {
   "property": "C17",
   "status": "proved",
   "theorems": [
    "C17_fill",
    "C17_generate",
    "C17_transform_index"
   ],
   "note": ""
  },
  {
   "property": "C18",
   "status": "proved",
   "theorems": [
    "C18_equal",
    "C18_operator_eq"
   ],
   "note": ""
  },
  {
   "property": "C19",
   "status": "proved",
   "theorems": [
    "C19_slice_denotes"
   ],
   "note": ""
  },
  {
   "property": "C20",
   "status": "proved",
   "theorems": [
    "C20_slices_compose"
   ],
   "note": ""
  },
  {
   "property": "C21",
   "status": "proved",
   "theorems": [
    "C21_transpose_relabels",
    "C21_transpose_inverse",
    "C21_transpose_shape",
    "C21_reorder_selects",
    "C21_reorder_empty_refuted"
   ],
   "note": ""
  },
  {
   "property": "C22",
   "status": "proved",
   "theorems": [
    "C22_permutation_test_exact",
    "C22_permutations_accepted",
    "C22_permutation_test_refuted",
    "C22_bad_transpose_refuted"
   ],
   "note": ""
  },
  {
   "property": "C23",
   "status": "proved",
   "theorems": [
    "C23_split_dynamic_partition"
   ],
   "note": ""
  },
  {
   "property": "C24",
   "status": "proved",
   "theorems": [
    "C24_split_static_covers",
    "C24_split_static_rejects",
    "C24_split_static_release"
   ],
   "note": ""
  },
  {
   "property": "C25",
   "status": "proved",
   "theorems": [
    "C25_split_dynamic_access",
    "C25_split_static_access",
    "C25_dynamic_begin_plus_size_is_end",
    "C25_static_begin_plus_size_is_end",
    "C25_split_dynamic_add",
    "C25_split_static_add",
    "C25_add_negative_rejected"
   ],
   "note": ""
  },
  {
   "property": "C26",
   "status": "proved",
   "theorems": [
    "C26_z_order_visits",
    "C26_z_order_ranges",
    "C26_origin_always_visited",
    "C26_empty_range_refuted"
   ],
   "note": ""
  },
  {
   "property": "C27",
   "status": "proved",
   "theorems": [
    "C27_array_set_shape",
    "C27_move_reinterpret_rejects_refuted",
    "C27_move_reinterpret_accepts_refuted",
    "C27_set_shape_inside",
    "C27_set_shape_accepts",
    "C27_reinterpret_inside",
    "C27_reinterpret_accepts"
   ],
   "note": ""
  },
  {
   "property": "C28",
   "status": "proved",
   "theorems": [
    "C28_bounds",
    "C28_compact",
    "C28_fixed_dense_shape",
    "C28_one_dense",
    "C28_padding_refuted",
    "C28_collision_refuted"
   ],
   "note": ""
  },
  {
   "property": "C29",
   "status": "proved",
   "theorems": [
    "C29_convert",
    "C29_convert_rejects",
    "C29_convert_release",
    "C29_same_shape",
    "C29_drop_dims",
    "C29_drop_rejects",
    "C29_add_dims",
    "C29_is_compatible",
    "C29_is_compatible_complete",
    "C29_is_compatible_unresolved_refuted",
    "C29_release_refuted"
   ],
   "note": ""
  },
  {
   "property": "C30",
   "status": "proved",
   "theorems": [
    "C30_clamp_nearest",
    "C30_clamp_empty",
    "C30_clamp_dims_intersection"
   ],
   "note": ""
  },
  {
   "property": "C31",
   "status": "proved",
   "theorems": [
    "C31_construct",
    "C31_construct_value",
    "C31_copy_construct",
    "C31_broadcast_refuted"
   ],
   "note": ""
  },
  {
   "property": "C32",
   "status": "proved",
   "theorems": [
    "C32_copy_construct",
    "C32_copy_assign",
    "C32_self_assign",
    "C32_make_copy",
    "C32_independent"
   ],
   "note": ""
  },
  {
   "property": "C33",
   "status": "proved",
   "theorems": [
    "C33_make_move_rvalue",
    "C33_make_move_rvalue_copies",
    "C33_move_construct",
    "C33_move_assign",
    "C33_assign_move",
    "C33_make_move",
    "C33_static_shape_refuted"
   ],
   "note": ""
  },
  {
   "property": "C34",
   "status": "proved",
   "theorems": [
    "C34_swap"
   ],
   "note": ""
  },
  {
   "property": "C35",
   "status": "proved",
   "theorems": [
    "C35_reshape",
    "C35_apart_refuted",
    "C35_allocator_refuted"
   ],
   "note": ""
  },
  {
   "property": "C36",
   "status": "proved",
   "theorems": [
    "C36_programs_run",
    "C36_step",
    "C36_live_objects",
    "C36_blocks_owned",
    "C36_blocks_unshared",
    "C36_no_leak",
    "C36_assign_value",
    "C36_clear"
   ],
   "note": ""
  },
  {
   "property": "C37",
   "status": "proved",
   "theorems": [
    "C37_inline_once",
    "C37_inline_fits",
    "C37_heap_too_big",
    "C37_equal_can_release"
   ],
   "note": ""
  },
  {
   "property": "C38",
   "status": "proved",
   "theorems": [
    "C38_reduction",
    "C38_shared_elements",
    "C38_any_order",
    "C38_in_place"
   ],
   "note": ""
  },
  {
   "property": "C39",
   "status": "proved",
   "theorems": [
    "C39_checks",
    "C39_accesses",
    "C39_safe",
    "C39_repeated_refuted"
   ],
   "note": ""
  },
  {
   "property": "C40",
   "status": "proved",
   "theorems": [
    "C40_sum",
    "C40_matrix_product",
    "C40_matrix_vector",
    "C40_dot_product",
    "C40_trace",
    "C40_outer_product",
    "C40_transpose"
   ],
   "note": ""
  },
  {
   "property": "C41",
   "status": "proved",
   "theorems": [
    "C41_crop",
    "C41_crop_origin_zero",
    "C41_slice_channel",
    "C41_disjoint_crop",
    "C41_disjoint_crop_refuted"
   ],
   "note": ""
  },
  {
   "property": "C42",
   "status": "proved",
   "theorems": [
    "C42_chunky_pointers",
    "C42_chunky_null_rejected",
    "C42_chunky_general_pointers",
    "C42_image_index_visits",
    "C42_chunky_value_visits",
    "C42_chunky_general_visits",
    "C42_matrix_index_visits",
    "C42_matrix_value_visits"
   ],
   "note": ""
  },
  {
   "property": "C43",
   "status": "proved",
   "theorems": [
    "C43_flat_offset",
    "C43_flat_min",
    "C43_flat_max",
    "C43_flat_extent",
    "C43_is_subset_of",
    "C43_size",
    "C43_is_in_range",
    "C43_empty_size_refuted"
   ],
   "note": ""
  },
  {
   "property": "C44",
   "status": "proved",
   "theorems": [
    "C44_resolve",
    "C44_layout_fits_refuted"
   ],
   "note": ""
  },
  {
   "property": "C45",
   "status": "proved",
   "theorems": [
    "C45_static_arithmetic",
    "C45_dynamic_contagious",
    "C45_static_max",
    "C45_constructor",
    "C45_constructor_rejects",
    "C45_constructor_release",
    "C45_default",
    "C45_clamp",
    "C45_not_equal",
    "C45_marker_refuted"
   ],
   "note": ""
  },
  {
   "property": "C46",
   "status": "proved",
   "theorems": [
    "C46_tiled_update",
    "C46_covers",
    "C46_as_untiled",
    "C46_overlap",
    "C46_small_rejected",
    "C46_reduce_cols",
    "C46_reduce_rows",
    "C46_reduce_matrix",
    "C46_ein",
    "C46_plain",
    "C46_plain_overflow",
    "C46_reduce_tiles",
    "C46_ein_reduce_tiles",
    "C46_small_matrix",
    "C46_z_order",
    "C46_z_order_one_block",
    "C46_z_order_even",
    "C46_z_order_unset",
    "C46_z_order_refuted"
   ],
   "note": ""
  },
  {
   "property": "C47",
   "status": "proved",
   "theorems": [
    "C47_sort_dims",
    "C47_sort_copy_dims"
   ],
   "note": ""
  },
  {
   "property": "C48",
   "status": "proved",
   "theorems": [
    "C48_constructor",
    "C48_add",
    "C48_sub",
    "C48_mul",
    "C48_div",
    "C48_compare",
    "C48_min_max",
    "C48_floor",
    "C48_ceil",
    "C48_round",
    "C48_frac",
    "C48_negative_denominator_refuted"
   ],
   "note": ""
  },
  {
   "property": "C49",
   "status": "proved",
   "theorems": [
    "C49_empty_assign_refuted",
    "C49_assign_shape"
   ],
   "note": ""
  },
  {
   "property": "C50",
   "status": "proved",
   "theorems": [
    "C50_naive",
    "C50_tiled",
    "C50_agree",
    "C50_nan_refuted",
    "C50_small_rejected"
   ],
   "note": ""
  },
  {
   "property": "C51",
   "status": "proved",
   "theorems": [
    "C51_setters",
    "C51_range",
    "C51_equality",
    "C51_equality_parts",
    "C51_contains",
    "C51_empty_refuted"
   ],
   "note": ""
  },
  {
   "property": "C52",
   "status": "proved",
   "theorems": [
    "C52_data",
    "C52_data_null",
    "C52_empty",
    "C52_bounds",
    "C52_compact_copy",
    "C52_compact_move"
   ],
   "note": ""
  },
  {
   "property": "C53",
   "status": "proved",
   "theorems": [
    "C53_programs",
    "C53_step",
    "C53_strong",
    "C53_blocks_owned",
    "C53_blocks_unshared",
    "C53_live_objects",
    "C53_no_leak",
    "C53_delete",
    "C53_clear",
    "C53_copy_assign",
    "C53_assign_value",
    "C53_unlimited",
    "C53_new_throws",
    "C53_retry_debug_refuted",
    "C53_retry_refuted",
    "C53_move_empty_refuted",
    "C53_swap_refuted"
   ],
   "note": ""
  },
  {
   "property": "C54",
   "status": "proved",
   "theorems": [
    "C54_completes",
    "C54_new_leaks",
    "C54_copy_leaks",
    "C54_make_leaks",
    "C54_reshape_leaks",
    "C54_value_ub",
    "C54_copy_alloc_ub",
    "C54_assign_ub",
    "C54_move_leaks",
    "C54_move_assign_ub",
    "C54_swap",
    "C54_reshape"
   ],
   "note": ""
  },
  {
   "property": "C55",
   "status": "proved",
   "theorems": [
    "C55_position",
    "C55_build_kernels",
    "C55_unusable_rejected",
    "C55_unusable_unchecked_refuted"
   ],
   "note": ""
  },
  {
   "property": "C56",
   "status": "proved",
   "theorems": [
    "C56_resample",
    "C56_rejected",
    "C56_few_rows_refuted"
   ],
   "note": ""
  },
  {
   "property": "C57",
   "status": "proved",
   "theorems": [
    "C57_weights_one",
    "C57_constant",
    "C57_bounds",
    "C57_identity",
    "C57_positive",
    "C57_interpolating",
    "C57_unit",
    "C57_usable",
    "C57_inside",
    "C57_usable_unit"
   ],
   "note": ""
  },
  {
   "property": "C58",
   "status": "proved",
   "theorems": [
    "C58_programs_run",
    "C58_step",
    "C58_live_objects",
    "C58_blocks_owned",
    "C58_no_leak",
    "C58_fill",
    "C58_fill_elem",
    "C58_copy",
    "C58_self_copy",
    "C58_move",
    "C58_generate",
    "C58_transform",
    "C58_move_all",
    "C58_assign_elem",
    "C58_assign_own_elem_ub",
    "C58_construct_value",
    "C58_copy_construct"
   ],
   "note": ""
  },
  {
   "property": "C59",
   "status": "proved",
   "theorems": [
    "C59_range_for",
    "C59_for_each_index",
    "C59_image_index",
    "C59_matrix_index",
    "C59_last_index_refuted",
    "C59_first_index_refuted",
    "C59_split_dynamic",
    "C59_split_static",
    "C59_split_near_the_end_refuted",
    "C59_for_each_value",
    "C59_copy",
    "C59_chunky_value",
    "C59_fused_min_refuted"
   ],
   "note": ""
  },
  {
   "property": "C60",
   "status": "proved",
   "theorems": [
    "C60_constructor",
    "C60_constructor_rejects",
    "C60_default_extent",
    "C60_default",
    "C60_range",
    "C60_range_marker_refuted",
    "C60_setters",
    "C60_setters_reject",
    "C60_release",
    "C60_setters_release",
    "C60_assign_interval",
    "C60_assign_interval_rejects",
    "C60_assign_dim",
    "C60_assign_dim_rejects",
    "C60_dim_of_interval",
    "C60_slice",
    "C60_placeholder_by_type_refuted"
   ],
   "note": ""
  },
  {
   "property": "C61",
   "status": "proved",
   "theorems": [
    "C61_programs",
    "C61_elements",
    "C61_values"
   ],
   "note": ""
  },
  {
   "property": "C62",
   "status": "proved",
   "theorems": [
    "C62_programs",
    "C62_elements",
    "C62_new",
    "C62_make_copy",
    "C62_reshape",
    "C62_fill",
    "C62_transform",
    "C62_nontrivial_ub"
   ],
   "note": ""
  },
  {
   "property": "C63",
   "status": "proved",
   "theorems": [
    "C63_shape_injective",
    "C63_dim_injective",
    "C63_interval_injective",
    "C63_interval",
    "C63_dim",
    "C63_shape",
    "C63_interval_ub"
   ],
   "note": ""
  },
  {
   "property": "C64",
   "status": "proved",
   "theorems": [
    "C64_update",
    "C64_self",
    "C64_max",
    "C64_cross_product",
    "C64_scalar",
    "C64_pointers",
    "C64_pointers_reject",
    "C64_pointers_huge"
   ],
   "note": ""
  },
  {
   "property": "C65",
   "status": "proved",
   "theorems": [
    "C65_memory_order",
    "C65_copy_same_place",
    "C65_copy_self",
    "C65_copy_down",
    "C65_copy_shifted",
    "C65_memmove_refuted"
   ],
   "note": ""
  },
  {
   "property": "C66",
   "status": "proved",
   "theorems": [
    "C66_fill",
    "C66_copy",
    "C66_move",
    "C66_generate",
    "C66_transform_index",
    "C66_reduction",
    "C66_programs_run",
    "C66_step",
    "C66_live_objects",
    "C66_blocks_owned",
    "C66_no_leak",
    "C66_reshape",
    "C66_make_move",
    "C66_reshape_strong_refuted"
   ],
   "note": ""
  },
  {
   "property": "C67",
   "status": "proved",
   "theorems": [
    "C67_div",
    "C67_mod",
    "C67_constructor",
    "C67_add",
    "C67_sub",
    "C67_mul",
    "C67_quotient",
    "C67_compare",
    "C67_min_max",
    "C67_floor",
    "C67_frac",
    "C67_ceil",
    "C67_round",
    "C67_small",
    "C67_refines",
    "C67_ceil_refuted",
    "C67_compare_refuted",
    "C67_position",
    "C67_scale",
    "C67_scale_refuted"
   ],
   "note": ""
  },
  {
   "property": "C68",
   "status": "proved",
   "theorems": [
    "C68_element",
    "C68_views",
    "C68_set_shape",
    "C68_set_shape_rejects",
    "C68_reinterpret",
    "C68_reinterpret_rejects",
    "C68_empty_slice_refuted",
    "C68_far_crop_refuted",
    "C68_reduction",
    "C68_reduction_unbounded"
   ],
   "note": ""
  },
  {
   "property": "C69",
   "status": "proved",
   "theorems": [
    "C69_copy",
    "C69_move",
    "C69_fill",
    "C69_generate",
    "C69_transform_index",
    "C69_equal",
    "C69_operator_eq",
    "C69_data",
    "C69_data_refuted"
   ],
   "note": ""
  },
  {
   "property": "C70",
   "status": "proved",
   "theorems": [
    "C70_step",
    "C70_programs",
    "C70_settled_programs",
    "C70_set_shape",
    "C70_move_reinterpret",
    "C70_reshape_refuted",
    "C70_far_refuted"
   ],
   "note": ""
  },
  {
   "property": "C71",
   "status": "proved",
   "theorems": [
    "C71_order",
    "C71_copy_order",
    "C71_memory_order",
    "C71_copy_memory_order",
    "C71_flipped_refuted",
    "C71_fused",
    "C71_copy_fused",
    "C71_default_one_loop",
    "C71_compact_one_loop",
    "C71_copy_same_shape",
    "C71_unit_refuted"
   ],
   "note": ""
  },
  {
   "property": "C72",
   "status": "proved",
   "theorems": [
    "C72_load",
    "C72_load_else",
    "C72_store",
    "C72_separated",
    "C72_allocate",
    "C72_copy",
    "C72_copy_rejects",
    "C72_fill",
    "C72_transform_index",
    "C72_equal",
    "C72_reinterpret",
    "C72_reinterpret_read",
    "C72_copy_bits",
    "C72_misaligned_refuted",
    "C72_auto_alignment",
    "C72_auto_defaults",
    "C72_uninit_auto_refuted",
    "C72_refines_memory",
    "C72_refines_copy",
    "C72_refines_fill",
    "C72_refines_transform",
    "C72_refines_equal"
   ],
   "note": ""
  },
  {
   "property": "C73",
   "status": "proved",
   "theorems": [
    "C73_statement",
    "C73_programs",
    "C73_read",
    "C73_write",
    "C73_fill",
    "C73_copy",
    "C73_dangling",
    "C73_swap_zero_moves_refuted"
   ],
   "note": ""
  },
  {
   "property": "C74",
   "status": "proved",
   "theorems": [
    "C74_same_program",
    "C74_elements",
    "C74_shared",
    "C74_statement",
    "C74_program",
    "C74_no_leak",
    "C74_balance",
    "C74_moves_do_not_copy",
    "C74_algorithms_assign",
    "C74_move_assign_free",
    "C74_new_move_free",
    "C74_swap_free_propagating",
    "C74_swap_free",
    "C74_swap_equal_allocators_refuted",
    "C74_inline"
   ],
   "note": ""
  },
  {
   "property": "C75",
   "status": "proved",
   "theorems": [
    "C75_programs",
    "C75_step",
    "C75_blocks_owned",
    "C75_elements_in_memory",
    "C75_no_leak",
    "C75_frame",
    "C75_transfers",
    "C75_copies_elements",
    "C75_sets_all",
    "C75_write",
    "C75_transform",
    "C75_generate",
    "C75_clear",
    "C75_delete",
    "C75_reshape",
    "C75_set_shape",
    "C75_set_shape_back",
    "C75_move_shape",
    "C75_move_null_offset_refuted",
    "C75_move_inline_refuted",
    "C75_move_allocator_refuted"
   ],
   "note": ""
  },
  {
   "property": "C76",
   "status": "proved",
   "theorems": [
    "C76_sequential",
    "C76_footprint",
    "C76_calls",
    "C76_finishes",
    "C76_any_order",
    "C76_race_iff",
    "C76_conflict",
    "C76_programs",
    "C76_programs_race",
    "C76_update_tiles",
    "C76_update_tiles_race",
    "C76_lost_update_refuted",
    "C76_product_tiles",
    "C76_product_tiles_race"
   ],
   "note": ""
  },
  {
   "property": "C77",
   "status": "proved",
   "theorems": [
    "C77_programs",
    "C77_statements",
    "C77_states",
    "C77_builds"
   ],
   "note": ""
  },
  {
   "property": "C78",
   "status": "proved",
   "theorems": [
    "C78_locality",
    "C78_threads",
    "C78_order"
   ],
   "note": ""
  },
  {
   "property": "C79",
   "status": "proved",
   "theorems": [
    "C79_programs",
    "C79_builds"
   ],
   "note": ""
  },
  {
   "property": "C80",
   "status": "proved",
   "theorems": [
    "C80_index_calls",
    "C80_index_order_calls",
    "C80_value_calls",
    "C80_matrix_calls",
    "C80_chunky_calls",
    "C80_visit",
    "C80_generate",
    "C80_transform",
    "C80_recurrence",
    "C80_pure_transform",
    "C80_pure_generate",
    "C80_object",
    "C80_reuse",
    "C80_reuse_refuted"
   ],
   "note": ""
  },
  {
   "property": "C81",
   "status": "proved",
   "theorems": [
    "C81_programs",
    "C81_states",
    "C81_builds",
    "C81_end"
   ],
   "note": ""
  },
  {
   "property": "C82",
   "status": "proved",
   "theorems": [
    "C82_programs",
    "C82_statements",
    "C82_counts",
    "C82_thrown",
    "C82_states"
   ],
   "note": ""
  },
  {
   "property": "C83",
   "status": "proved",
   "theorems": [
    "C83_sinc",
    "C83_lanczos",
    "C83_names",
    "C83_short",
    "C83_usable_short",
    "C83_usable_lanczos",
    "C83_usable",
    "C83_resize",
    "C83_constant",
    "C83_identity"
   ],
   "note": ""
  },
  {
   "property": "C84",
   "status": "proved",
   "theorems": [
    "C84_cols",
    "C84_rows",
    "C84_matrix",
    "C84_ein",
    "C84_tiles",
    "C84_ein_tiles",
    "C84_z_order",
    "C84_z_order_even",
    "C84_last_rows_refuted",
    "C84_prefetch_refuted",
    "C84_z_visits",
    "C84_z_huge"
   ],
   "note": ""
  },
  {
   "property": "C85",
   "status": "proved",
   "theorems": [
    "C85_naive",
    "C85_tiled"
   ],
   "note": ""
  },
  {
   "property": "C86",
   "status": "proved",
   "theorems": [
    "C86_build_kernels",
    "C86_resample",
    "C86_rejected",
    "C86_resize",
    "C86_sizes",
    "C86_far_refuted"
   ],
   "note": ""
  },
  {
   "property": "C87",
   "status": "proved",
   "theorems": [
    "C87_reduction",
    "C87_types",
    "C87_sum",
    "C87_rounding_refuted",
    "C87_compiles",
    "C87_rejects",
    "C87_known",
    "C87_relaxed_refuted",
    "C87_copy_refuted",
    "C87_repeated_refuted"
   ],
   "note": ""
  },
  {
   "property": "C88",
   "status": "proved",
   "theorems": [
    "C88_element",
    "C88_view",
    "C88_unambiguous",
    "C88_count",
    "C88_others",
    "C88_in_range",
    "C88_constraints_refuted",
    "C88_same_refuted",
    "C88_range_with_stride",
    "C88_skip_slices",
    "C88_min_of_range",
    "C88_is_in_range",
    "C88_slice",
    "C88_conversion",
    "C88_conversion_rank",
    "C88_rank_one_refuted",
    "C88_is_compatible",
    "C88_is_compatible_rank_one"
   ],
   "note": ""
  },
  {
   "property": "C89",
   "status": "proved",
   "theorems": [
    "C89_threads",
    "C89_names",
    "C89_order"
   ],
   "note": ""
  },
  {
   "property": "C90",
   "status": "proved",
   "theorems": [
    "C90_any_order",
    "C90_gamma",
    "C90_any_order_integers",
    "C90_products",
    "C90_plain",
    "C90_z_order",
    "C90_integers",
    "C90_convolutions",
    "C90_check_convolutions",
    "C90_check_same_order",
    "C90_check_z_order",
    "C90_check_sizes",
    "C90_relative_error",
    "C90_relative_error_negative",
    "C90_relative_error_refuted"
   ],
   "note": ""
  },
  {
   "property": "C91",
   "status": "proved",
   "theorems": [
    "C91_usable",
    "C91_average",
    "C91_image",
    "C91_constant",
    "C91_between",
    "C91_identity",
    "C91_usable_identity",
    "C91_linear_nonnegative",
    "C91_linear_conditioned",
    "C91_linear_interpolating",
    "C91_linear_taps",
    "C91_linear_images",
    "C91_box_nonnegative",
    "C91_box_taps",
    "C91_inside_by",
    "C91_average_near",
    "C91_near_exact",
    "C91_linear_weight",
    "C91_linear_enlarging",
    "C91_linear_enlarging_taps",
    "C91_linear_exact"
   ],
   "note": ""
  },
  {
   "property": "C92",
   "status": "proved",
   "theorems": [
    "C92_nearest",
    "C92_ties",
    "C92_value",
    "C92_monotone",
    "C92_exact",
    "C92_rounds",
    "C92_integers",
    "C92_half",
    "C92_interpolating",
    "C92_identity",
    "C92_kernels",
    "C92_bspline_positive_refuted",
    "C92_between_refuted",
    "C92_centred",
    "C92_weights",
    "C92_images",
    "C92_steep",
    "C92_weights_near"
   ],
   "note": ""
  },
  {
   "property": "C93",
   "status": "proved",
   "theorems": [
    "C93_balanced",
    "C93_cubic",
    "C93_used",
    "C93_flat",
    "C93_respectful",
    "C93_row",
    "C93_quadratic_row",
    "C93_image",
    "C93_quadratic_image"
   ],
   "note": ""
  },
  {
   "property": "C94",
   "status": "proved",
   "theorems": [
    "C94_linear",
    "C94_quadratic",
    "C94_cubic",
    "C94_interpolating_quadratic",
    "C94_interpolating_cubic",
    "C94_catmull_rom"
   ],
   "note": ""
  }
 ]
}