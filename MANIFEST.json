{
 "claims": [
  {
   "property": "C01",
   "status": "proved",
   "theorems": [
    "C01_addressing_bijection",
    "C01_derived_injective"
   ],
   "note": ""
  },
  {
   "property": "C02",
   "status": "proved",
   "theorems": [
    "C02_storage_order_layout",
    "C02_constructors_keep_order",
    "C02_order_equality",
    "C02_named_orders_valid",
    "C02_c_order_is_row_major",
    "C02_fortran_order_is_column_major",
    "C02_conversions_agree"
   ],
   "note": ""
  },
  {
   "property": "C03",
   "status": "proved",
   "theorems": [
    "C03_accessors_agree_checked",
    "C03_accessors_agree"
   ],
   "note": ""
  },
  {
   "property": "C04",
   "status": "proved",
   "theorems": [
    "C04_range_check_exact",
    "C04_accepted_is_inside",
    "C04_extreme_index_refuted"
   ],
   "note": ""
  },
  {
   "property": "C05",
   "status": "proved",
   "theorems": [
    "C05_views_alias"
   ],
   "note": ""
  },
  {
   "property": "C06",
   "status": "proved",
   "theorems": [
    "C06_extent_counts_selected",
    "C06_extent_defined",
    "C06_extent_unique",
    "C06_zero_stride_rejected"
   ],
   "note": ""
  },
  {
   "property": "C07",
   "status": "proved",
   "theorems": [
    "C07_accepted_view_contained_iff",
    "C07_contained_view_is_safe",
    "C07_forward_ranges_safe",
    "C07_view_escapes_parent_refuted"
   ],
   "note": ""
  },
  {
   "property": "C08",
   "status": "proved",
   "theorems": [
    "C08_write_hits_the_aliased_element",
    "C08_throwing_write_changes_nothing"
   ],
   "note": ""
  },
  {
   "property": "C09",
   "status": "proved",
   "theorems": [
    "C09_reindex_array",
    "C09_reindex_scalar",
    "C09_reindex_view",
    "C09_reindex_view_scalar"
   ],
   "note": ""
  },
  {
   "property": "C10",
   "status": "proved",
   "theorems": [
    "C10_reshape",
    "C10_reshape_rejected",
    "C10_reshape_wraps_refuted"
   ],
   "note": ""
  },
  {
   "property": "C11",
   "status": "proved",
   "theorems": [
    "C11_resize_preserves_common_block",
    "C11_resize_list"
   ],
   "note": ""
  },
  {
   "property": "C12",
   "status": "proved",
   "theorems": [
    "C12_assignment_is_elementwise",
    "C12_shape_mismatch_aborts",
    "C12_deep_copy",
    "C12_throwing_assignment",
    "C12_only_the_destination_changes",
    "C12_overlap_refuted"
   ],
   "note": ""
  },
  {
   "property": "C13",
   "status": "proved",
   "theorems": [
    "C13_copy_construction",
    "C13_copies_are_independent"
   ],
   "note": ""
  },
  {
   "property": "C14",
   "status": "proved",
   "theorems": [
    "C14_converting_construction",
    "C14_default_order_is_row_major"
   ],
   "note": ""
  },
  {
   "property": "C15",
   "status": "proved",
   "theorems": [
    "C15_equality_is_positional",
    "C15_equality_is_an_equivalence"
   ],
   "note": ""
  },
  {
   "property": "C16",
   "status": "proved",
   "theorems": [
    "C16_less_is_nested_lexicographic",
    "C16_contents_unique",
    "C16_order_laws"
   ],
   "note": ""
  },
  {
   "property": "C17",
   "status": "proved",
   "theorems": [
    "C17_trichotomy",
    "C17_equal_not_less",
    "C17_trichotomy_refuted"
   ],
   "note": ""
  },
  {
   "property": "C18",
   "status": "proved",
   "theorems": [
    "C18_distance_is_size",
    "C18_dereference",
    "C18_dereference_checked",
    "C18_increment_is_advance",
    "C18_advance_add",
    "C18_distance_advance",
    "C18_comparisons",
    "C18_distance_defined",
    "C18_subscript"
   ],
   "note": ""
  },
  {
   "property": "C19",
   "status": "proved",
   "theorems": [
    "C19_reverse_rows",
    "C19_reverse_elements",
    "C19_reverse_random_access"
   ],
   "note": ""
  },
  {
   "property": "C20",
   "status": "proved",
   "theorems": [
    "C20_nested_iteration",
    "C20_for_each"
   ],
   "note": ""
  },
  {
   "property": "C21",
   "status": "proved",
   "theorems": [
    "C21_assign_fills_storage_order",
    "C21_assign_throws"
   ],
   "note": ""
  },
  {
   "property": "C22",
   "status": "proved",
   "theorems": [
    "C22_no_leak_no_sharing",
    "C22_all_memory_returned"
   ],
   "note": ""
  },
  {
   "property": "C23",
   "status": "proved",
   "theorems": [
    "C23_programs_behave_as_specified",
    "C23_legal_commands_proceed",
    "C23_results_are_determined"
   ],
   "note": ""
  },
  {
   "property": "C24",
   "status": "proved",
   "theorems": [
    "C24_resize_strong_guarantee",
    "C24_resize_leftover"
   ],
   "note": ""
  },
  {
   "property": "C25",
   "status": "proved",
   "theorems": [
    "C25_constructor_outcomes",
    "C25_release_refuted",
    "C25_copy_leaks_elements"
   ],
   "note": ""
  },
  {
   "property": "C26",
   "status": "proved",
   "theorems": [
    "C26_num_elements_is_product_mod_2_64",
    "C26_fits_64_bits",
    "C26_overflow_refuted"
   ],
   "note": ""
  },
  {
   "property": "C27",
   "status": "proved",
   "theorems": [
    "C27_setters_commute",
    "C27_setters_make_slices",
    "C27_notations_equal",
    "C27_set_index_range",
    "C27_open_ends_mean_bounds",
    "C27_shift_selects_shifted",
    "C27_shift_roundtrip",
    "C27_shift_open_range_refuted",
    "C27_nth_selected"
   ],
   "note": ""
  },
  {
   "property": "C28",
   "status": "proved",
   "theorems": [
    "C28_size_vs_view_extent",
    "C28_size_disagrees_refuted",
    "C28_reverse_range_size_refuted"
   ],
   "note": ""
  },
  {
   "property": "C29",
   "status": "proved",
   "theorems": [
    "C29_generator_records_arguments",
    "C29_view_dimensions",
    "C29_degenerate_range_argument_refuted"
   ],
   "note": ""
  },
  {
   "property": "C30",
   "status": "proved",
   "theorems": [
    "C30_fresh_handle",
    "C30_reindex_of_leading_dimensions",
    "C30_reindex_denotes_old_index",
    "C30_reindex_refuted",
    "C30_reshape_refuted",
    "C30_fresh_iterator",
    "C30_iterator_after_reindex",
    "C30_iterator_refuted",
    "C30_views_survive",
    "C30_dangling_after_destroy",
    "C30_dangling_after_resize"
   ],
   "note": ""
  },
  {
   "property": "C31",
   "status": "proved",
   "theorems": [
    "C31_assertions_are_transparent",
    "C31_converse_refuted"
   ],
   "note": ""
  },
  {
   "property": "C32",
   "status": "proved",
   "theorems": [
    "C32_origin_addresses_elements",
    "C32_derived_origin_addresses_elements",
    "C32_data_from_origin",
    "C32_origin_outside_storage_refuted"
   ],
   "note": ""
  },
  {
   "property": "C33",
   "status": "proved",
   "theorems": [
    "C33_array_sizes",
    "C33_subarray_and_view_sizes",
    "C33_empty_iff_no_elements_refuted"
   ],
   "note": ""
  },
  {
   "property": "C34",
   "status": "proved",
   "theorems": [
    "C34_subarray_is_a_slice",
    "C34_subarrays_partition",
    "C34_row_assignment_is_local"
   ],
   "note": ""
  },
  {
   "property": "C35",
   "status": "proved",
   "theorems": [
    "C35_generator_records_arguments",
    "C35_collection_equivalent",
    "C35_ranges_give_bases_and_extents"
   ],
   "note": ""
  },
  {
   "property": "C36",
   "status": "proved",
   "theorems": [
    "C36_full_view_is_identity",
    "C36_views_compose"
   ],
   "note": ""
  },
  {
   "property": "C37",
   "status": "proved",
   "theorems": [
    "C37_operations_stay_in_the_buffer",
    "C37_operations_are_safe",
    "C37_geometry_keeps_the_buffer"
   ],
   "note": ""
  },
  {
   "property": "C38",
   "status": "proved",
   "theorems": [
    "C38_identity_assignment",
    "C38_self_assignment",
    "C38_identity_assignment_interrupted",
    "C38_programs_identity",
    "C38_programs_self"
   ],
   "note": ""
  },
  {
   "property": "C39",
   "status": "proved",
   "theorems": [
    "C39_longer_list_writes_past_end",
    "C39_shorter_list_refuted"
   ],
   "note": ""
  },
  {
   "property": "C40",
   "status": "proved",
   "theorems": [
    "C40_invalid_order_unusable",
    "C40_storage_order_lengths",
    "C40_valid_order_usable",
    "C40_invalid_order_outcome"
   ],
   "note": ""
  },
  {
   "property": "C41",
   "status": "proved",
   "theorems": [
    "C41_exceptions_keep_the_basic_guarantee"
   ],
   "note": ""
  },
  {
   "property": "C42",
   "status": "proved",
   "theorems": [
    "C42_names_stay_valid",
    "C42_ended_names_dangle"
   ],
   "note": ""
  },
  {
   "property": "C43",
   "status": "proved",
   "theorems": [
    "C43_misuse_is_caught",
    "C43_misuse_is_illegal"
   ],
   "note": ""
  },
  {
   "property": "C44",
   "status": "proved",
   "theorems": [
    "C44_steps_refine_calls",
    "C44_independent_threads",
    "C44_every_schedule_ends",
    "C44_readers",
    "C44_one_subarray_per_thread",
    "C44_shared_element_refuted"
   ],
   "note": ""
  },
  {
   "property": "C45",
   "status": "proved",
   "theorems": [
    "C45_const_access_is_read_only",
    "C45_only_loopholes",
    "C45_read_only_exact",
    "C45_loopholes_refuted",
    "C45_const_offers_same_access",
    "C45_const_object_fixed",
    "C45_modifiers_exact",
    "C45_members_exact",
    "C45_steps_exact",
    "C45_element_access",
    "C45_arrow",
    "C45_const_arguments_unchanged",
    "C45_copied_handle_refuted"
   ],
   "note": ""
  },
  {
   "property": "C46",
   "status": "proved",
   "theorems": [
    "C46_algorithms_see_sequences",
    "C46_every_array_is_a_sequence",
    "C46_layout_is_invisible",
    "C46_reverse",
    "C46_sort",
    "C46_find"
   ],
   "note": ""
  },
  {
   "property": "C47",
   "status": "proved",
   "theorems": [
    "C47_longer_lists",
    "C47_shorter_lists",
    "C47_unsigned_index_list"
   ],
   "note": ""
  },
  {
   "property": "C48",
   "status": "proved",
   "theorems": [
    "C48_exact_counts",
    "C48_calls_that_never_throw",
    "C48_counts_are_complete",
    "C48_program_counts"
   ],
   "note": ""
  },
  {
   "property": "C49",
   "status": "proved",
   "theorems": [
    "C49_swap",
    "C49_swap_interrupted",
    "C49_self_swap",
    "C49_swap_shape_mismatch"
   ],
   "note": ""
  },
  {
   "property": "C50",
   "status": "proved",
   "theorems": [
    "C50_assign_from_live_data",
    "C50_elements_after_assign",
    "C50_assign_own_storage",
    "C50_reverse_in_place_refuted"
   ],
   "note": ""
  },
  {
   "property": "C51",
   "status": "proved",
   "theorems": [
    "C51_converting_assignment",
    "C51_conversion_throws",
    "C51_shape_mismatch_aborts",
    "C51_no_conversion"
   ],
   "note": ""
  },
  {
   "property": "C52",
   "status": "proved",
   "theorems": [
    "C52_print",
    "C52_print_is_faithful",
    "C52_resize_from"
   ],
   "note": ""
  },
  {
   "property": "C53",
   "status": "proved",
   "theorems": [
    "C53_overlapping_assignment_exact",
    "C53_interrupted",
    "C53_blocks",
    "C53_one_direction_is_right",
    "C53_unit_views_are_blocks",
    "C53_reversed_views_are_mirrored"
   ],
   "note": ""
  },
  {
   "property": "C54",
   "status": "proved",
   "theorems": [
    "C54_assignment_postcondition",
    "C54_equal_after_assignment",
    "C54_postcondition_refuted",
    "C54_copies_compare_equal",
    "C54_converted_arrays_compare_equal"
   ],
   "note": ""
  },
  {
   "property": "C55",
   "status": "proved",
   "theorems": [
    "C55_place_does_not_matter",
    "C55_moving_storage_is_unobservable",
    "C55_moving_storage_never_stuck",
    "C55_independent_parts_do_not_interfere",
    "C55_foreign_storage_is_untouched"
   ],
   "note": ""
  },
  {
   "property": "C56",
   "status": "proved",
   "theorems": [
    "C56_kept_objects_are_abbreviations",
    "C56_programs_behave_as_specified",
    "C56_unnamed_view_refuted",
    "C56_reindexed_parent_refuted"
   ],
   "note": ""
  },
  {
   "property": "C57",
   "status": "proved",
   "theorems": [
    "C57_equality_calls",
    "C57_order_calls",
    "C57_calls_determined",
    "C57_order_call_count",
    "C57_layout_makes_no_difference",
    "C57_lawful_operators"
   ],
   "note": ""
  },
  {
   "property": "C58",
   "status": "proved",
   "theorems": [
    "C58_where_failures_leave_a_program",
    "C58_without_mistakes",
    "C58_outcome_is_determined",
    "C58_outcome_exists"
   ],
   "note": ""
  },
  {
   "property": "C59",
   "status": "proved",
   "theorems": [
    "C59_element_access_exact",
    "C59_brackets_exact",
    "C59_element_access_inside",
    "C59_rows_inside",
    "C59_views_inside",
    "C59_whole_array_operations_inside",
    "C59_programs_inside",
    "C59_positive_bases_refuted",
    "C59_empty_objects_refuted"
   ],
   "note": ""
  },
  {
   "property": "C60",
   "status": "proved",
   "theorems": [
    "C60_writes_are_seen",
    "C60_copies_are_shallow",
    "C60_refs_of_arrays_are_shallow",
    "C60_copies_have_their_own_geometry",
    "C60_array_copies_are_deep",
    "C60_copies_do_not_own",
    "C60_reindexed_copies_share"
   ],
   "note": ""
  },
  {
   "property": "C61",
   "status": "proved",
   "theorems": [
    "C61_related_elements",
    "C61_related_catching",
    "C61_relabel",
    "C61_values_do_not_matter",
    "C61_no_value_invented"
   ],
   "note": ""
  },
  {
   "property": "C62",
   "status": "proved",
   "theorems": [
    "C62_steps_are_calls",
    "C62_independent_threads",
    "C62_every_schedule_ends",
    "C62_views_own_their_geometry",
    "C62_reindex_while_in_use_refuted",
    "C62_iterators_share_geometry_refuted"
   ],
   "note": ""
  },
  {
   "property": "C63",
   "status": "proved",
   "theorems": [
    "C63_refs_share_by_position",
    "C63_part_exact",
    "C63_disjoint_parts_are_independent",
    "C63_overlong_ref_refuted"
   ],
   "note": ""
  },
  {
   "property": "C64",
   "status": "proved",
   "theorems": [
    "C64_where_torn_assignments_leave_a_program",
    "C64_outcome_is_determined",
    "C64_outcome_exists",
    "C64_only_one_element",
    "C64_assignment",
    "C64_resize_is_unaffected"
   ],
   "note": ""
  },
  {
   "property": "C65",
   "status": "proved",
   "theorems": [
    "C65_exactly_enough",
    "C65_outcome_is_determined",
    "C65_outcome_exists",
    "C65_smallest_memory",
    "C65_resize_needs_both",
    "C65_no_memory_needed"
   ],
   "note": ""
  },
  {
   "property": "C66",
   "status": "proved",
   "theorems": [
    "C66_steps_are_calls",
    "C66_threads_are_programs",
    "C66_threads_do_not_interfere",
    "C66_same_as_alone",
    "C66_outcome_exists",
    "C66_every_schedule_ends",
    "C66_destroying_shared_refuted",
    "C66_reader_left_with_nothing"
   ],
   "note": ""
  },
  {
   "property": "C67",
   "status": "proved",
   "theorems": [
    "C67_threads_share_elements",
    "C67_same_as_alone",
    "C67_outcome_exists",
    "C67_covers_private_programs",
    "C67_overlapping_lots_refuted"
   ],
   "note": ""
  },
  {
   "property": "C68",
   "status": "proved",
   "theorems": [
    "C68_fork_join",
    "C68_every_run_ends",
    "C68_one_outcome",
    "C68_outcome_exists"
   ],
   "note": ""
  },
  {
   "property": "C69",
   "status": "proved",
   "theorems": [
    "C69_sections_are_atomic",
    "C69_every_run_ends",
    "C69_names_end_with_the_section_refuted"
   ],
   "note": ""
  }
 ]
}