{
 "claims": [
  {
   "property": "C01",
   "status": "proved",
   "theorems": [
    "C01_unsigned_arithmetic",
    "C01_bitwise",
    "C01_div_by_zero_is_UB"
   ],
   "note": ""
  },
  {
   "property": "C02",
   "status": "proved",
   "theorems": [
    "C02_signed_arithmetic",
    "C02_bitwise_signed"
   ],
   "note": ""
  },
  {
   "property": "C03",
   "status": "proved",
   "theorems": [
    "C03_compare"
   ],
   "note": "Equality and all unsigned comparisons are proved; signed orderings are proved for every pair except equal negative operands, where the code is shown to be wrong (refuted)."
  },
  {
   "property": "C04",
   "status": "proved",
   "theorems": [
    "C04_logical_shift_right",
    "C04_arithmetic_shift_right_nonnegative",
    "C04_shift_64_is_UB"
   ],
   "note": ""
  },
  {
   "property": "C05",
   "status": "proved",
   "theorems": [
    "C05_invert",
    "C05_minus",
    "C05_plus",
    "C05_reduce_or",
    "C05_not",
    "C05_reduce_and",
    "C05_reduce_xor"
   ],
   "note": ""
  },
  {
   "property": "C06",
   "status": "proved",
   "theorems": [
    "C06_binary_result_fits",
    "C06_unary_result_fits",
    "C06_ternary",
    "C06_unsupported_throws"
   ],
   "note": ""
  },
  {
   "property": "C07",
   "status": "proved",
   "theorems": [
    "C07_const_accepted_iff_representable",
    "C07_unsigned_below_64",
    "C07_constant_stays_representable"
   ],
   "note": ""
  },
  {
   "property": "C08",
   "status": "proved",
   "theorems": [
    "C08_printed_expression_same_value",
    "C08_text_splits_into_tokens"
   ],
   "note": ""
  },
  {
   "property": "C09",
   "status": "proved",
   "theorems": [
    "C09_slice_chain_addresses_row_major",
    "C09_full_index_is_row_major"
   ],
   "note": ""
  },
  {
   "property": "C10",
   "status": "proved",
   "theorems": [
    "C10_fields_tile_in_declaration_order",
    "C10_every_bit_in_one_field",
    "C10_member_inside_struct"
   ],
   "note": ""
  },
  {
   "property": "C11",
   "status": "proved",
   "theorems": [
    "C11_flatten_enumerates_row_major"
   ],
   "note": ""
  },
  {
   "property": "C12",
   "status": "proved",
   "theorems": [
    "C12_clog2_least"
   ],
   "note": ""
  },
  {
   "property": "C13",
   "status": "proved",
   "theorems": [
    "C13_tokens_are_maximal_runs"
   ],
   "note": ""
  },
  {
   "property": "C14",
   "status": "proved",
   "theorems": [
    "C14_if_to_case_preserves_behaviour",
    "C14_if_to_case_total"
   ],
   "note": ""
  },
  {
   "property": "C15",
   "status": "proved",
   "theorems": [
    "C15_remove_empty_preserves_behaviour",
    "C15_remove_empty_tidy",
    "C15_remove_empty_deletes_only_hollow",
    "C15_remove_empty_total"
   ],
   "note": ""
  },
  {
   "property": "C16",
   "status": "proved",
   "theorems": [
    "C16_merge_if_preserves_behaviour"
   ],
   "note": ""
  },
  {
   "property": "C17",
   "status": "proved",
   "theorems": [
    "C17_merge_wires_preserves_connectivity",
    "C17_merge_wires_keeps_other_statements",
    "C17_merge_wires_merges",
    "C17_merge_block_same_registers"
   ],
   "note": ""
  },
  {
   "property": "C18",
   "status": "proved",
   "theorems": [
    "C18_output_delayed_by_n"
   ],
   "note": ""
  },
  {
   "property": "C19",
   "status": "proved",
   "theorems": [
    "C19_enabled_edge_as_before",
    "C19_disabled_edge_changes_nothing",
    "C19_already_enabled",
    "C19_reset_ignores_the_enable",
    "C19_history"
   ],
   "note": ""
  },
  {
   "property": "C20",
   "status": "proved",
   "theorems": [
    "C20_reset_above_everything",
    "C20_reset_below_the_enable",
    "C20_reset_low_as_before"
   ],
   "note": ""
  },
  {
   "property": "C21",
   "status": "proved",
   "theorems": [
    "C21_conflicts_are_reported",
    "C21_only_undecided_kinds_change",
    "C21_every_kind_is_decided"
   ],
   "note": ""
  },
  {
   "property": "C22",
   "status": "proved",
   "theorems": [
    "C22_sorting_is_stable",
    "C22_initial_blocks_go_last"
   ],
   "note": ""
  },
  {
   "property": "C23",
   "status": "proved",
   "theorems": [
    "C23_assigned_on_every_path",
    "C23_no_memory",
    "C23_surely_assigned_is_accepted"
   ],
   "note": ""
  },
  {
   "property": "C24",
   "status": "proved",
   "theorems": [
    "C24_every_path_returns",
    "C24_return_at_the_end_is_accepted"
   ],
   "note": ""
  },
  {
   "property": "C25",
   "status": "proved",
   "theorems": [
    "C25_one_driver_per_bit",
    "C25_one_process_accepted"
   ],
   "note": ""
  },
  {
   "property": "C26",
   "status": "proved",
   "theorems": [
    "C26_zeroes_exactly_the_missing_bits",
    "C26_zeroing_succeeds"
   ],
   "note": ""
  },
  {
   "property": "C27",
   "status": "proved",
   "theorems": [
    "C27_fresh_name",
    "C27_shape_of_the_name"
   ],
   "note": ""
  },
  {
   "property": "C28",
   "status": "proved",
   "theorems": [
    "C28_follows_declared_transitions",
    "C28_reset_from_any_contents",
    "C28_moore_outputs_as_declared",
    "C28_reset_level",
    "C28_register_process_is_nonblocking"
   ],
   "note": ""
  },
  {
   "property": "C29",
   "status": "proved",
   "theorems": [
    "C29_states_are_the_members",
    "C29_codes_are_positions",
    "C29_width_is_minimal"
   ],
   "note": ""
  },
  {
   "property": "C30",
   "status": "proved",
   "theorems": [
    "C30_modules_get_unique_names",
    "C30_equal_names_iff_equal_name_and_hash",
    "C30_tracked_modules_keep_the_name"
   ],
   "note": ""
  },
  {
   "property": "C31",
   "status": "partial",
   "theorems": [
    "C31_hash_ignores_differences_refuted",
    "C31_swapped_subtraction_refuted",
    "C31_case_labels_refuted",
    "C31_multiplexer_condition_refuted",
    "C31_assignment_kind_refuted",
    "C31_loop_bounds_refuted"
   ],
   "note": "False of the code: refuted by a machine-checked witness."
  },
  {
   "property": "C32",
   "status": "proved",
   "theorems": [
    "C32_loop_runs_the_declared_values",
    "C32_loop_of_31_bits",
    "C32_equal_bounds_run_nothing"
   ],
   "note": ""
  },
  {
   "property": "C33",
   "status": "proved",
   "theorems": [
    "C33_shared_instances_are_rejected",
    "C33_sorted_children_first",
    "C33_levels_are_depths"
   ],
   "note": ""
  },
  {
   "property": "C34",
   "status": "proved",
   "theorems": [
    "C34_ports_are_wired_the_legal_way",
    "C34_port_and_variable",
    "C34_order_does_not_matter"
   ],
   "note": ""
  },
  {
   "property": "C35",
   "status": "proved",
   "theorems": [
    "C35_lookup_after_any_history",
    "C35_port_lookup_after_any_history",
    "C35_accepted_as_specified",
    "C35_failed_declaration_changes_nothing"
   ],
   "note": ""
  },
  {
   "property": "C36",
   "status": "proved",
   "theorems": [
    "C36_flip_reverses_directions",
    "C36_duplicates_are_rejected",
    "C36_flip_is_an_involution"
   ],
   "note": ""
  },
  {
   "property": "C37",
   "status": "proved",
   "theorems": [
    "C37_hits_are_the_entered_blocks",
    "C37_reported_statements",
    "C37_each_reported_once",
    "C37_run_order_does_not_matter"
   ],
   "note": ""
  },
  {
   "property": "C38",
   "status": "proved",
   "theorems": [
    "C38_expression_value"
   ],
   "note": ""
  },
  {
   "property": "C39",
   "status": "proved",
   "theorems": [
    "C39_read_element",
    "C39_write_element"
   ],
   "note": ""
  },
  {
   "property": "C40",
   "status": "proved",
   "theorems": [
    "C40_block"
   ],
   "note": ""
  },
  {
   "property": "C41",
   "status": "proved",
   "theorems": [
    "C41_enable_condition_is_exact"
   ],
   "note": ""
  },
  {
   "property": "C42",
   "status": "proved",
   "theorems": [
    "C42_read_returns_the_last_written",
    "C42_output_is_held",
    "C42_one_sram"
   ],
   "note": ""
  },
  {
   "property": "C43",
   "status": "proved",
   "theorems": [
    "C43_pairs_recovered",
    "C43_line_decoded",
    "C43_other_pages_skipped"
   ],
   "note": ""
  },
  {
   "property": "C44",
   "status": "proved",
   "theorems": [
    "C44_escape_is_reversible",
    "C44_no_raw_markup",
    "C44_escape_is_injective"
   ],
   "note": ""
  },
  {
   "property": "C45",
   "status": "proved",
   "theorems": [
    "C45_text_nests_as_built",
    "C45_block_nests_as_built",
    "C45_case_labels_sorted"
   ],
   "note": ""
  },
  {
   "property": "C46",
   "status": "proved",
   "theorems": [
    "C46_event_removal_removes_only_events",
    "C46_assertion_removal_removes_only_assertions",
    "C46_stripped_block_is_clean",
    "C46_async_removal_removes_only_async_controls"
   ],
   "note": ""
  },
  {
   "property": "C47",
   "status": "proved",
   "theorems": [
    "C47_deferred_removal",
    "C47_order_does_not_matter"
   ],
   "note": ""
  },
  {
   "property": "C48",
   "status": "proved",
   "theorems": [
    "C48_parameters_that_follow",
    "C48_values_along_a_chain",
    "C48_dimensions_follow",
    "C48_dimension_of_one_parameter",
    "C48_width_of_one_parameter",
    "C48_width_of_an_array",
    "C48_slices_stay_inside"
   ],
   "note": ""
  },
  {
   "property": "C49",
   "status": "partial",
   "theorems": [
    "C49_signed_width_64_refuted",
    "C49_invert_width_64_refuted"
   ],
   "note": "False of the code: refuted with the undefined shift shown for every 64-bit operand."
  },
  {
   "property": "C50",
   "status": "partial",
   "theorems": [
    "C50_arithmetic_shift_right_negative_refuted",
    "C50_minus_one_shifted_is_wrong"
   ],
   "note": "False of the code: refuted by witness; the non-negative case is C04."
  },
  {
   "property": "C51",
   "status": "partial",
   "theorems": [
    "C51_reduce_and_wide_refuted",
    "C51_reduce_xor_wide_refuted"
   ],
   "note": "False of the code: refuted by witness; at most 32 bits is C05."
  },
  {
   "property": "C52",
   "status": "partial",
   "theorems": [
    "C52_if_to_case_repeated_test_refuted"
   ],
   "note": "False of the code: refuted by witness; chains without a repeated test are C14."
  },
  {
   "property": "C53",
   "status": "partial",
   "theorems": [
    "C53_remove_empty_case_with_default_refuted"
   ],
   "note": "False of the code: refuted by witness."
  },
  {
   "property": "C54",
   "status": "partial",
   "theorems": [
    "C54_remove_empty_if_crashes_refuted"
   ],
   "note": "False of the code: the crash is proved for every predicate."
  },
  {
   "property": "C55",
   "status": "partial",
   "theorems": [
    "C55_remove_empty_wide_predicate_refuted"
   ],
   "note": "False of the code: refuted by witness."
  },
  {
   "property": "C56",
   "status": "partial",
   "theorems": [
    "C56_merge_if_else_lost_refuted"
   ],
   "note": "False of the code: refuted by witness."
  },
  {
   "property": "C57",
   "status": "partial",
   "theorems": [
    "C57_merge_if_state_update_refuted"
   ],
   "note": "False of the code: refuted by witness."
  },
  {
   "property": "C58",
   "status": "partial",
   "theorems": [
    "C58_merge_if_reorders_refuted"
   ],
   "note": "False of the code: refuted by witness."
  },
  {
   "property": "C59",
   "status": "partial",
   "theorems": [
    "C59_merge_wires_permuted_refuted"
   ],
   "note": "False of the code: refuted by a machine-checked witness."
  },
  {
   "property": "C60",
   "status": "partial",
   "theorems": [
    "C60_merge_block_blocking_refuted"
   ],
   "note": "False of the code: refuted by a machine-checked witness."
  },
  {
   "property": "C61",
   "status": "proved",
   "theorems": [
    "C61_const_text_denotes_value"
   ],
   "note": ""
  },
  {
   "property": "C62",
   "status": "partial",
   "theorems": [
    "C62_const_text_64_bits_refuted"
   ],
   "note": "False of the code: refuted by a machine-checked witness."
  },
  {
   "property": "C63",
   "status": "partial",
   "theorems": [
    "C63_string_constant_refuted",
    "C63_high_character_refuted"
   ],
   "note": "False of the code: refuted by a machine-checked witness."
  },
  {
   "property": "C64",
   "status": "partial",
   "theorems": [
    "C64_right_nested_operator_refuted"
   ],
   "note": "False of the code: refuted by a machine-checked witness."
  },
  {
   "property": "C65",
   "status": "partial",
   "theorems": [
    "C65_negated_difference_refuted"
   ],
   "note": "False of the code: refuted by a machine-checked witness."
  },
  {
   "property": "C66",
   "status": "partial",
   "theorems": [
    "C66_repeated_prefix_refuted"
   ],
   "note": "False of the code: refuted by a machine-checked witness."
  },
  {
   "property": "C67",
   "status": "partial",
   "theorems": [
    "C67_range_of_multi_dim_refuted"
   ],
   "note": "False of the code: refuted by a machine-checked witness."
  },
  {
   "property": "C68",
   "status": "partial",
   "theorems": [
    "C68_struct_layout_matches_typedef_refuted"
   ],
   "note": "False of the code: refuted by a machine-checked witness."
  },
  {
   "property": "C69",
   "status": "partial",
   "theorems": [
    "C69_member_of_vector_rejected_refuted"
   ],
   "note": "False of the code: refuted by a machine-checked witness."
  },
  {
   "property": "C70",
   "status": "partial",
   "theorems": [
    "C70_struct_member_text_refuted",
    "C70_other_member_text_partial"
   ],
   "note": ""
  },
  {
   "property": "C71",
   "status": "partial",
   "theorems": [
    "C71_redefinition_of_flat_struct_partial",
    "C71_redefinition_same_width_partial",
    "C71_redefinition_is_identical_refuted"
   ],
   "note": ""
  },
  {
   "property": "C72",
   "status": "proved",
   "theorems": [
    "C72_wrap_keeps_words",
    "C72_wrapped_lines_fit"
   ],
   "note": ""
  },
  {
   "property": "C73",
   "status": "partial",
   "theorems": [
    "C73_wrap_after_long_word_refuted"
   ],
   "note": "False of the code: refuted by a machine-checked witness."
  },
  {
   "property": "C74",
   "status": "proved",
   "theorems": [
    "C74_comment_on_one_line",
    "C74_plain_comment_unchanged"
   ],
   "note": ""
  },
  {
   "property": "C75",
   "status": "partial",
   "theorems": [
    "C75_comment_leading_newline_refuted",
    "C75_comment_loses_text_refuted"
   ],
   "note": "False of the code: refuted by a machine-checked witness."
  },
  {
   "property": "C76",
   "status": "partial",
   "theorems": [
    "C76_signed_order_refuted"
   ],
   "note": "False of the code: refuted by a machine-checked witness."
  },
  {
   "property": "C77",
   "status": "partial",
   "theorems": [
    "C77_negation_and_reduction_have_a_value_refuted"
   ],
   "note": "False of the code: refuted by a machine-checked witness."
  },
  {
   "property": "C78",
   "status": "partial",
   "theorems": [
    "C78_sign_extension_refuted"
   ],
   "note": "False of the code: refuted by a machine-checked witness."
  },
  {
   "property": "C79",
   "status": "partial",
   "theorems": [
    "C79_bit_read_refuted",
    "C79_range_read_refuted",
    "C79_bit_write_refuted"
   ],
   "note": "False of the code: refuted by a machine-checked witness."
  },
  {
   "property": "C80",
   "status": "partial",
   "theorems": [
    "C80_last_nonblocking_wins_refuted"
   ],
   "note": "False of the code: refuted by a machine-checked witness."
  },
  {
   "property": "C81",
   "status": "partial",
   "theorems": [
    "C81_negative_constant_equality_refuted"
   ],
   "note": "False of the code: refuted by a machine-checked witness."
  },
  {
   "property": "C82",
   "status": "partial",
   "theorems": [
    "C82_wide_case_refuted",
    "C82_case_64_is_UB_refuted"
   ],
   "note": "False of the code: refuted by a machine-checked witness."
  },
  {
   "property": "C83",
   "status": "proved",
   "theorems": [
    "C83_reset_registers_are_driven",
    "C83_rejection_is_justified"
   ],
   "note": ""
  },
  {
   "property": "C84",
   "status": "partial",
   "theorems": [
    "C84_partial_assignment_is_a_latch_refuted"
   ],
   "note": "False of the code: refuted by a machine-checked witness."
  },
  {
   "property": "C85",
   "status": "partial",
   "theorems": [
    "C85_loops_in_latch_check_refuted",
    "C85_loops_in_return_check_refuted"
   ],
   "note": "False of the code: refuted by a machine-checked witness."
  },
  {
   "property": "C86",
   "status": "partial",
   "theorems": [
    "C86_wide_case_check_refuted"
   ],
   "note": "False of the code: refuted by a machine-checked witness."
  },
  {
   "property": "C87",
   "status": "partial",
   "theorems": [
    "C87_default_condition_refuted",
    "C87_lone_default_refuted"
   ],
   "note": "False of the code: refuted by a machine-checked witness."
  },
  {
   "property": "C88",
   "status": "partial",
   "theorems": [
    "C88_loops_are_not_checked_refuted"
   ],
   "note": "False of the code: refuted by a machine-checked witness."
  },
  {
   "property": "C89",
   "status": "partial",
   "theorems": [
    "C89_order_independent_refuted"
   ],
   "note": "False of the code: refuted by a machine-checked witness."
  },
  {
   "property": "C90",
   "status": "partial",
   "theorems": [
    "C90_distinct_states_distinct_codes_refuted"
   ],
   "note": "False of the code: refuted by a machine-checked witness."
  },
  {
   "property": "C91",
   "status": "partial",
   "theorems": [
    "C91_kept_output_refuted"
   ],
   "note": "False of the code: refuted by a machine-checked witness."
  },
  {
   "property": "C92",
   "status": "partial",
   "theorems": [
    "C92_mealy_outputs_refuted"
   ],
   "note": "False of the code: refuted by a machine-checked witness."
  },
  {
   "property": "C93",
   "status": "partial",
   "theorems": [
    "C93_final_states_refuted",
    "C93_two_unconditional_refuted"
   ],
   "note": "False of the code: refuted by a machine-checked witness."
  },
  {
   "property": "C94",
   "status": "partial",
   "theorems": [
    "C94_port_over_variable_refuted"
   ],
   "note": "False of the code: refuted by a machine-checked witness."
  },
  {
   "property": "C95",
   "status": "partial",
   "theorems": [
    "C95_failed_removal_refuted"
   ],
   "note": "False of the code: refuted by a machine-checked witness."
  },
  {
   "property": "C96",
   "status": "partial",
   "theorems": [
    "C96_redeclaring_an_array_refuted",
    "C96_other_shape_accepted_refuted"
   ],
   "note": "False of the code: refuted by a machine-checked witness."
  },
  {
   "property": "C97",
   "status": "partial",
   "theorems": [
    "C97_removed_port_refuted",
    "C97_renamed_port_refuted"
   ],
   "note": "False of the code: refuted by a machine-checked witness."
  },
  {
   "property": "C98",
   "status": "partial",
   "theorems": [
    "C98_rename_collision_refuted"
   ],
   "note": "False of the code: refuted by a machine-checked witness."
  },
  {
   "property": "C99",
   "status": "partial",
   "theorems": [
    "C99_rename_with_interface_refuted"
   ],
   "note": "False of the code: refuted by a machine-checked witness."
  },
  {
   "property": "C100",
   "status": "partial",
   "theorems": [
    "C100_parameter_refuted",
    "C100_sized_parameter_clash_is_rejected"
   ],
   "note": ""
  },
  {
   "property": "C101",
   "status": "proved",
   "theorems": [
    "C101_inlining_keeps_every_variable"
   ],
   "note": ""
  },
  {
   "property": "C102",
   "status": "partial",
   "theorems": [
    "C102_inlining_loses_a_variable_refuted"
   ],
   "note": "False of the code: refuted by a machine-checked witness."
  },
  {
   "property": "C103",
   "status": "partial",
   "theorems": [
    "C103_external_name_shared_refuted"
   ],
   "note": "False of the code: refuted by a machine-checked witness."
  },
  {
   "property": "C104",
   "status": "proved",
   "theorems": [
    "C104_copies_hash_equal"
   ],
   "note": ""
  },
  {
   "property": "C105",
   "status": "partial",
   "theorems": [
    "C105_deep_nesting_undefined_refuted"
   ],
   "note": "False of the code: refuted by a machine-checked witness."
  },
  {
   "property": "C106",
   "status": "partial",
   "theorems": [
    "C106_levels_read_freed_memory_refuted"
   ],
   "note": "False of the code: refuted by a machine-checked witness."
  },
  {
   "property": "C107",
   "status": "partial",
   "theorems": [
    "C107_unchecked_sequential_becomes_blocking_refuted"
   ],
   "note": "False of the code: refuted by a machine-checked witness."
  },
  {
   "property": "C108",
   "status": "partial",
   "theorems": [
    "C108_initial_and_latch_kinds_unchecked_refuted"
   ],
   "note": "False of the code: refuted by a machine-checked witness."
  },
  {
   "property": "C109",
   "status": "partial",
   "theorems": [
    "C109_sorting_rejects_other_statements_refuted"
   ],
   "note": "False of the code: refuted by a machine-checked witness."
  },
  {
   "property": "C110",
   "status": "partial",
   "theorems": [
    "C110_assertion_removal_undefined_refuted"
   ],
   "note": "False of the code: refuted by a machine-checked witness."
  },
  {
   "property": "C111",
   "status": "partial",
   "theorems": [
    "C111_initial_latch_function_not_stripped_refuted"
   ],
   "note": "False of the code: refuted by a machine-checked witness."
  },
  {
   "property": "C112",
   "status": "partial",
   "theorems": [
    "C112_deferred_removal_removes_all_copies_refuted"
   ],
   "note": "False of the code: refuted by a machine-checked witness."
  },
  {
   "property": "C113",
   "status": "partial",
   "theorems": [
    "C113_statement_added_again_is_lost_refuted"
   ],
   "note": "False of the code: refuted by a machine-checked witness."
  },
  {
   "property": "C114",
   "status": "partial",
   "theorems": [
    "C114_inout_depends_on_order_refuted"
   ],
   "note": "False of the code: refuted by a machine-checked witness."
  },
  {
   "property": "C115",
   "status": "partial",
   "theorems": [
    "C115_interface_order_drives_input_refuted"
   ],
   "note": "False of the code: refuted by a machine-checked witness."
  },
  {
   "property": "C116",
   "status": "partial",
   "theorems": [
    "C116_foreign_signals_are_accepted_refuted"
   ],
   "note": "False of the code: refuted by a machine-checked witness."
  },
  {
   "property": "C117",
   "status": "partial",
   "theorems": [
    "C117_flip_loses_the_name_refuted"
   ],
   "note": "False of the code: refuted by a machine-checked witness."
  },
  {
   "property": "C118",
   "status": "partial",
   "theorems": [
    "C118_rejected_inout_remains_refuted"
   ],
   "note": "False of the code: refuted by a machine-checked witness."
  },
  {
   "property": "C119",
   "status": "proved",
   "theorems": [
    "C119_bundle_connection"
   ],
   "note": ""
  },
  {
   "property": "C120",
   "status": "partial",
   "theorems": [
    "C120_rejected_connection_leaves_wires_refuted"
   ],
   "note": "False of the code: refuted by a machine-checked witness."
  },
  {
   "property": "C121",
   "status": "partial",
   "theorems": [
    "C121_case_branches_and_loops_are_missed_refuted"
   ],
   "note": "False of the code: refuted by a machine-checked witness."
  },
  {
   "property": "C122",
   "status": "partial",
   "theorems": [
    "C122_later_coverage_is_ignored_refuted"
   ],
   "note": "False of the code: refuted by a machine-checked witness."
  },
  {
   "property": "C123",
   "status": "proved",
   "theorems": [
    "C123_rates_at_most_one",
    "C123_covered_lines"
   ],
   "note": ""
  },
  {
   "property": "C124",
   "status": "partial",
   "theorems": [
    "C124_branch_rate_above_one_refuted"
   ],
   "note": "False of the code: refuted by a machine-checked witness."
  },
  {
   "property": "C125",
   "status": "proved",
   "theorems": [
    "C125_writer_produces_the_document"
   ],
   "note": ""
  },
  {
   "property": "C126",
   "status": "proved",
   "theorems": [
    "C126_report_is_well_formed"
   ],
   "note": ""
  },
  {
   "property": "C127",
   "status": "proved",
   "theorems": [
    "C127_source_lines_listed_once"
   ],
   "note": ""
  },
  {
   "property": "C128",
   "status": "partial",
   "theorems": [
    "C128_hits_of_instances_are_lost_refuted"
   ],
   "note": "False of the code: refuted by a machine-checked witness."
  },
  {
   "property": "C129",
   "status": "partial",
   "theorems": [
    "C129_large_counts_are_truncated_refuted"
   ],
   "note": "False of the code: refuted by a machine-checked witness."
  },
  {
   "property": "C130",
   "status": "partial",
   "theorems": [
    "C130_quote_in_a_value_refuted"
   ],
   "note": "False of the code: refuted by a machine-checked witness."
  },
  {
   "property": "C131",
   "status": "proved",
   "theorems": [
    "C131_hits_are_mapped_to_blocks"
   ],
   "note": ""
  },
  {
   "property": "C132",
   "status": "partial",
   "theorems": [
    "C132_directories_are_ignored_refuted"
   ],
   "note": "False of the code: refuted by a machine-checked witness."
  },
  {
   "property": "C133",
   "status": "proved",
   "theorems": [
    "C133_block_report_read_back"
   ],
   "note": ""
  },
  {
   "property": "C134",
   "status": "partial",
   "theorems": [
    "C134_last_column_has_a_blank_refuted"
   ],
   "note": "False of the code: refuted by a machine-checked witness."
  },
  {
   "property": "C135",
   "status": "proved",
   "theorems": [
    "C135_root_and_name_give_the_path"
   ],
   "note": ""
  },
  {
   "property": "C136",
   "status": "partial",
   "theorems": [
    "C136_root_is_not_a_directory_refuted"
   ],
   "note": "False of the code: refuted by a machine-checked witness."
  },
  {
   "property": "C137",
   "status": "partial",
   "theorems": [
    "C137_names_without_directory_refuted"
   ],
   "note": "False of the code: refuted by a machine-checked witness."
  },
  {
   "property": "C138",
   "status": "partial",
   "theorems": [
    "C138_counting_down_past_zero_refuted",
    "C138_odd_countdown_never_ends_refuted"
   ],
   "note": "False of the code: refuted by a machine-checked witness."
  },
  {
   "property": "C139",
   "status": "partial",
   "theorems": [
    "C139_step_away_from_the_end_refuted"
   ],
   "note": "False of the code: refuted by a machine-checked witness."
  },
  {
   "property": "C140",
   "status": "proved",
   "theorems": [
    "C140_accepted_index_fits"
   ],
   "note": ""
  },
  {
   "property": "C141",
   "status": "partial",
   "theorems": [
    "C141_two_loop_variables_refuted"
   ],
   "note": "False of the code: refuted by a machine-checked witness."
  },
  {
   "property": "C142",
   "status": "partial",
   "theorems": [
    "C142_fully_driven_by_parts_refuted"
   ],
   "note": "False of the code: refuted by a machine-checked witness."
  },
  {
   "property": "C143",
   "status": "partial",
   "theorems": [
    "C143_wide_inputs_refuted"
   ],
   "note": "False of the code: refuted by a machine-checked witness."
  },
  {
   "property": "C144",
   "status": "partial",
   "theorems": [
    "C144_two_dimensions_refuted"
   ],
   "note": "False of the code: refuted by a machine-checked witness."
  },
  {
   "property": "C145",
   "status": "partial",
   "theorems": [
    "C145_zero_outside_the_parent_refuted"
   ],
   "note": "False of the code: refuted by a machine-checked witness."
  },
  {
   "property": "C146",
   "status": "partial",
   "theorems": [
    "C146_output_during_a_write_refuted"
   ],
   "note": "False of the code: refuted by a machine-checked witness."
  },
  {
   "property": "C147",
   "status": "partial",
   "theorems": [
    "C147_number_of_banks_refuted"
   ],
   "note": "False of the code: refuted by a machine-checked witness."
  },
  {
   "property": "C148",
   "status": "partial",
   "theorems": [
    "C148_partly_enabled_process_refuted",
    "C148_register_changes_refuted"
   ],
   "note": "False of the code: refuted by a machine-checked witness."
  },
  {
   "property": "C149",
   "status": "partial",
   "theorems": [
    "C149_reset_beside_other_statements_refuted"
   ],
   "note": "False of the code: refuted by a machine-checked witness."
  },
  {
   "property": "C150",
   "status": "partial",
   "theorems": [
    "C150_partial_reset_refuted"
   ],
   "note": "False of the code: refuted by a machine-checked witness."
  },
  {
   "property": "C151",
   "status": "partial",
   "theorems": [
    "C151_order_of_insertion_refuted"
   ],
   "note": "False of the code: refuted by a machine-checked witness."
  },
  {
   "property": "C152",
   "status": "partial",
   "theorems": [
    "C152_module_reads_its_output_refuted"
   ],
   "note": "False of the code: refuted by a machine-checked witness."
  },
  {
   "property": "C153",
   "status": "partial",
   "theorems": [
    "C153_element_width_refuted",
    "C153_value_of_the_parameter_refuted"
   ],
   "note": "False of the code: refuted by a machine-checked witness."
  },
  {
   "property": "C154",
   "status": "partial",
   "theorems": [
    "C154_width_parameter_taken_away_refuted",
    "C154_stays_registered_refuted"
   ],
   "note": "False of the code: refuted by a machine-checked witness."
  },
  {
   "property": "C155",
   "status": "partial",
   "theorems": [
    "C155_dimension_given_to_another_parameter_refuted"
   ],
   "note": "False of the code: refuted by a machine-checked witness."
  },
  {
   "property": "C156",
   "status": "partial",
   "theorems": [
    "C156_parameter_set_from_another_refuted"
   ],
   "note": "False of the code: refuted by a machine-checked witness."
  },
  {
   "property": "C157",
   "status": "partial",
   "theorems": [
    "C157_parameter_set_to_a_number_refuted",
    "C157_parent_is_kept_refuted"
   ],
   "note": "False of the code: refuted by a machine-checked witness."
  },
  {
   "property": "C158",
   "status": "partial",
   "theorems": [
    "C158_parameters_set_from_each_other_refuted"
   ],
   "note": "False of the code: refuted by a machine-checked witness."
  },
  {
   "property": "C159",
   "status": "proved",
   "theorems": [
    "C159_same_values",
    "C159_same_interface",
    "C159_nothing_dangles"
   ],
   "note": ""
  },
  {
   "property": "C160",
   "status": "proved",
   "theorems": [
    "C160_no_dead_variable_left",
    "C160_no_empty_instance_left"
   ],
   "note": ""
  },
  {
   "property": "C161",
   "status": "partial",
   "theorems": [
    "C161_instance_clock_refuted"
   ],
   "note": "False of the code: refuted by a machine-checked witness."
  },
  {
   "property": "C162",
   "status": "partial",
   "theorems": [
    "C162_external_instance_refuted"
   ],
   "note": "False of the code: refuted by a machine-checked witness."
  },
  {
   "property": "C163",
   "status": "partial",
   "theorems": [
    "C163_sliced_dead_variable_refuted"
   ],
   "note": "False of the code: refuted by a machine-checked witness."
  },
  {
   "property": "C164",
   "status": "proved",
   "theorems": [
    "C164_module_name",
    "C164_variable_name",
    "C164_clock_edge",
    "C164_target",
    "C164_source",
    "C164_swapped_sides",
    "C164_condition"
   ],
   "note": ""
  },
  {
   "property": "C165",
   "status": "partial",
   "theorems": [
    "C165_compare_equal_negative_refuted"
   ],
   "note": "False of the code: refuted by a machine-checked witness."
  },
  {
   "property": "C166",
   "status": "proved",
   "theorems": [
    "C166_same_histories",
    "C166_ends",
    "C166_no_row_left",
    "C166_repeatable"
   ],
   "note": ""
  },
  {
   "property": "C167",
   "status": "partial",
   "theorems": [
    "C167_input_chain_refuted",
    "C167_output_in_chain_refuted",
    "C167_two_drivers_refuted",
    "C167_bypassed_undriven"
   ],
   "note": ""
  },
  {
   "property": "C168",
   "status": "partial",
   "theorems": [
    "C168_clock_chain_refuted"
   ],
   "note": "False of the code: refuted by a machine-checked witness."
  },
  {
   "property": "C169",
   "status": "partial",
   "theorems": [
    "C169_blocking_order_refuted"
   ],
   "note": "False of the code: refuted by a machine-checked witness."
  },
  {
   "property": "C170",
   "status": "partial",
   "theorems": [
    "C170_circle",
    "C170_ends_refuted"
   ],
   "note": ""
  },
  {
   "property": "C171",
   "status": "proved",
   "theorems": [
    "C171_same_histories",
    "C171_port_gets_constant",
    "C171_none_left",
    "C171_drivers"
   ],
   "note": ""
  },
  {
   "property": "C172",
   "status": "partial",
   "theorems": [
    "C172_expression_lost_refuted"
   ],
   "note": "False of the code: refuted by a machine-checked witness."
  },
  {
   "property": "C173",
   "status": "partial",
   "theorems": [
    "C173_register_refuted",
    "C173_condition_refuted"
   ],
   "note": "False of the code: refuted by a machine-checked witness."
  },
  {
   "property": "C174",
   "status": "partial",
   "theorems": [
    "C174_clock_lost_refuted"
   ],
   "note": "False of the code: refuted by a machine-checked witness."
  },
  {
   "property": "C175",
   "status": "proved",
   "theorems": [
    "C175_moves",
    "C175_stays",
    "C175_throws",
    "C175_same_histories"
   ],
   "note": ""
  },
  {
   "property": "C176",
   "status": "partial",
   "theorems": [
    "C176_extension_refuted",
    "C176_concatenation_refuted",
    "C176_condition_refuted",
    "C176_choice_refuted",
    "C176_stay"
   ],
   "note": ""
  },
  {
   "property": "C177",
   "status": "partial",
   "theorems": [
    "C177_index_refuted",
    "C177_index_throws"
   ],
   "note": ""
  },
  {
   "property": "C178",
   "status": "proved",
   "theorems": [
    "C178_same_histories",
    "C178_gone",
    "C178_others_stay",
    "C178_recognised"
   ],
   "note": ""
  },
  {
   "property": "C179",
   "status": "partial",
   "theorems": [
    "C179_register_refuted",
    "C179_latch_refuted"
   ],
   "note": "False of the code: refuted by a machine-checked witness."
  },
  {
   "property": "C180",
   "status": "partial",
   "theorems": [
    "C180_condition_refuted",
    "C180_clock_refuted",
    "C180_slice_refuted"
   ],
   "note": "False of the code: refuted by a machine-checked witness."
  },
  {
   "property": "C181",
   "status": "proved",
   "theorems": [
    "C181_built",
    "C181_sources",
    "C181_sinks",
    "C181_no_use_missing",
    "C181_sinks_of_a_new_design",
    "C181_unwire",
    "C181_clear"
   ],
   "note": ""
  },
  {
   "property": "C182",
   "status": "partial",
   "theorems": [
    "C182_what_stays",
    "C182_slice_refuted",
    "C182_index_refuted"
   ],
   "note": ""
  },
  {
   "property": "C183",
   "status": "partial",
   "theorems": [
    "C183_remove_keeps",
    "C183_remove_refuted",
    "C183_unassign",
    "C183_unassign_refuted"
   ],
   "note": ""
  },
  {
   "property": "C184",
   "status": "partial",
   "theorems": [
    "C184_added_again",
    "C184_refuted"
   ],
   "note": ""
  },
  {
   "property": "C185",
   "status": "proved",
   "theorems": [
    "C185_value",
    "C185_assigned",
    "C185_unsigned",
    "C185_no_division",
    "C185_named"
   ],
   "note": ""
  },
  {
   "property": "C186",
   "status": "partial",
   "theorems": [
    "C186_division_refuted",
    "C186_shift_refuted"
   ],
   "note": "False of the code: refuted by a machine-checked witness."
  },
  {
   "property": "C187",
   "status": "proved",
   "theorems": [
    "C187_extended",
    "C187_constant_right",
    "C187_constant_left"
   ],
   "note": ""
  },
  {
   "property": "C188",
   "status": "partial",
   "theorems": [
    "C188_cut_off",
    "C188_refuted"
   ],
   "note": ""
  },
  {
   "property": "C189",
   "status": "partial",
   "theorems": [
    "C189_refuted"
   ],
   "note": "False of the code: refuted by a machine-checked witness."
  },
  {
   "property": "C190",
   "status": "partial",
   "theorems": [
    "C190_changed",
    "C190_refuted"
   ],
   "note": ""
  },
  {
   "property": "C191",
   "status": "proved",
   "theorems": [
    "C191_accepted",
    "C191_stored",
    "C191_constant",
    "C191_rejected"
   ],
   "note": ""
  },
  {
   "property": "C192",
   "status": "proved",
   "theorems": [
    "C192_one_edge",
    "C192_synchronous",
    "C192_tests",
    "C192_reset_branch",
    "C192_passes",
    "C192_sensitivity"
   ],
   "note": ""
  },
  {
   "property": "C193",
   "status": "partial",
   "theorems": [
    "C193_refuted",
    "C193_cast_refuted"
   ],
   "note": "False of the code: refuted by a machine-checked witness."
  },
  {
   "property": "C194",
   "status": "partial",
   "theorems": [
    "C194_refuted"
   ],
   "note": "False of the code: refuted by a machine-checked witness."
  },
  {
   "property": "C195",
   "status": "proved",
   "theorems": [
    "C195_reported",
    "C195_reads_itself"
   ],
   "note": ""
  },
  {
   "property": "C196",
   "status": "partial",
   "theorems": [
    "C196_two_wires_refuted",
    "C196_condition_refuted",
    "C196_slice_refuted"
   ],
   "note": "False of the code: refuted by a machine-checked witness."
  },
  {
   "property": "C197",
   "status": "partial",
   "theorems": [
    "C197_refuted"
   ],
   "note": "False of the code: refuted by a machine-checked witness."
  },
  {
   "property": "C198",
   "status": "proved",
   "theorems": [
    "C198_connected"
   ],
   "note": ""
  },
  {
   "property": "C199",
   "status": "partial",
   "theorems": [
    "C199_index_refuted",
    "C199_top_refuted"
   ],
   "note": "False of the code: refuted by a machine-checked witness."
  },
  {
   "property": "C200",
   "status": "partial",
   "theorems": [
    "C200_refuted"
   ],
   "note": "False of the code: refuted by a machine-checked witness."
  },
  {
   "property": "C201",
   "status": "proved",
   "theorems": [
    "C201_kinds",
    "C201_wires",
    "C201_registers"
   ],
   "note": ""
  },
  {
   "property": "C202",
   "status": "proved",
   "theorems": [
    "C202_accepted",
    "C202_signal"
   ],
   "note": ""
  },
  {
   "property": "C203",
   "status": "partial",
   "theorems": [
    "C203_sibling_refuted",
    "C203_operator_refuted",
    "C203_input_refuted"
   ],
   "note": "False of the code: refuted by a machine-checked witness."
  },
  {
   "property": "C204",
   "status": "proved",
   "theorems": [
    "C204_settled"
   ],
   "note": ""
  },
  {
   "property": "C205",
   "status": "proved",
   "theorems": [
    "C205_reacts"
   ],
   "note": ""
  },
  {
   "property": "C206",
   "status": "proved",
   "theorems": [
    "C206_ends"
   ],
   "note": ""
  },
  {
   "property": "C207",
   "status": "partial",
   "theorems": [
    "C207_shift_register_refuted"
   ],
   "note": "False of the code: refuted by a machine-checked witness."
  },
  {
   "property": "C208",
   "status": "partial",
   "theorems": [
    "C208_condition_refuted"
   ],
   "note": "False of the code: refuted by a machine-checked witness."
  },
  {
   "property": "C209",
   "status": "partial",
   "theorems": [
    "C209_constant_refuted"
   ],
   "note": "False of the code: refuted by a machine-checked witness."
  },
  {
   "property": "C210",
   "status": "proved",
   "theorems": [
    "C210_disjoint_parts",
    "C210_only_changed"
   ],
   "note": ""
  },
  {
   "property": "C211",
   "status": "partial",
   "theorems": [
    "C211_shadowed_refuted"
   ],
   "note": "False of the code: refuted by a machine-checked witness."
  },
  {
   "property": "C212",
   "status": "partial",
   "theorems": [
    "C212_front_after_pop_refuted"
   ],
   "note": "False of the code: refuted by a machine-checked witness."
  },
  {
   "property": "C213",
   "status": "proved",
   "theorems": [
    "C213_port",
    "C213_variable"
   ],
   "note": ""
  },
  {
   "property": "C214",
   "status": "partial",
   "theorems": [
    "C214_width_expression_refuted"
   ],
   "note": "False of the code: refuted by a machine-checked witness."
  },
  {
   "property": "C215",
   "status": "partial",
   "theorems": [
    "C215_parameter_of_one_refuted",
    "C215_type_parameter_refuted"
   ],
   "note": "False of the code: refuted by a machine-checked witness."
  },
  {
   "property": "C216",
   "status": "proved",
   "theorems": [
    "C216_port_list"
   ],
   "note": ""
  },
  {
   "property": "C217",
   "status": "partial",
   "theorems": [
    "C217_order_refuted",
    "C217_undefined_refuted"
   ],
   "note": "False of the code: refuted by a machine-checked witness."
  },
  {
   "property": "C218",
   "status": "proved",
   "theorems": [
    "C218_parameters"
   ],
   "note": ""
  },
  {
   "property": "C219",
   "status": "partial",
   "theorems": [
    "C219_enum_parameter_refuted"
   ],
   "note": "False of the code: refuted by a machine-checked witness."
  },
  {
   "property": "C220",
   "status": "proved",
   "theorems": [
    "C220_enum_type",
    "C220_labels"
   ],
   "note": ""
  },
  {
   "property": "C221",
   "status": "partial",
   "theorems": [
    "C221_equal_values_refuted"
   ],
   "note": "False of the code: refuted by a machine-checked witness."
  },
  {
   "property": "C222",
   "status": "partial",
   "theorems": [
    "C222_property_action_refuted"
   ],
   "note": "False of the code: refuted by a machine-checked witness."
  },
  {
   "property": "C223",
   "status": "proved",
   "theorems": [
    "C223_package_header",
    "C223_definitions_kept"
   ],
   "note": ""
  },
  {
   "property": "C224",
   "status": "proved",
   "theorems": [
    "C224_elements",
    "C224_wrapper"
   ],
   "note": ""
  },
  {
   "property": "C225",
   "status": "proved",
   "theorems": [
    "C225_files"
   ],
   "note": ""
  },
  {
   "property": "C226",
   "status": "partial",
   "theorems": [
    "C226_file_name_refuted",
    "C226_second_run_refuted"
   ],
   "note": "False of the code: refuted by a machine-checked witness."
  },
  {
   "property": "C227",
   "status": "partial",
   "theorems": [
    "C227_header_without_guard_refuted"
   ],
   "note": "False of the code: refuted by a machine-checked witness."
  },
  {
   "property": "C228",
   "status": "partial",
   "theorems": [
    "C228_clash_refuted"
   ],
   "note": "False of the code: refuted by a machine-checked witness."
  },
  {
   "property": "C229",
   "status": "proved",
   "theorems": [
    "C229_lines"
   ],
   "note": ""
  },
  {
   "property": "C230",
   "status": "partial",
   "theorems": [
    "C230_clocked_blocks_refuted"
   ],
   "note": "False of the code: refuted by a machine-checked witness."
  },
  {
   "property": "C231",
   "status": "partial",
   "theorems": [
    "C231_function_without_ports_refuted"
   ],
   "note": "False of the code: refuted by a machine-checked witness."
  },
  {
   "property": "C232",
   "status": "partial",
   "theorems": [
    "C232_connections_refuted"
   ],
   "note": "False of the code: refuted by a machine-checked witness."
  },
  {
   "property": "C233",
   "status": "partial",
   "theorems": [
    "C233_case_statements_refuted"
   ],
   "note": "False of the code: refuted by a machine-checked witness."
  },
  {
   "property": "C234",
   "status": "partial",
   "theorems": [
    "C234_module_entry_refuted"
   ],
   "note": "False of the code: refuted by a machine-checked witness."
  },
  {
   "property": "C235",
   "status": "proved",
   "theorems": [
    "C235_arguments",
    "C235_dpi_arguments",
    "C235_dpi_order"
   ],
   "note": ""
  },
  {
   "property": "C236",
   "status": "partial",
   "theorems": [
    "C236_repeated_argument_refuted"
   ],
   "note": "False of the code: refuted by a machine-checked witness."
  },
  {
   "property": "C237",
   "status": "proved",
   "theorems": [
    "C237_accepted",
    "C237_result"
   ],
   "note": ""
  },
  {
   "property": "C238",
   "status": "partial",
   "theorems": [
    "C238_extra_argument_refuted"
   ],
   "note": "False of the code: refuted by a machine-checked witness."
  },
  {
   "property": "C239",
   "status": "partial",
   "theorems": [
    "C239_result_sign_refuted"
   ],
   "note": "False of the code: refuted by a machine-checked witness."
  },
  {
   "property": "C240",
   "status": "proved",
   "theorems": [
    "C240_order",
    "C240_count_and_width",
    "C240_legal",
    "C240_accepted",
    "C240_sign"
   ],
   "note": ""
  },
  {
   "property": "C241",
   "status": "partial",
   "theorems": [
    "C241_many_arguments_refuted"
   ],
   "note": "False of the code: refuted by a machine-checked witness."
  },
  {
   "property": "C242",
   "status": "partial",
   "theorems": [
    "C242_count_refuted"
   ],
   "note": "False of the code: refuted by a machine-checked witness."
  },
  {
   "property": "C243",
   "status": "partial",
   "theorems": [
    "C243_sign_refuted"
   ],
   "note": "False of the code: refuted by a machine-checked witness."
  },
  {
   "property": "C244",
   "status": "proved",
   "theorems": [
    "C244_imports"
   ],
   "note": ""
  },
  {
   "property": "C245",
   "status": "partial",
   "theorems": [
    "C245_widths_refuted"
   ],
   "note": "False of the code: refuted by a machine-checked witness."
  },
  {
   "property": "C246",
   "status": "proved",
   "theorems": [
    "C246_types"
   ],
   "note": ""
  },
  {
   "property": "C247",
   "status": "partial",
   "theorems": [
    "C247_wide_refuted"
   ],
   "note": "False of the code: refuted by a machine-checked witness."
  },
  {
   "property": "C248",
   "status": "partial",
   "theorems": [
    "C248_attributes_refuted"
   ],
   "note": "False of the code: refuted by a machine-checked witness."
  },
  {
   "property": "C249",
   "status": "partial",
   "theorems": [
    "C249_type_of_call_refuted"
   ],
   "note": "False of the code: refuted by a machine-checked witness."
  },
  {
   "property": "C250",
   "status": "proved",
   "theorems": [
    "C250_definitions"
   ],
   "note": ""
  },
  {
   "property": "C251",
   "status": "partial",
   "theorems": [
    "C251_names_refuted"
   ],
   "note": "False of the code: refuted by a machine-checked witness."
  },
  {
   "property": "C252",
   "status": "partial",
   "theorems": [
    "C252_unknown_refuted"
   ],
   "note": "False of the code: refuted by a machine-checked witness."
  },
  {
   "property": "C253",
   "status": "partial",
   "theorems": [
    "C253_inout_refuted"
   ],
   "note": "False of the code: refuted by a machine-checked witness."
  },
  {
   "property": "C254",
   "status": "proved",
   "theorems": [
    "C254_modport",
    "C254_every_modport"
   ],
   "note": ""
  },
  {
   "property": "C255",
   "status": "partial",
   "theorems": [
    "C255_both_refuted"
   ],
   "note": "False of the code: refuted by a machine-checked witness."
  },
  {
   "property": "C256",
   "status": "proved",
   "theorems": [
    "C256_directions"
   ],
   "note": ""
  },
  {
   "property": "C257",
   "status": "partial",
   "theorems": [
    "C257_variables_refuted"
   ],
   "note": "False of the code: refuted by a machine-checked witness."
  },
  {
   "property": "C258",
   "status": "proved",
   "theorems": [
    "C258_text"
   ],
   "note": ""
  },
  {
   "property": "C259",
   "status": "partial",
   "theorems": [
    "C259_modports_refuted"
   ],
   "note": "False of the code: refuted by a machine-checked witness."
  },
  {
   "property": "C260",
   "status": "partial",
   "theorems": [
    "C260_modports_only_refuted"
   ],
   "note": "False of the code: refuted by a machine-checked witness."
  },
  {
   "property": "C261",
   "status": "proved",
   "theorems": [
    "C261_instances"
   ],
   "note": ""
  },
  {
   "property": "C262",
   "status": "partial",
   "theorems": [
    "C262_later_signal_refuted"
   ],
   "note": "False of the code: refuted by a machine-checked witness."
  },
  {
   "property": "C263",
   "status": "proved",
   "theorems": [
    "C263_connections",
    "C263_texts"
   ],
   "note": ""
  },
  {
   "property": "C264",
   "status": "partial",
   "theorems": [
    "C264_slices_refuted"
   ],
   "note": "False of the code: refuted by a machine-checked witness."
  },
  {
   "property": "C265",
   "status": "proved",
   "theorems": [
    "C265_inlined"
   ],
   "note": ""
  },
  {
   "property": "C266",
   "status": "partial",
   "theorems": [
    "C266_register_refuted"
   ],
   "note": "False of the code: refuted by a machine-checked witness."
  },
  {
   "property": "C267",
   "status": "partial",
   "theorems": [
    "C267_own_output_refuted"
   ],
   "note": "False of the code: refuted by a machine-checked witness."
  },
  {
   "property": "C268",
   "status": "partial",
   "theorems": [
    "C268_order_refuted"
   ],
   "note": "False of the code: refuted by a machine-checked witness."
  },
  {
   "property": "C269",
   "status": "partial",
   "theorems": [
    "C269_left_refuted"
   ],
   "note": "False of the code: refuted by a machine-checked witness."
  },
  {
   "property": "C270",
   "status": "partial",
   "theorems": [
    "C270_freed_refuted"
   ],
   "note": "False of the code: refuted by a machine-checked witness."
  },
  {
   "property": "C271",
   "status": "partial",
   "theorems": [
    "C271_instance_refuted"
   ],
   "note": "False of the code: refuted by a machine-checked witness."
  },
  {
   "property": "C272",
   "status": "proved",
   "theorems": [
    "C272_names"
   ],
   "note": ""
  },
  {
   "property": "C273",
   "status": "partial",
   "theorems": [
    "C273_clash_refuted"
   ],
   "note": "False of the code: refuted by a machine-checked witness."
  },
  {
   "property": "C274",
   "status": "proved",
   "theorems": [
    "C274_connected"
   ],
   "note": ""
  },
  {
   "property": "C275",
   "status": "proved",
   "theorems": [
    "C275_same_states"
   ],
   "note": ""
  },
  {
   "property": "C276",
   "status": "partial",
   "theorems": [
    "C276_read_back_refuted"
   ],
   "note": "False of the code: refuted by a machine-checked witness."
  },
  {
   "property": "C277",
   "status": "partial",
   "theorems": [
    "C277_open_refuted"
   ],
   "note": "False of the code: refuted by a machine-checked witness."
  },
  {
   "property": "C278",
   "status": "partial",
   "theorems": [
    "C278_test_refuted"
   ],
   "note": "False of the code: refuted by a machine-checked witness."
  },
  {
   "property": "C279",
   "status": "partial",
   "theorems": [
    "C279_alone_refuted"
   ],
   "note": "False of the code: refuted by a machine-checked witness."
  },
  {
   "property": "C280",
   "status": "proved",
   "theorems": [
    "C280_unused",
    "C280_order"
   ],
   "note": ""
  },
  {
   "property": "C281",
   "status": "proved",
   "theorems": [
    "C281_same_histories",
    "C281_left"
   ],
   "note": ""
  },
  {
   "property": "C282",
   "status": "partial",
   "theorems": [
    "C282_event_refuted"
   ],
   "note": "False of the code: refuted by a machine-checked witness."
  },
  {
   "property": "C283",
   "status": "proved",
   "theorems": [
    "C283_same_connections"
   ],
   "note": ""
  },
  {
   "property": "C284",
   "status": "proved",
   "theorems": [
    "C284_loop",
    "C284_nets"
   ],
   "note": ""
  },
  {
   "property": "C285",
   "status": "partial",
   "theorems": [
    "C285_pairs_refuted"
   ],
   "note": "False of the code: refuted by a machine-checked witness."
  },
  {
   "property": "C286",
   "status": "partial",
   "theorems": [
    "C286_drivers_refuted"
   ],
   "note": "False of the code: refuted by a machine-checked witness."
  },
  {
   "property": "C287",
   "status": "partial",
   "theorems": [
    "C287_open_refuted"
   ],
   "note": "False of the code: refuted by a machine-checked witness."
  },
  {
   "property": "C288",
   "status": "partial",
   "theorems": [
    "C288_constant_refuted"
   ],
   "note": "False of the code: refuted by a machine-checked witness."
  },
  {
   "property": "C289",
   "status": "proved",
   "theorems": [
    "C289_label"
   ],
   "note": ""
  },
  {
   "property": "C290",
   "status": "partial",
   "theorems": [
    "C290_no_common_refuted"
   ],
   "note": "False of the code: refuted by a machine-checked witness."
  },
  {
   "property": "C291",
   "status": "proved",
   "theorems": [
    "C291_handles"
   ],
   "note": ""
  },
  {
   "property": "C292",
   "status": "partial",
   "theorems": [
    "C292_order_refuted"
   ],
   "note": "False of the code: refuted by a machine-checked witness."
  },
  {
   "property": "C293",
   "status": "partial",
   "theorems": [
    "C293_clash_refuted"
   ],
   "note": "False of the code: refuted by a machine-checked witness."
  },
  {
   "property": "C294",
   "status": "proved",
   "theorems": [
    "C294_text"
   ],
   "note": ""
  },
  {
   "property": "C295",
   "status": "proved",
   "theorems": [
    "C295_built"
   ],
   "note": ""
  },
  {
   "property": "C296",
   "status": "partial",
   "theorems": [
    "C296_stale_refuted"
   ],
   "note": "False of the code: refuted by a machine-checked witness."
  },
  {
   "property": "C297",
   "status": "partial",
   "theorems": [
    "C297_range_refuted"
   ],
   "note": "False of the code: refuted by a machine-checked witness."
  },
  {
   "property": "C298",
   "status": "proved",
   "theorems": [
    "C298_clock"
   ],
   "note": ""
  },
  {
   "property": "C299",
   "status": "partial",
   "theorems": [
    "C299_one_clock_refuted"
   ],
   "note": "False of the code: refuted by a machine-checked witness."
  },
  {
   "property": "C300",
   "status": "partial",
   "theorems": [
    "C300_no_clock_refuted"
   ],
   "note": "False of the code: refuted by a machine-checked witness."
  },
  {
   "property": "C301",
   "status": "partial",
   "theorems": [
    "C301_instances_refuted"
   ],
   "note": "False of the code: refuted by a machine-checked witness."
  },
  {
   "property": "C302",
   "status": "proved",
   "theorems": [
    "C302_properties"
   ],
   "note": ""
  },
  {
   "property": "C303",
   "status": "partial",
   "theorems": [
    "C303_shared_refuted"
   ],
   "note": "False of the code: refuted by a machine-checked witness."
  },
  {
   "property": "C304",
   "status": "proved",
   "theorems": [
    "C304_value"
   ],
   "note": ""
  },
  {
   "property": "C305",
   "status": "partial",
   "theorems": [
    "C305_property_refuted"
   ],
   "note": "False of the code: refuted by a machine-checked witness."
  },
  {
   "property": "C306",
   "status": "proved",
   "theorems": [
    "C306_removed",
    "C306_generator",
    "C306_kinds",
    "C306_behaviour"
   ],
   "note": ""
  },
  {
   "property": "C307",
   "status": "proved",
   "theorems": [
    "C307_whole"
   ],
   "note": ""
  },
  {
   "property": "C308",
   "status": "partial",
   "theorems": [
    "C308_arm_refuted"
   ],
   "note": "False of the code: refuted by a machine-checked witness."
  },
  {
   "property": "C309",
   "status": "partial",
   "theorems": [
    "C309_if_refuted"
   ],
   "note": "False of the code: refuted by a machine-checked witness."
  },
  {
   "property": "C310",
   "status": "partial",
   "theorems": [
    "C310_blocks_refuted"
   ],
   "note": "False of the code: refuted by a machine-checked witness."
  },
  {
   "property": "C311",
   "status": "proved",
   "theorems": [
    "C311_typed_ports",
    "C311_accepted"
   ],
   "note": ""
  },
  {
   "property": "C312",
   "status": "partial",
   "theorems": [
    "C312_data_port_refuted"
   ],
   "note": "False of the code: refuted by a machine-checked witness."
  },
  {
   "property": "C313",
   "status": "partial",
   "theorems": [
    "C313_bits_refuted"
   ],
   "note": "False of the code: refuted by a machine-checked witness."
  },
  {
   "property": "C314",
   "status": "proved",
   "theorems": [
    "C314_enum"
   ],
   "note": ""
  },
  {
   "property": "C315",
   "status": "partial",
   "theorems": [
    "C315_same_name_refuted"
   ],
   "note": "False of the code: refuted by a machine-checked witness."
  },
  {
   "property": "C316",
   "status": "proved",
   "theorems": [
    "C316_sides",
    "C316_mismatch"
   ],
   "note": ""
  },
  {
   "property": "C317",
   "status": "proved",
   "theorems": [
    "C317_sides_stay"
   ],
   "note": ""
  },
  {
   "property": "C318",
   "status": "partial",
   "theorems": [
    "C318_shared_constant_refuted"
   ],
   "note": "False of the code: refuted by a machine-checked witness."
  },
  {
   "property": "C319",
   "status": "proved",
   "theorems": [
    "C319_constants",
    "C319_results",
    "C319_results_in"
   ],
   "note": ""
  },
  {
   "property": "C320",
   "status": "partial",
   "theorems": [
    "C320_bits_of_result_refuted"
   ],
   "note": "False of the code: refuted by a machine-checked witness."
  },
  {
   "property": "C321",
   "status": "proved",
   "theorems": [
    "C321_cast_text",
    "C321_other_casts"
   ],
   "note": ""
  },
  {
   "property": "C322",
   "status": "partial",
   "theorems": [
    "C322_two_enums_refuted"
   ],
   "note": "False of the code: refuted by a machine-checked witness."
  },
  {
   "property": "C323",
   "status": "partial",
   "theorems": [
    "C323_one_bit_refuted"
   ],
   "note": "False of the code: refuted by a machine-checked witness."
  },
  {
   "property": "C324",
   "status": "proved",
   "theorems": [
    "C324_one_element"
   ],
   "note": ""
  },
  {
   "property": "C325",
   "status": "partial",
   "theorems": [
    "C325_array_refuted"
   ],
   "note": "False of the code: refuted by a machine-checked witness."
  },
  {
   "property": "C326",
   "status": "proved",
   "theorems": [
    "C326_from_top",
    "C326_distinct"
   ],
   "note": ""
  },
  {
   "property": "C327",
   "status": "proved",
   "theorems": [
    "C327_from_scope"
   ],
   "note": ""
  },
  {
   "property": "C328",
   "status": "partial",
   "theorems": [
    "C328_prefix_refuted"
   ],
   "note": "False of the code: refuted by a machine-checked witness."
  },
  {
   "property": "C329",
   "status": "proved",
   "theorems": [
    "C329_expressions",
    "C329_no_failure"
   ],
   "note": ""
  },
  {
   "property": "C330",
   "status": "partial",
   "theorems": [
    "C330_extension_refuted"
   ],
   "note": "False of the code: refuted by a machine-checked witness."
  },
  {
   "property": "C331",
   "status": "partial",
   "theorems": [
    "C331_condition_refuted"
   ],
   "note": "False of the code: refuted by a machine-checked witness."
  },
  {
   "property": "C332",
   "status": "proved",
   "theorems": [
    "C332_in_scope",
    "C332_names"
   ],
   "note": ""
  },
  {
   "property": "C333",
   "status": "partial",
   "theorems": [
    "C333_operators_refuted"
   ],
   "note": "False of the code: refuted by a machine-checked witness."
  },
  {
   "property": "C334",
   "status": "proved",
   "theorems": [
    "C334_circles",
    "C334_arrows"
   ],
   "note": ""
  },
  {
   "property": "C335",
   "status": "partial",
   "theorems": [
    "C335_inner_machine_refuted"
   ],
   "note": "False of the code: refuted by a machine-checked witness."
  },
  {
   "property": "C336",
   "status": "proved",
   "theorems": [
    "C336_handles"
   ],
   "note": ""
  },
  {
   "property": "C337",
   "status": "partial",
   "theorems": [
    "C337_underscore_refuted"
   ],
   "note": "False of the code: refuted by a machine-checked witness."
  },
  {
   "property": "C338",
   "status": "proved",
   "theorems": [
    "C338_moves"
   ],
   "note": ""
  },
  {
   "property": "C339",
   "status": "proved",
   "theorems": [
    "C339_nested"
   ],
   "note": ""
  },
  {
   "property": "C340",
   "status": "partial",
   "theorems": [
    "C340_added_again_refuted"
   ],
   "note": "False of the code: refuted by a machine-checked witness."
  },
  {
   "property": "C341",
   "status": "partial",
   "theorems": [
    "C341_cycle_refuted"
   ],
   "note": "False of the code: refuted by a machine-checked witness."
  },
  {
   "property": "C342",
   "status": "proved",
   "theorems": [
    "C342_states",
    "C342_refused"
   ],
   "note": ""
  },
  {
   "property": "C343",
   "status": "proved",
   "theorems": [
    "C343_table",
    "C343_available"
   ],
   "note": ""
  },
  {
   "property": "C344",
   "status": "partial",
   "theorems": [
    "C344_default_refuted"
   ],
   "note": "False of the code: refuted by a machine-checked witness."
  },
  {
   "property": "C345",
   "status": "proved",
   "theorems": [
    "C345_reads",
    "C345_same_histories"
   ],
   "note": ""
  },
  {
   "property": "C346",
   "status": "partial",
   "theorems": [
    "C346_bits_refuted"
   ],
   "note": "False of the code: refuted by a machine-checked witness."
  },
  {
   "property": "C347",
   "status": "partial",
   "theorems": [
    "C347_index_refuted"
   ],
   "note": "False of the code: refuted by a machine-checked witness."
  },
  {
   "property": "C348",
   "status": "partial",
   "theorems": [
    "C348_parts_refuted"
   ],
   "note": "False of the code: refuted by a machine-checked witness."
  },
  {
   "property": "C349",
   "status": "partial",
   "theorems": [
    "C349_constant_refuted"
   ],
   "note": "False of the code: refuted by a machine-checked witness."
  },
  {
   "property": "C350",
   "status": "proved",
   "theorems": [
    "C350_children",
    "C350_by_name",
    "C350_calls"
   ],
   "note": ""
  },
  {
   "property": "C351",
   "status": "partial",
   "theorems": [
    "C351_failed_add_refuted"
   ],
   "note": "False of the code: refuted by a machine-checked witness."
  },
  {
   "property": "C352",
   "status": "partial",
   "theorems": [
    "C352_not_a_child_refuted"
   ],
   "note": "False of the code: refuted by a machine-checked witness."
  },
  {
   "property": "C353",
   "status": "partial",
   "theorems": [
    "C353_two_parents_refuted"
   ],
   "note": "False of the code: refuted by a machine-checked witness."
  },
  {
   "property": "C354",
   "status": "proved",
   "theorems": [
    "C354_removed"
   ],
   "note": ""
  },
  {
   "property": "C355",
   "status": "partial",
   "theorems": [
    "C355_inout_refuted",
    "C355_input_refuted"
   ],
   "note": "False of the code: refuted by a machine-checked witness."
  },
  {
   "property": "C356",
   "status": "proved",
   "theorems": [
    "C356_replaced"
   ],
   "note": ""
  },
  {
   "property": "C357",
   "status": "partial",
   "theorems": [
    "C357_failed_replace_refuted"
   ],
   "note": "False of the code: refuted by a machine-checked witness."
  },
  {
   "property": "C358",
   "status": "partial",
   "theorems": [
    "C358_place_refuted"
   ],
   "note": "False of the code: refuted by a machine-checked witness."
  },
  {
   "property": "C359",
   "status": "proved",
   "theorems": [
    "C359_typedefs"
   ],
   "note": ""
  },
  {
   "property": "C360",
   "status": "partial",
   "theorems": [
    "C360_external_refuted"
   ],
   "note": "False of the code: refuted by a machine-checked witness."
  },
  {
   "property": "C361",
   "status": "partial",
   "theorems": [
    "C361_order_refuted"
   ],
   "note": "False of the code: refuted by a machine-checked witness."
  },
  {
   "property": "C362",
   "status": "proved",
   "theorems": [
    "C362_texts",
    "C362_accepted",
    "C362_complete"
   ],
   "note": ""
  },
  {
   "property": "C363",
   "status": "partial",
   "theorems": [
    "C363_different_refuted"
   ],
   "note": "False of the code: refuted by a machine-checked witness."
  },
  {
   "property": "C364",
   "status": "proved",
   "theorems": [
    "C364_converted"
   ],
   "note": ""
  },
  {
   "property": "C365",
   "status": "partial",
   "theorems": [
    "C365_own_output_refuted"
   ],
   "note": "False of the code: refuted by a machine-checked witness."
  },
  {
   "property": "C366",
   "status": "proved",
   "theorems": [
    "C366_set"
   ],
   "note": ""
  },
  {
   "property": "C367",
   "status": "partial",
   "theorems": [
    "C367_wide_refuted"
   ],
   "note": "False of the code: refuted by a machine-checked witness."
  },
  {
   "property": "C368",
   "status": "proved",
   "theorems": [
    "C368_packed"
   ],
   "note": ""
  },
  {
   "property": "C369",
   "status": "partial",
   "theorems": [
    "C369_large_refuted"
   ],
   "note": "False of the code: refuted by a machine-checked witness."
  },
  {
   "property": "C370",
   "status": "partial",
   "theorems": [
    "C370_thrown_refuted"
   ],
   "note": "False of the code: refuted by a machine-checked witness."
  },
  {
   "property": "C371",
   "status": "partial",
   "theorems": [
    "C371_part_refuted"
   ],
   "note": "False of the code: refuted by a machine-checked witness."
  },
  {
   "property": "C372",
   "status": "partial",
   "theorems": [
    "C372_part_refuted"
   ],
   "note": "False of the code: refuted by a machine-checked witness."
  },
  {
   "property": "C373",
   "status": "partial",
   "theorems": [
    "C373_width_refuted"
   ],
   "note": "False of the code: refuted by a machine-checked witness."
  },
  {
   "property": "C374",
   "status": "proved",
   "theorems": [
    "C374_signed"
   ],
   "note": ""
  },
  {
   "property": "C375",
   "status": "partial",
   "theorems": [
    "C375_signed_array_refuted"
   ],
   "note": "False of the code: refuted by a machine-checked witness."
  },
  {
   "property": "C376",
   "status": "proved",
   "theorems": [
    "C376_visit",
    "C376_parts"
   ],
   "note": ""
  },
  {
   "property": "C377",
   "status": "proved",
   "theorems": [
    "C377_passed"
   ],
   "note": ""
  },
  {
   "property": "C378",
   "status": "partial",
   "theorems": [
    "C378_builtin_refuted"
   ],
   "note": "False of the code: refuted by a machine-checked witness."
  },
  {
   "property": "C379",
   "status": "partial",
   "theorems": [
    "C379_final_refuted"
   ],
   "note": "False of the code: refuted by a machine-checked witness."
  },
  {
   "property": "C380",
   "status": "partial",
   "theorems": [
    "C380_hidden_refuted"
   ],
   "note": "False of the code: refuted by a machine-checked witness."
  },
  {
   "property": "C381",
   "status": "proved",
   "theorems": [
    "C381_ff"
   ],
   "note": ""
  },
  {
   "property": "C382",
   "status": "proved",
   "theorems": [
    "C382_different"
   ],
   "note": ""
  },
  {
   "property": "C383",
   "status": "partial",
   "theorems": [
    "C383_nested_refuted"
   ],
   "note": "False of the code: refuted by a machine-checked witness."
  },
  {
   "property": "C384",
   "status": "proved",
   "theorems": [
    "C384_index",
    "C384_part",
    "C384_selected",
    "C384_size_param"
   ],
   "note": ""
  },
  {
   "property": "C385",
   "status": "partial",
   "theorems": [
    "C385_range_refuted"
   ],
   "note": "False of the code: refuted by a machine-checked witness."
  },
  {
   "property": "C386",
   "status": "partial",
   "theorems": [
    "C386_all_refuted"
   ],
   "note": "False of the code: refuted by a machine-checked witness."
  },
  {
   "property": "C387",
   "status": "partial",
   "theorems": [
    "C387_param_refuted"
   ],
   "note": "False of the code: refuted by a machine-checked witness."
  },
  {
   "property": "C388",
   "status": "proved",
   "theorems": [
    "C388_history",
    "C388_if_remove"
   ],
   "note": ""
  },
  {
   "property": "C389",
   "status": "proved",
   "theorems": [
    "C389_before"
   ],
   "note": ""
  },
  {
   "property": "C390",
   "status": "partial",
   "theorems": [
    "C390_two_blocks_refuted"
   ],
   "note": "False of the code: refuted by a machine-checked witness."
  },
  {
   "property": "C391",
   "status": "partial",
   "theorems": [
    "C391_loop_refuted"
   ],
   "note": "False of the code: refuted by a machine-checked witness."
  },
  {
   "property": "C392",
   "status": "partial",
   "theorems": [
    "C392_set_child_refuted"
   ],
   "note": "False of the code: refuted by a machine-checked witness."
  },
  {
   "property": "C393",
   "status": "partial",
   "theorems": [
    "C393_override_refuted"
   ],
   "note": "False of the code: refuted by a machine-checked witness."
  },
  {
   "property": "C394",
   "status": "partial",
   "theorems": [
    "C394_clone_refuted"
   ],
   "note": "False of the code: refuted by a machine-checked witness."
  },
  {
   "property": "C395",
   "status": "partial",
   "theorems": [
    "C395_cycle_refuted"
   ],
   "note": "False of the code: refuted by a machine-checked witness."
  },
  {
   "property": "C396",
   "status": "proved",
   "theorems": [
    "C396_scope"
   ],
   "note": ""
  },
  {
   "property": "C397",
   "status": "partial",
   "theorems": [
    "C397_innermost_refuted"
   ],
   "note": "False of the code: refuted by a machine-checked witness."
  },
  {
   "property": "C398",
   "status": "partial",
   "theorems": [
    "C398_loop_refuted"
   ],
   "note": "False of the code: refuted by a machine-checked witness."
  },
  {
   "property": "C399",
   "status": "partial",
   "theorems": [
    "C399_override_refuted"
   ],
   "note": "False of the code: refuted by a machine-checked witness."
  },
  {
   "property": "C400",
   "status": "proved",
   "theorems": [
    "C400_drivers"
   ],
   "note": ""
  },
  {
   "property": "C401",
   "status": "partial",
   "theorems": [
    "C401_ports_refuted"
   ],
   "note": "False of the code: refuted by a machine-checked witness."
  },
  {
   "property": "C402",
   "status": "proved",
   "theorems": [
    "C402_target"
   ],
   "note": ""
  },
  {
   "property": "C403",
   "status": "partial",
   "theorems": [
    "C403_no_colon_refuted"
   ],
   "note": "False of the code: refuted by a machine-checked witness."
  },
  {
   "property": "C404",
   "status": "proved",
   "theorems": [
    "C404_hierarchy"
   ],
   "note": ""
  },
  {
   "property": "C405",
   "status": "partial",
   "theorems": [
    "C405_repeated_refuted"
   ],
   "note": "False of the code: refuted by a machine-checked witness."
  },
  {
   "property": "C406",
   "status": "proved",
   "theorems": [
    "C406_ssa"
   ],
   "note": ""
  },
  {
   "property": "C407",
   "status": "partial",
   "theorems": [
    "C407_branches_refuted"
   ],
   "note": "False of the code: refuted by a machine-checked witness."
  },
  {
   "property": "C408",
   "status": "proved",
   "theorems": [
    "C408_saved"
   ],
   "note": ""
  },
  {
   "property": "C409",
   "status": "partial",
   "theorems": [
    "C409_unrecorded_refuted"
   ],
   "note": "False of the code: refuted by a machine-checked witness."
  },
  {
   "property": "C410",
   "status": "proved",
   "theorems": [
    "C410_lines"
   ],
   "note": ""
  },
  {
   "property": "C411",
   "status": "partial",
   "theorems": [
    "C411_unlocated_refuted"
   ],
   "note": "False of the code: refuted by a machine-checked witness."
  },
  {
   "property": "C412",
   "status": "proved",
   "theorems": [
    "C412_clone"
   ],
   "note": ""
  },
  {
   "property": "C413",
   "status": "partial",
   "theorems": [
    "C413_param_refuted"
   ],
   "note": "False of the code: refuted by a machine-checked witness."
  },
  {
   "property": "C414",
   "status": "partial",
   "theorems": [
    "C414_explicit_refuted"
   ],
   "note": "False of the code: refuted by a machine-checked witness."
  },
  {
   "property": "C415",
   "status": "proved",
   "theorems": [
    "C415_missing"
   ],
   "note": ""
  },
  {
   "property": "C416",
   "status": "proved",
   "theorems": [
    "C416_unwire"
   ],
   "note": ""
  },
  {
   "property": "C417",
   "status": "partial",
   "theorems": [
    "C417_all_refuted"
   ],
   "note": "False of the code: refuted by a machine-checked witness."
  },
  {
   "property": "C418",
   "status": "proved",
   "theorems": [
    "C418_lines"
   ],
   "note": ""
  },
  {
   "property": "C419",
   "status": "partial",
   "theorems": [
    "C419_top_refuted"
   ],
   "note": "False of the code: refuted by a machine-checked witness."
  },
  {
   "property": "C420",
   "status": "proved",
   "theorems": [
    "C420_copy",
    "C420_succeeds"
   ],
   "note": ""
  },
  {
   "property": "C421",
   "status": "partial",
   "theorems": [
    "C421_follows_refuted"
   ],
   "note": "False of the code: refuted by a machine-checked witness."
  },
  {
   "property": "C422",
   "status": "partial",
   "theorems": [
    "C422_ternary_refuted"
   ],
   "note": "False of the code: refuted by a machine-checked witness."
  },
  {
   "property": "C423",
   "status": "proved",
   "theorems": [
    "C423_meta"
   ],
   "note": ""
  },
  {
   "property": "C424",
   "status": "partial",
   "theorems": [
    "C424_var_like_refuted"
   ],
   "note": "False of the code: refuted by a machine-checked witness."
  },
  {
   "property": "C425",
   "status": "proved",
   "theorems": [
    "C425_moved",
    "C425_refused",
    "C425_self"
   ],
   "note": ""
  },
  {
   "property": "C426",
   "status": "partial",
   "theorems": [
    "C426_own_refuted"
   ],
   "note": "False of the code: refuted by a machine-checked witness."
  },
  {
   "property": "C427",
   "status": "partial",
   "theorems": [
    "C427_concat_refuted"
   ],
   "note": "False of the code: refuted by a machine-checked witness."
  },
  {
   "property": "C428",
   "status": "proved",
   "theorems": [
    "C428_cases"
   ],
   "note": ""
  },
  {
   "property": "C429",
   "status": "proved",
   "theorems": [
    "C429_order"
   ],
   "note": ""
  },
  {
   "property": "C430",
   "status": "partial",
   "theorems": [
    "C430_minus_one_refuted"
   ],
   "note": "False of the code: refuted by a machine-checked witness."
  },
  {
   "property": "C431",
   "status": "partial",
   "theorems": [
    "C431_remove_refuted",
    "C431_same_object"
   ],
   "note": ""
  },
  {
   "property": "C432",
   "status": "partial",
   "theorems": [
    "C432_several_refuted",
    "C432_own_object"
   ],
   "note": ""
  },
  {
   "property": "C433",
   "status": "proved",
   "theorems": [
    "C433_remove_stmt"
   ],
   "note": ""
  },
  {
   "property": "C434",
   "status": "proved",
   "theorems": [
    "C434_lines",
    "C434_list",
    "C434_clone"
   ],
   "note": ""
  },
  {
   "property": "C435",
   "status": "partial",
   "theorems": [
    "C435_blank_refuted"
   ],
   "note": "False of the code: refuted by a machine-checked witness."
  },
  {
   "property": "C436",
   "status": "proved",
   "theorems": [
    "C436_words"
   ],
   "note": ""
  },
  {
   "property": "C437",
   "status": "partial",
   "theorems": [
    "C437_newline_refuted"
   ],
   "note": "False of the code: refuted by a machine-checked witness."
  },
  {
   "property": "C438",
   "status": "proved",
   "theorems": [
    "C438_ports"
   ],
   "note": ""
  },
  {
   "property": "C439",
   "status": "partial",
   "theorems": [
    "C439_width_refuted"
   ],
   "note": "False of the code: refuted by a machine-checked witness."
  },
  {
   "property": "C440",
   "status": "partial",
   "theorems": [
    "C440_type_refuted"
   ],
   "note": "False of the code: refuted by a machine-checked witness."
  },
  {
   "property": "C441",
   "status": "partial",
   "theorems": [
    "C441_expression_refuted"
   ],
   "note": "False of the code: refuted by a machine-checked witness."
  },
  {
   "property": "C442",
   "status": "partial",
   "theorems": [
    "C442_newline_refuted"
   ],
   "note": "False of the code: refuted by a machine-checked witness."
  },
  {
   "property": "C443",
   "status": "partial",
   "theorems": [
    "C443_no_blank_refuted"
   ],
   "note": "False of the code: refuted by a machine-checked witness."
  },
  {
   "property": "C444",
   "status": "proved",
   "theorems": [
    "C444_sound",
    "C444_complete"
   ],
   "note": ""
  },
  {
   "property": "C445",
   "status": "partial",
   "theorems": [
    "C445_part_refuted"
   ],
   "note": "False of the code: refuted by a machine-checked witness."
  },
  {
   "property": "C446",
   "status": "proved",
   "theorems": [
    "C446_connected"
   ],
   "note": ""
  },
  {
   "property": "C447",
   "status": "partial",
   "theorems": [
    "C447_outside_refuted"
   ],
   "note": "False of the code: refuted by a machine-checked witness."
  },
  {
   "property": "C448",
   "status": "proved",
   "theorems": [
    "C448_wired",
    "C448_refused"
   ],
   "note": ""
  },
  {
   "property": "C449",
   "status": "partial",
   "theorems": [
    "C449_undone_refuted"
   ],
   "note": "False of the code: refuted by a machine-checked witness."
  },
  {
   "property": "C450",
   "status": "proved",
   "theorems": [
    "C450_elements",
    "C450_members",
    "C450_plain"
   ],
   "note": ""
  },
  {
   "property": "C451",
   "status": "proved",
   "theorems": [
    "C451_selected"
   ],
   "note": ""
  },
  {
   "property": "C452",
   "status": "partial",
   "theorems": [
    "C452_bits_refuted"
   ],
   "note": "False of the code: refuted by a machine-checked witness."
  },
  {
   "property": "C453",
   "status": "partial",
   "theorems": [
    "C453_members_refuted"
   ],
   "note": "False of the code: refuted by a machine-checked witness."
  },
  {
   "property": "C454",
   "status": "partial",
   "theorems": [
    "C454_inner_refuted"
   ],
   "note": "False of the code: refuted by a machine-checked witness."
  },
  {
   "property": "C455",
   "status": "partial",
   "theorems": [
    "C455_again_refuted"
   ],
   "note": "False of the code: refuted by a machine-checked witness."
  },
  {
   "property": "C456",
   "status": "proved",
   "theorems": [
    "C456_select",
    "C456_none",
    "C456_bad_index",
    "C456_state",
    "C456_mark"
   ],
   "note": ""
  },
  {
   "property": "C457",
   "status": "partial",
   "theorems": [
    "C457_packed_refuted"
   ],
   "note": "False of the code: refuted by a machine-checked witness."
  },
  {
   "property": "C458",
   "status": "partial",
   "theorems": [
    "C458_shadowed_refuted"
   ],
   "note": "False of the code: refuted by a machine-checked witness."
  },
  {
   "property": "C459",
   "status": "partial",
   "theorems": [
    "C459_mark_refuted"
   ],
   "note": "False of the code: refuted by a machine-checked witness."
  },
  {
   "property": "C460",
   "status": "partial",
   "theorems": [
    "C460_kept_refuted"
   ],
   "note": "False of the code: refuted by a machine-checked witness."
  },
  {
   "property": "C461",
   "status": "partial",
   "theorems": [
    "C461_index_refuted"
   ],
   "note": "False of the code: refuted by a machine-checked witness."
  },
  {
   "property": "C462",
   "status": "proved",
   "theorems": [
    "C462_ends"
   ],
   "note": ""
  },
  {
   "property": "C463",
   "status": "proved",
   "theorems": [
    "C463_answer"
   ],
   "note": ""
  },
  {
   "property": "C464",
   "status": "proved",
   "theorems": [
    "C464_iff",
    "C464_circle"
   ],
   "note": ""
  },
  {
   "property": "C465",
   "status": "proved",
   "theorems": [
    "C465_once"
   ],
   "note": ""
  },
  {
   "property": "C466",
   "status": "partial",
   "theorems": [
    "C466_shared_refuted"
   ],
   "note": "False of the code: refuted by a machine-checked witness."
  },
  {
   "property": "C467",
   "status": "partial",
   "theorems": [
    "C467_two_parents_refuted"
   ],
   "note": "False of the code: refuted by a machine-checked witness."
  },
  {
   "property": "C468",
   "status": "proved",
   "theorems": [
    "C468_sound",
    "C468_complete"
   ],
   "note": ""
  },
  {
   "property": "C469",
   "status": "partial",
   "theorems": [
    "C469_hidden_refuted"
   ],
   "note": "False of the code: refuted by a machine-checked witness."
  },
  {
   "property": "C470",
   "status": "proved",
   "theorems": [
    "C470_loop_variable"
   ],
   "note": ""
  },
  {
   "property": "C471",
   "status": "partial",
   "theorems": [
    "C471_hidden_refuted"
   ],
   "note": "False of the code: refuted by a machine-checked witness."
  },
  {
   "property": "C472",
   "status": "proved",
   "theorems": [
    "C472_big_text"
   ],
   "note": ""
  },
  {
   "property": "C473",
   "status": "proved",
   "theorems": [
    "C473_word"
   ],
   "note": ""
  },
  {
   "property": "C474",
   "status": "partial",
   "theorems": [
    "C474_upper_half_refuted"
   ],
   "note": "False of the code: refuted by a machine-checked witness."
  },
  {
   "property": "C475",
   "status": "partial",
   "theorems": [
    "C475_negative_refuted"
   ],
   "note": "False of the code: refuted by a machine-checked witness."
  },
  {
   "property": "C476",
   "status": "proved",
   "theorems": [
    "C476_string"
   ],
   "note": ""
  },
  {
   "property": "C477",
   "status": "partial",
   "theorems": [
    "C477_quotes_refuted"
   ],
   "note": "False of the code: refuted by a machine-checked witness."
  },
  {
   "property": "C478",
   "status": "partial",
   "theorems": [
    "C478_string_refuted"
   ],
   "note": "False of the code: refuted by a machine-checked witness."
  },
  {
   "property": "C479",
   "status": "proved",
   "theorems": [
    "C479_copied",
    "C479_refused"
   ],
   "note": ""
  },
  {
   "property": "C480",
   "status": "partial",
   "theorems": [
    "C480_wide_refuted"
   ],
   "note": "False of the code: refuted by a machine-checked witness."
  },
  {
   "property": "C481",
   "status": "partial",
   "theorems": [
    "C481_active_refuted"
   ],
   "note": "False of the code: refuted by a machine-checked witness."
  },
  {
   "property": "C482",
   "status": "proved",
   "theorems": [
    "C482_struct",
    "C482_enum"
   ],
   "note": ""
  },
  {
   "property": "C483",
   "status": "partial",
   "theorems": [
    "C483_array_refuted"
   ],
   "note": "False of the code: refuted by a machine-checked witness."
  },
  {
   "property": "C484",
   "status": "partial",
   "theorems": [
    "C484_python_refuted"
   ],
   "note": "False of the code: refuted by a machine-checked witness."
  },
  {
   "property": "C485",
   "status": "proved",
   "theorems": [
    "C485_wrapped"
   ],
   "note": ""
  },
  {
   "property": "C486",
   "status": "partial",
   "theorems": [
    "C486_enum_input_refuted"
   ],
   "note": "False of the code: refuted by a machine-checked witness."
  },
  {
   "property": "C487",
   "status": "proved",
   "theorems": [
    "C487_info",
    "C487_once"
   ],
   "note": ""
  },
  {
   "property": "C488",
   "status": "proved",
   "theorems": [
    "C488_said",
    "C488_transaction"
   ],
   "note": ""
  },
  {
   "property": "C489",
   "status": "partial",
   "theorems": [
    "C489_match_refuted"
   ],
   "note": "False of the code: refuted by a machine-checked witness."
  },
  {
   "property": "C490",
   "status": "proved",
   "theorems": [
    "C490_loop",
    "C490_other"
   ],
   "note": ""
  },
  {
   "property": "C491",
   "status": "proved",
   "theorems": [
    "C491_narrowed"
   ],
   "note": ""
  },
  {
   "property": "C492",
   "status": "partial",
   "theorems": [
    "C492_shift_refuted"
   ],
   "note": "False of the code: refuted by a machine-checked witness."
  },
  {
   "property": "C493",
   "status": "partial",
   "theorems": [
    "C493_constant_refuted"
   ],
   "note": "False of the code: refuted by a machine-checked witness."
  },
  {
   "property": "C494",
   "status": "partial",
   "theorems": [
    "C494_changed_refuted"
   ],
   "note": "False of the code: refuted by a machine-checked witness."
  },
  {
   "property": "C495",
   "status": "partial",
   "theorems": [
    "C495_shared_refuted"
   ],
   "note": "False of the code: refuted by a machine-checked witness."
  },
  {
   "property": "C496",
   "status": "proved",
   "theorems": [
    "C496_listed",
    "C496_dropped"
   ],
   "note": ""
  },
  {
   "property": "C497",
   "status": "proved",
   "theorems": [
    "C497_rename"
   ],
   "note": ""
  },
  {
   "property": "C498",
   "status": "partial",
   "theorems": [
    "C498_unnamed_refuted"
   ],
   "note": "False of the code: refuted by a machine-checked witness."
  },
  {
   "property": "C499",
   "status": "partial",
   "theorems": [
    "C499_exists_refuted"
   ],
   "note": "False of the code: refuted by a machine-checked witness."
  },
  {
   "property": "C500",
   "status": "proved",
   "theorems": [
    "C500_unique"
   ],
   "note": ""
  },
  {
   "property": "C501",
   "status": "partial",
   "theorems": [
    "C501_unique_refuted"
   ],
   "note": "False of the code: refuted by a machine-checked witness."
  },
  {
   "property": "C502",
   "status": "partial",
   "theorems": [
    "C502_clone_refuted"
   ],
   "note": "False of the code: refuted by a machine-checked witness."
  },
  {
   "property": "C503",
   "status": "proved",
   "theorems": [
    "C503_zeroed",
    "C503_design"
   ],
   "note": ""
  },
  {
   "property": "C504",
   "status": "partial",
   "theorems": [
    "C504_output_refuted"
   ],
   "note": "False of the code: refuted by a machine-checked witness."
  },
  {
   "property": "C505",
   "status": "partial",
   "theorems": [
    "C505_twice_refuted"
   ],
   "note": "False of the code: refuted by a machine-checked witness."
  },
  {
   "property": "C506",
   "status": "partial",
   "theorems": [
    "C506_changed_refuted"
   ],
   "note": "False of the code: refuted by a machine-checked witness."
  },
  {
   "property": "C507",
   "status": "partial",
   "theorems": [
    "C507_inout_refuted"
   ],
   "note": "False of the code: refuted by a machine-checked witness."
  },
  {
   "property": "C508",
   "status": "proved",
   "theorems": [
    "C508_run",
    "C508_refused"
   ],
   "note": ""
  },
  {
   "property": "C509",
   "status": "proved",
   "theorems": [
    "C509_named",
    "C509_printed"
   ],
   "note": ""
  },
  {
   "property": "C510",
   "status": "partial",
   "theorems": [
    "C510_two_refuted"
   ],
   "note": "False of the code: refuted by a machine-checked witness."
  },
  {
   "property": "C511",
   "status": "partial",
   "theorems": [
    "C511_inlined_refuted"
   ],
   "note": "False of the code: refuted by a machine-checked witness."
  },
  {
   "property": "C512",
   "status": "partial",
   "theorems": [
    "C512_scope_refuted"
   ],
   "note": "False of the code: refuted by a machine-checked witness."
  },
  {
   "property": "C513",
   "status": "proved",
   "theorems": [
    "C513_comment",
    "C513_children",
    "C513_refused"
   ],
   "note": ""
  },
  {
   "property": "C514",
   "status": "partial",
   "theorems": [
    "C514_again_refuted"
   ],
   "note": "False of the code: refuted by a machine-checked witness."
  },
  {
   "property": "C515",
   "status": "partial",
   "theorems": [
    "C515_renamed_refuted"
   ],
   "note": "False of the code: refuted by a machine-checked witness."
  },
  {
   "property": "C516",
   "status": "proved",
   "theorems": [
    "C516_concat",
    "C516_same"
   ],
   "note": ""
  },
  {
   "property": "C517",
   "status": "proved",
   "theorems": [
    "C517_extend"
   ],
   "note": ""
  },
  {
   "property": "C518",
   "status": "partial",
   "theorems": [
    "C518_moved_refuted"
   ],
   "note": "False of the code: refuted by a machine-checked witness."
  },
  {
   "property": "C519",
   "status": "partial",
   "theorems": [
    "C519_resized_refuted"
   ],
   "note": "False of the code: refuted by a machine-checked witness."
  },
  {
   "property": "C520",
   "status": "partial",
   "theorems": [
    "C520_sign_refuted"
   ],
   "note": "False of the code: refuted by a machine-checked witness."
  },
  {
   "property": "C521",
   "status": "proved",
   "theorems": [
    "C521_visited",
    "C521_removing"
   ],
   "note": ""
  },
  {
   "property": "C522",
   "status": "partial",
   "theorems": [
    "C522_before_refuted"
   ],
   "note": "False of the code: refuted by a machine-checked witness."
  },
  {
   "property": "C523",
   "status": "partial",
   "theorems": [
    "C523_again_refuted"
   ],
   "note": "False of the code: refuted by a machine-checked witness."
  },
  {
   "property": "C524",
   "status": "proved",
   "theorems": [
    "C524_passes",
    "C524_throws",
    "C524_values"
   ],
   "note": ""
  },
  {
   "property": "C525",
   "status": "proved",
   "theorems": [
    "C525_again"
   ],
   "note": ""
  },
  {
   "property": "C526",
   "status": "partial",
   "theorems": [
    "C526_default_refuted"
   ],
   "note": "False of the code: refuted by a machine-checked witness."
  },
  {
   "property": "C527",
   "status": "partial",
   "theorems": [
    "C527_order_refuted"
   ],
   "note": "False of the code: refuted by a machine-checked witness."
  },
  {
   "property": "C528",
   "status": "proved",
   "theorems": [
    "C528_line"
   ],
   "note": ""
  },
  {
   "property": "C529",
   "status": "proved",
   "theorems": [
    "C529_closing"
   ],
   "note": ""
  },
  {
   "property": "C530",
   "status": "partial",
   "theorems": [
    "C530_less_refuted"
   ],
   "note": "False of the code: refuted by a machine-checked witness."
  }
 ]
}