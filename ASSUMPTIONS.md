# What `Print Assumptions` lists for each property theorem

Generated by tools/assumptions.py.

## Closed under the global context (no axioms) — 580 theorems

* C01_stream_is_offset_addressed_queue
* C01_stream_from_bytes_is_queue
* C02_iterators_safe
* C02_iterators_safe_without_end
* C02_end_iterator_refuted
* C02_reset_refuted
* C02_empty_stream_refuted
* C03_trim_is_permanent
* C03_untrim_refuted
* C04_frozen_rejects_append
* C04_frozen_rejects_gap
* C04_only_unfreezing_thaws
* C04_unfreeze_then_append_works
* C05_statistics_count_appends
* C06_copy_behaves_like_content
* C06_copy_of_aligned_stream
* C06_copy_resurrects_refuted
* C07_size_counts_available
* C07_advance_drops_prefix
* C07_limit_never_enlarges
* C07_sub
* C07_trim_drops_prefix
* C07_complete_iff_no_more_data_can_come
* C07_trimmed_view_throws
* C07_limit_refuted
* C07_sub_escapes_parent_refuted
* C07_size_counts_trimmed_refuted
* C08_blocks_yield_content
* C09_extract
* C10_find_first_occurrence
* C10_find_on_cells
* C10_find_byte
* C10_find_byte_on_cells
* C10_find_view
* C11_rfind_last_occurrence
* C11_rfind_without_reading
* C11_rfind_default_start
* C11_rfind_from_end_refuted
* C11_rfind_outside_view_refuted
* C11_rfind_exact_fit_refuted
* C12_view_eq_bytes
* C12_view_eq_bytes_cells
* C12_view_eq_view
* C12_starts_with
* C12_starts_with_cells
* C13_next_data
* C13_next_data_of_empty_stream
* C13_trimmed_empty_refuted
* C32_pack_unpack_roundtrip
* C32_unpack_pack_roundtrip
* C32_unpack_error_iff_short
* C32_pack_is_twos_complement
* C32_negative_int8_refuted
* C32_undefined_order
* C33_flip_reverses_bytes
* C33_flip_involutive
* C33_flip_n_reverses_low_bytes
* C33_flip_signed_n_reverses_low_bytes
* C33_flip_signed_8_is_involutive
* C33_network_order
* C34_bits_extracts_range
* C34_bits_throws_iff_bad_range
* C28_split_join
* C28_split_exact
* C28_split_empty_delimiter
* C28_split_pieces_have_no_delimiter
* C28_single_byte_delimiters_qualify
* C28_split_join_refuted
* C28_split_whitespace
* C28_whitespace
* C29_trim_is_exact
* C29_split1_at_first
* C29_rsplit1_at_last
* C29_split1_whitespace
* C29_rsplit1_whitespace
* C29_replace_all_leftmost
* C29_replace_empty_pattern
* C29_starts_and_ends_with
* C30_escape_roundtrip
* C30_escape_injective
* C30_escape_printable
* C30_octal_roundtrip_refuted
* C30_no_escape_backslash_refuted
* C31_hexstring_decodes
* C31_hexstring_two_digits_per_byte
* C31_hexstring_injective
* C31_mac_decodes
* C31_mac_length
* C31_mac_injective
* C24_sub
* C24_sub_inside
* C24_sub_refuted
* C24_extract
* C24_find
* C25_toInt_exact
* C25_toUInt_exact
* C25_toInt
* C25_toUInt
* C25_not_a_digit_accepted_refuted
* C25_wrong_value_refuted
* C25_lone_sign_refuted
* C25_min_max_refuted
* C25_long_numeral_refuted
* C25_base_truncated_refuted
* C26_binary_to_integer
* C26_undefined_order_rejected
* C26_little_is_big_of_reverse
* C26_host_order_length
* C26_host_order
* C26_host_refuted
* C27_iterators_are_safe
* C56_pow_exact
* C56_pow_deterministic
* C56_negative_exponent
* C56_negative_exponent_refuted
* C40_reads
* C40_pop
* C40_sub
* C40_assign
* C40_insert
* C40_vector_programs
* C40_assign_wraps_refuted
* C40_self_append_refuted
* C41_deref
* C41_compare
* C41_foreign_insert_refuted
* C42_map_programs
* C42_spec_is_finite_map
* C42_size_counts_keys
* C42_iteration
* C42_copy_end_refuted
* C42_copy_dangling_refuted
* C42_moved_from_refuted
* C42_const_increment_refuted
* C43_set_programs
* C43_insert_keeps_iterators
* C43_foreign_hint_refuted
* C43_copy_refuted
* C35_mask_keeps_upper_bits
* C35_mask_twice_is_min
* C35_construct_from_address
* C35_contains_is_prefix_match
* C35_prefix_is_contained
* C35_construct_from_string
* C35_construct_from_string_refuted
* C36_pack_unpack
* C36_pack_bytes
* C36_unpack_pack
* C37_strict_total_order
* C37_order_exact
* C37_order_agrees_with_equality
* C37_network_order
* C37_families_refuted
* C57_text_roundtrip
* C38_parse_accepts_exactly_ports
* C38_print_parse_roundtrip
* C38_rejects_large_numbers
* C38_order_agrees_with_equality
* C38_order_is_lexicographic
* C38_undefined_protocol_not_parsed
* C39_time_plus_interval
* C39_add_smallest_interval_refuted
* C39_add_smallest_interval
* C39_time_minus_interval
* C39_time_minus_time
* C39_interval_arithmetic
* C39_add_sub_cancel
* C55_never_twice
* C55_alive_iff_owned
* C55_values
* C55_no_leak
* C45_accounting
* C45_maximum
* C45_reset_refuted
* C44_coroutines
* C44_result_once
* C44_resume_after_abort_refuted
* C46_context_restored
* C46_yields_itself
* C47_shared_iff_same_patterns
* C47_fails_iff_not_compilable
* C47_collision_refuted
* C54_parse_accepts_exactly
* C54_roundtrip
* C54_key_exact
* C54_two_argument_constructor_refuted
* C54_uninitialized
* C54_equality
* C54_wildcard
* C23_lookup_by_name
* C23_default
* C23_default_refuted
* C23_scope_refuted
* C58_connects_exactly_matching
* C58_connects_once
* C58_wildcard_connects_twice_refuted
* C21_wait_decides_at_first_moment
* C21_moment_unique
* C21_wait_or_parse_error
* C21_at_eod
* C21_wait_for_eod
* C22_result_is_function_of_input
* C22_splitting_irrelevant
* C22_size_eod_limited_refuted
* C22_size_eod_in_size_refuted
* C59_until_gap_refuted
* C59_until_first_occurrence
* C59_to_eod
* C68_size_body_sees_only_its_bytes
* C68_continues_behind_size
* C68_max_size
* C68_size_not_met
* C14_in_order
* C14_in_order_no_failure
* C15_any_order
* C15_tiling
* C16_first_wins
* C16_first_wins_untrimmed
* C16_first_wins_refuted
* C16_position_refuted
* C16_no_exception_refuted
* C17_gap_then_skip
* C17_delivery_refuted
* C17_no_crash_refuted
* C18_reassembly
* C18_forward_only_refuted
* C18_skip_continues_refuted
* C18_trim_keeps_refuted
* C19_shift
* C19_shift_from_start
* C20_history
* C20_step
* C20_size_refuted
* C49_tables_exact
* C49_simplify_exact
* C50_look_ahead_decides
* C50_acceptance_exact
* C51_finalize_stops
* C50_run_time
* C50_skip_refuted
* C50_end_of_input_refuted
* C50_loop_refuted
* C50_block_refuted
* C53_flows_fed
* C53_flow_gets_its_data
* C53_unknown_ignored
* C53_known_flows
* C53_safe
* C53_end_order_refuted
* C53_shared_flow_refuted
* C53_unknown_parser_refuted
* C53_null_call_refuted
* C53_shared_context
* C60_whole_input
* C60_increment_refuted
* C61_inputs
* C61_finished
* C61_reset
* C61_block_finished_refuted
* C61_offset
* C52_constant_is_the_value
* C52_fold_preserves_values
* C52_errors_are_justified
* C52_step_hides_nothing
* C52_hides_errors_refuted
* C52_negate_min_refuted
* C52_negate_unsigned_refuted
* C48_unit_gets_what_is_forwarded
* C48_filters_see_their_input
* C48_no_filter_lags
* C48_schedule_independent
* C48_arrived_is_supplied
* C48_no_resumption_of_ended_filters
* C48_sink_delivers_filtered_data
* C48_disconnected_filters_forward_nowhere
* C48_sink_reused_after_close
* C48_sink_write_after_filter_end_refuted
* C48_sink_close_loses_held_data_refuted
* C48_same_filter_twice_refuted
* C62_exact
* C62_otherwise_throws
* C62_not_hexadecimal_refuted
* C62_surrogate_refuted
* C63_exact
* C63_reversible
* C63_invalid_refuted
* C64_replace_and_ignore_exact
* C64_strict_exact
* C64_otherwise_runtime_error
* C64_result_is_valid
* C64_valid_unchanged
* C64_encode_is_decode
* C64_repair_is_a_function
* C64_repair_fails_refuted
* C64_ascii_exact
* C64_ascii_strict
* C64_ascii_always_succeeds
* C64_ascii_whitespace_refuted
* C64_size_valid
* C64_size_repaired
* C64_size_strict
* C64_size_hangs_refuted
* C64_size_foreign_exception_refuted
* C65_encode_exact
* C65_decode_exact
* C65_decode_strict_exact
* C65_otherwise_runtime_error
* C65_even_data
* C65_odd_data
* C65_round_trip
* C65_byte_order_mark_refuted
* C65_round_trip_refuted
* C65_repair_fails_refuted
* C66_valid
* C66_repaired
* C66_strict
* C66_bytes_utf8
* C66_bytes_utf16
* C67_closed_is_new
* C67_new_sink
* C67_initial_number_rejected
* C67_initial_number_accepted
* C67_failing_unit_not_connected
* C67_connected_unit_gets_data
* C70_facts_exact
* C70_finishes
* C70_order_irrelevant
* C70_graph
* C71_dead_code
* C71_no_new_failure
* C71_total_operators
* C71_unreachable
* C71_break_refuted
* C71_try_refuted
* C71_catch_refuted
* C71_global_refuted
* C71_inout_refuted
* C71_failure_refuted
* C71_self_refuted
* C71_logical_refuted
* C71_hidden_update_refuted
* C72_postorder
* C72_value_propagation
* C72_uninitialized_refuted
* C72_global_refuted
* C72_global_copy_refuted
* C72_return_refuted
* C72_return_inout_refuted
* C72_break_refuted
* C72_try_refuted
* C72_terminates_refuted
* C72_scope_refuted
* C77_liveness_ends
* C77_liveness_exact
* C77_moves_last_uses
* C77_moves
* C77_break_refuted
* C77_try_refuted
* C77_inout_refuted
* C73_arrival
* C73_decided_stays
* C74_sound
* C75_complete
* C75_unambiguous
* C75_exact
* C75_tail_refuted
* C75_same_literal_twice_refuted
* C75_size_refuted
* C74_size_refuted
* C74_integers_refuted
* C75_loop_refuted
* C75_condition_refuted
* C75_behind_refuted
* C76_selects
* C76_default
* C76_no_match
* C76_last
* C76_end
* C76_condition
* C76_late_default_rejected
* C76_between_default_refuted
* C76_late_default_refuted
* C76_default_at_end_refuted
* C76_size_refuted
* C76_single_condition_refuted
* C76_no_literal_refuted
* C78_condition
* C78_selects
* C78_accepts_iff
* C78_unique
* C78_robust
* C78_two_else_refuted
* C78_unclosed_refuted
* C78_value_refuted
* C78_bang_refuted
* C79_transparent
* C79_closest
* C79_confirmed
* C79_terminates
* C79_subunits_forward
* C79_literals_forward
* C79_search
* C79_search_regexp
* C79_documented
* C79_literals_tidy
* C79_trimmed_refuted
* C79_stale_refuted
* C79_retry_refuted
* C79_resync_refuted
* C79_synced_reject_refuted
* C79_regexp_gap_refuted
* C79_gap_tokens_refuted
* C79_endless_refuted
* C80_documented
* C80_unique
* C80_transparent
* C80_data_kept
* C80_most_recent
* C80_stale_look_ahead_refuted
* C80_field_error_refuted
* C80_synchronize_refuted
* C81_counted
* C81_counted_regexp
* C81_list
* C81_list_regexp
* C81_literals_clean
* C81_count
* C81_plain
* C81_transparent
* C81_list_transparent
* C81_unconfirmed
* C81_terminates
* C81_expected_number_refuted
* C81_last_refuted
* C81_stale_refuted
* C81_trim_refuted
* C81_property_refuted
* C81_stale_property_refuted
* C81_list_end_refuted
* C81_eod_refuted
* C82_lifetime
* C82_access
* C82_null_expired
* C82_weak
* C82_expired_forever
* C82_never_undefined
* C82_undefined_only_dangling
* C82_bindings
* C82_values
* C82_exception_safe
* C82_throws
* C82_equality
* C82_kinds
* C82_self_assign
* C82_aliases
* C82_copy_independent
* C82_original_independent
* C82_share
* C82_share_null
* C82_move
* C82_value_move
* C82_new_instance
* C82_assign_seen_by_all
* C82_assign_null
* C82_move_assign
* C82_reset
* C82_as_shared
* C82_generic
* C82_null_shared_refuted
* C82_reset_refuted
* C82_generic_null_refuted
* C82_move_assign_refuted
* C82_assign_shared_refuted
* C83_longest
* C83_chunking
* C83_caret_refuted
* C83_empty_final_refuted
* C83_match
* C83_match_advance
* C83_match_empty
* C83_match_empty_refuted
* C83_find
* C83_find_caret_refuted
* C83_match_groups
* C83_captures
* C83_captures_refuted
* C83_reuse
* C83_no_reuse_error
* C83_errors
* C83_independent
* C83_copy
* C83_copy_finished_refuted
* C83_copy_null_refuted
* C83_literal
* C83_literal_late_end
* C83_literal_late_end_refuted
* C83_dollar_refuted
* C84_pass_preserves_behaviour
* C84_removal_preserves_behaviour
* C84_inout_to_in_preserves_behaviour
* C84_result_well_formed
* C84_removed_exactly
* C84_call_argument_kept
* C84_kinds_exactly
* C84_interface_kept
* C84_declaration_matches_calls
* C84_copy_of_inout_argument_refuted
* C84_copy_of_global_refuted
* C84_call_inside_argument_refuted
* C84_method_call_argument_refuted
* C84_throwing_argument_refuted
* C84_nested_call_left_behind_refuted
* C85_success
* C85_failure
* C85_finally_once
* C85_error_told
* C85_done_or_error
* C85_nested_units
* C85_field_hooks
* C85_hook_sees_value
* C85_hook_order
* C85_field_error
* C85_condition_false
* C85_condition_true
* C85_switch
* C85_switch_equality
* C85_subunit_first
* C85_container
* C85_count
* C85_eod
* C85_until
* C85_until_including
* C85_while
* C85_integers
* C85_element_requires
* C85_iterations
* C85_ends
* C85_hook_acts
* C85_field_error_acts
* C85_unit_hooks_act
* C85_unit_error_acts
* C85_size
* C85_size_exact
* C85_literal
* C85_uint
* C85_bytes
* C85_rest
* C85_if
* C85_subunit_alone
* C85_no_progress
* C85_REFUTED_loops_end
* C85_REFUTED_done_or_error
* C85_REFUTED_finally
* C86_no_capture_preserves
* C86_resolution_kept
* C86_function_level
* C86_distinct_names
* C86_REFUTED_capture_after
* C86_REFUTED_renamed_captures
* C86_new_names
* C86_name_kept
* C86_ends
* C86_complete
* C86_flattens
* C87_preserved
* C87_removed
* C87_function
* C87_handed_back
* C87_arity
* C87_REFUTED_members
* C87_REFUTED_twice
* C87_REFUTED_globals
* C87_REFUTED_shadowed
* C87_REFUTED_by_reference
* C88_preserved
* C88_stays_bracketed
* C88_exact
* C88_expressions
* C88_terminates
* C88_REFUTED_error_member

## Axioms: `ClassicalDedekindReals.sig_forall_dec`, `ClassicalDedekindReals.sig_not_dec`, `Classical_Prop.classic`, `FunctionalExtensionality.functional_extensionality_dep` — 22 theorems

* C39_interval_of_seconds
* C39_time_of_seconds
* C39_infinite_seconds
* C39_out_of_range_check_refuted
* C39_seconds_accuracy
* C39_whole_seconds
* C39_seconds_monotone
* C39_seconds_roundtrip
* C39_seconds_roundtrip_refuted
* C39_interval_times_double
* C39_current_time
* C39_mktime
* C39_mktime_year_refuted
* C69_double_roundtrip
* C69_double_bytes
* C69_double_format
* C69_single_format
* C69_single_roundtrip
* C69_single_exact
* C69_single_bytes
* C69_signaling_nan_refuted
* C69_errors
