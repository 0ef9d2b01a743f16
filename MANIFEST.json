{
 "claims": [
  {
   "property": "C01",
   "status": "proved",
   "theorems": [
    "C01_stream_is_offset_addressed_queue",
    "C01_stream_from_bytes_is_queue"
   ],
   "note": "Every client program respecting the contract of StreamSpec.v behaves like the queue."
  },
  {
   "property": "C02",
   "status": "proved",
   "theorems": [
    "C02_iterators_safe",
    "C02_iterators_safe_without_end",
    "C02_end_iterator_refuted",
    "C02_reset_refuted",
    "C02_empty_stream_refuted"
   ],
   "note": "Exactly what the statement says. The values returned are those of the queue of C01 (C01_stream_is_queue); the three unsafe cases are proved as counterexamples."
  },
  {
   "property": "C03",
   "status": "proved",
   "theorems": [
    "C03_trim_is_permanent",
    "C03_untrim_refuted"
   ],
   "note": "Proved for all programs within the contract; the violation outside it is proved as counterexample."
  },
  {
   "property": "C04",
   "status": "proved",
   "theorems": [
    "C04_frozen_rejects_append",
    "C04_frozen_rejects_gap",
    "C04_only_unfreezing_thaws",
    "C04_unfreeze_then_append_works"
   ],
   "note": ""
  },
  {
   "property": "C05",
   "status": "proved",
   "theorems": [
    "C05_statistics_count_appends"
   ],
   "note": ""
  },
  {
   "property": "C06",
   "status": "proved",
   "theorems": [
    "C06_copy_behaves_like_content",
    "C06_copy_of_aligned_stream",
    "C06_copy_resurrects_refuted"
   ],
   "note": "Exactly what the statement says, for every reachable stream."
  },
  {
   "property": "C07",
   "status": "proved",
   "theorems": [
    "C07_size_counts_available",
    "C07_advance_drops_prefix",
    "C07_limit_never_enlarges",
    "C07_sub",
    "C07_trim_drops_prefix",
    "C07_complete_iff_no_more_data_can_come",
    "C07_trimmed_view_throws",
    "C07_limit_refuted",
    "C07_sub_escapes_parent_refuted",
    "C07_size_counts_trimmed_refuted"
   ],
   "note": "Exactly what the statement says; the three violations are proved as counterexamples."
  },
  {
   "property": "C08",
   "status": "proved",
   "theorems": [
    "C08_blocks_yield_content"
   ],
   "note": ""
  },
  {
   "property": "C09",
   "status": "proved",
   "theorems": [
    "C09_extract"
   ],
   "note": ""
  },
  {
   "property": "C10",
   "status": "proved",
   "theorems": [
    "C10_find_first_occurrence",
    "C10_find_on_cells",
    "C10_find_byte",
    "C10_find_byte_on_cells",
    "C10_find_view"
   ],
   "note": ""
  },
  {
   "property": "C11",
   "status": "proved",
   "theorems": [
    "C11_rfind_last_occurrence",
    "C11_rfind_without_reading",
    "C11_rfind_default_start",
    "C11_rfind_from_end_refuted",
    "C11_rfind_outside_view_refuted",
    "C11_rfind_exact_fit_refuted"
   ],
   "note": "Exactly what the statement says, for gapless data."
  },
  {
   "property": "C12",
   "status": "proved",
   "theorems": [
    "C12_view_eq_bytes",
    "C12_view_eq_bytes_cells",
    "C12_view_eq_view",
    "C12_starts_with",
    "C12_starts_with_cells"
   ],
   "note": ""
  },
  {
   "property": "C13",
   "status": "proved",
   "theorems": [
    "C13_next_data",
    "C13_next_data_of_empty_stream",
    "C13_trimmed_empty_refuted"
   ],
   "note": "Covers all views."
  },
  {
   "property": "C14",
   "status": "proved",
   "theorems": [
    "C14_in_order",
    "C14_in_order_no_failure"
   ],
   "note": ""
  },
  {
   "property": "C15",
   "status": "proved",
   "theorems": [
    "C15_any_order",
    "C15_tiling"
   ],
   "note": ""
  },
  {
   "property": "C16",
   "status": "proved",
   "theorems": [
    "C16_first_wins",
    "C16_first_wins_untrimmed",
    "C16_first_wins_refuted",
    "C16_position_refuted",
    "C16_no_exception_refuted"
   ],
   "note": "Proved in exactly the stated cases; three counterexamples for the rest."
  },
  {
   "property": "C17",
   "status": "proved",
   "theorems": [
    "C17_gap_then_skip",
    "C17_delivery_refuted",
    "C17_no_crash_refuted"
   ],
   "note": "Exactly what the statement says."
  },
  {
   "property": "C18",
   "status": "proved",
   "theorems": [
    "C18_reassembly",
    "C18_forward_only_refuted",
    "C18_skip_continues_refuted",
    "C18_trim_keeps_refuted"
   ],
   "note": "Refinement theorem over all operation sequences; counterexamples for the inadmissible operations."
  },
  {
   "property": "C19",
   "status": "proved",
   "theorems": [
    "C19_shift",
    "C19_shift_from_start"
   ],
   "note": ""
  },
  {
   "property": "C20",
   "status": "proved",
   "theorems": [
    "C20_history",
    "C20_step",
    "C20_size_refuted"
   ],
   "note": "Proved for all operation sequences and states."
  },
  {
   "property": "C21",
   "status": "proved",
   "theorems": [
    "C21_wait_decides_at_first_moment",
    "C21_moment_unique",
    "C21_wait_or_parse_error",
    "C21_at_eod",
    "C21_wait_for_eod"
   ],
   "note": ""
  },
  {
   "property": "C22",
   "status": "proved",
   "theorems": [
    "C22_result_is_function_of_input",
    "C22_splitting_irrelevant",
    "C22_size_eod_limited_refuted",
    "C22_size_eod_in_size_refuted"
   ],
   "note": "Proved exactly in the stated cases; counterexamples for the two exceptions."
  },
  {
   "property": "C23",
   "status": "proved",
   "theorems": [
    "C23_lookup_by_name",
    "C23_default",
    "C23_default_refuted",
    "C23_scope_refuted"
   ],
   "note": "Exact for all registries, names and scopes."
  },
  {
   "property": "C24",
   "status": "proved",
   "theorems": [
    "C24_sub",
    "C24_sub_inside",
    "C24_sub_refuted",
    "C24_extract",
    "C24_find"
   ],
   "note": "C24_sub covers all 64-bit arguments."
  },
  {
   "property": "C25",
   "status": "proved",
   "theorems": [
    "C25_toInt_exact",
    "C25_toUInt_exact",
    "C25_toInt",
    "C25_toUInt",
    "C25_not_a_digit_accepted_refuted",
    "C25_wrong_value_refuted",
    "C25_lone_sign_refuted",
    "C25_min_max_refuted",
    "C25_long_numeral_refuted",
    "C25_base_truncated_refuted"
   ],
   "note": "Exact for all inputs; deviations from the expected reading proved as counterexamples."
  },
  {
   "property": "C26",
   "status": "proved",
   "theorems": [
    "C26_binary_to_integer",
    "C26_undefined_order_rejected",
    "C26_little_is_big_of_reverse",
    "C26_host_order_length",
    "C26_host_order",
    "C26_host_refuted"
   ],
   "note": "Exact for all byte strings and orders (little-endian host)."
  },
  {
   "property": "C27",
   "status": "proved",
   "theorems": [
    "C27_iterators_are_safe"
   ],
   "note": ""
  },
  {
   "property": "C28",
   "status": "proved",
   "theorems": [
    "C28_split_join",
    "C28_split_exact",
    "C28_split_empty_delimiter",
    "C28_split_pieces_have_no_delimiter",
    "C28_single_byte_delimiters_qualify",
    "C28_split_join_refuted",
    "C28_split_whitespace",
    "C28_whitespace"
   ],
   "note": "Exact for all strings and delimiters."
  },
  {
   "property": "C29",
   "status": "proved",
   "theorems": [
    "C29_trim_is_exact",
    "C29_split1_at_first",
    "C29_rsplit1_at_last",
    "C29_split1_whitespace",
    "C29_rsplit1_whitespace",
    "C29_replace_all_leftmost",
    "C29_replace_empty_pattern",
    "C29_starts_and_ends_with"
   ],
   "note": ""
  },
  {
   "property": "C30",
   "status": "proved",
   "theorems": [
    "C30_escape_roundtrip",
    "C30_escape_injective",
    "C30_escape_printable",
    "C30_octal_roundtrip_refuted",
    "C30_no_escape_backslash_refuted"
   ],
   "note": "Exactly what the statement says, for all byte strings and styles."
  },
  {
   "property": "C31",
   "status": "proved",
   "theorems": [
    "C31_hexstring_decodes",
    "C31_hexstring_two_digits_per_byte",
    "C31_hexstring_injective",
    "C31_mac_decodes",
    "C31_mac_length",
    "C31_mac_injective"
   ],
   "note": ""
  },
  {
   "property": "C32",
   "status": "proved",
   "theorems": [
    "C32_pack_unpack_roundtrip",
    "C32_unpack_pack_roundtrip",
    "C32_unpack_error_iff_short",
    "C32_pack_is_twos_complement",
    "C32_negative_int8_refuted",
    "C32_undefined_order"
   ],
   "note": "Exact for all values, relying on SafeInt's contract of checked conversions (SafeInt is not part of /repo)."
  },
  {
   "property": "C33",
   "status": "proved",
   "theorems": [
    "C33_flip_reverses_bytes",
    "C33_flip_involutive",
    "C33_flip_n_reverses_low_bytes",
    "C33_flip_signed_n_reverses_low_bytes",
    "C33_flip_signed_8_is_involutive",
    "C33_network_order"
   ],
   "note": ""
  },
  {
   "property": "C34",
   "status": "proved",
   "theorems": [
    "C34_bits_extracts_range",
    "C34_bits_throws_iff_bad_range"
   ],
   "note": ""
  },
  {
   "property": "C35",
   "status": "proved",
   "theorems": [
    "C35_mask_keeps_upper_bits",
    "C35_mask_twice_is_min",
    "C35_construct_from_address",
    "C35_contains_is_prefix_match",
    "C35_prefix_is_contained",
    "C35_construct_from_string",
    "C35_construct_from_string_refuted"
   ],
   "note": "Exactly what the statement says."
  },
  {
   "property": "C36",
   "status": "proved",
   "theorems": [
    "C36_pack_unpack",
    "C36_pack_bytes",
    "C36_unpack_pack"
   ],
   "note": ""
  },
  {
   "property": "C37",
   "status": "proved",
   "theorems": [
    "C37_strict_total_order",
    "C37_order_exact",
    "C37_order_agrees_with_equality",
    "C37_network_order",
    "C37_families_refuted"
   ],
   "note": "Exact for all addresses and networks."
  },
  {
   "property": "C38",
   "status": "proved",
   "theorems": [
    "C38_parse_accepts_exactly_ports",
    "C38_print_parse_roundtrip",
    "C38_rejects_large_numbers",
    "C38_order_agrees_with_equality",
    "C38_order_is_lexicographic",
    "C38_undefined_protocol_not_parsed"
   ],
   "note": ""
  },
  {
   "property": "C39",
   "status": "proved",
   "theorems": [
    "C39_time_plus_interval",
    "C39_add_smallest_interval_refuted",
    "C39_add_smallest_interval",
    "C39_time_minus_interval",
    "C39_time_minus_time",
    "C39_interval_arithmetic",
    "C39_add_sub_cancel",
    "C39_interval_of_seconds",
    "C39_time_of_seconds",
    "C39_infinite_seconds",
    "C39_out_of_range_check_refuted",
    "C39_seconds_accuracy",
    "C39_whole_seconds",
    "C39_seconds_monotone",
    "C39_seconds_roundtrip",
    "C39_seconds_roundtrip_refuted",
    "C39_interval_times_double",
    "C39_current_time",
    "C39_mktime",
    "C39_mktime_year_refuted"
   ],
   "note": "Integer operations exact or throwing (given SafeInt's contract), but adding the interval of -2^63 ns is undefined behaviour (refuted). Conversions from and to double proved against real arithmetic (Flocq; standard library axioms of the reals); NaN and the first value out of range pass the OutOfRange check, and the round trip through seconds() can lose a nanosecond (refuted). SafeInt's conversion of a double is a parameter with a stated contract."
  },
  {
   "property": "C40",
   "status": "proved",
   "theorems": [
    "C40_reads",
    "C40_pop",
    "C40_sub",
    "C40_assign",
    "C40_insert",
    "C40_vector_programs",
    "C40_assign_wraps_refuted",
    "C40_self_append_refuted"
   ],
   "note": "Refinement to plain lists for all such programs."
  },
  {
   "property": "C41",
   "status": "proved",
   "theorems": [
    "C41_deref",
    "C41_compare",
    "C41_foreign_insert_refuted"
   ],
   "note": "Exactly what the statement says."
  },
  {
   "property": "C42",
   "status": "proved",
   "theorems": [
    "C42_map_programs",
    "C42_spec_is_finite_map",
    "C42_size_counts_keys",
    "C42_iteration",
    "C42_copy_end_refuted",
    "C42_copy_dangling_refuted",
    "C42_moved_from_refuted",
    "C42_const_increment_refuted"
   ],
   "note": "Refinement theorem over all such programs."
  },
  {
   "property": "C43",
   "status": "proved",
   "theorems": [
    "C43_set_programs",
    "C43_insert_keeps_iterators",
    "C43_foreign_hint_refuted",
    "C43_copy_refuted"
   ],
   "note": "Refinement theorem over all such programs."
  },
  {
   "property": "C44",
   "status": "proved",
   "theorems": [
    "C44_coroutines",
    "C44_result_once",
    "C44_resume_after_abort_refuted"
   ],
   "note": "Simulation for all programs."
  },
  {
   "property": "C45",
   "status": "proved",
   "theorems": [
    "C45_accounting",
    "C45_maximum",
    "C45_reset_refuted"
   ],
   "note": "Exactly what the statement says."
  },
  {
   "property": "C46",
   "status": "proved",
   "theorems": [
    "C46_context_restored",
    "C46_yields_itself"
   ],
   "note": ""
  },
  {
   "property": "C47",
   "status": "proved",
   "theorems": [
    "C47_shared_iff_same_patterns",
    "C47_fails_iff_not_compilable",
    "C47_collision_refuted"
   ],
   "note": "Exactly what the statement says, for every history of constructions and every acceptance predicate of JustRX."
  },
  {
   "property": "C48",
   "status": "proved",
   "theorems": [
    "C48_unit_gets_what_is_forwarded",
    "C48_filters_see_their_input",
    "C48_no_filter_lags",
    "C48_schedule_independent",
    "C48_arrived_is_supplied",
    "C48_no_resumption_of_ended_filters",
    "C48_sink_delivers_filtered_data",
    "C48_disconnected_filters_forward_nowhere",
    "C48_sink_reused_after_close",
    "C48_sink_write_after_filter_end_refuted",
    "C48_sink_close_loses_held_data_refuted",
    "C48_same_filter_twice_refuted"
   ],
   "note": "Proved for all filter behaviours and schedules (gapless input)."
  },
  {
   "property": "C49",
   "status": "proved",
   "theorems": [
    "C49_tables_exact",
    "C49_simplify_exact"
   ],
   "note": ""
  },
  {
   "property": "C50",
   "status": "proved",
   "theorems": [
    "C50_look_ahead_decides",
    "C50_acceptance_exact",
    "C50_run_time",
    "C50_skip_refuted",
    "C50_end_of_input_refuted",
    "C50_loop_refuted",
    "C50_block_refuted"
   ],
   "note": "Exactly what the statement says."
  },
  {
   "property": "C51",
   "status": "proved",
   "theorems": [
    "C51_finalize_stops"
   ],
   "note": ""
  },
  {
   "property": "C52",
   "status": "proved",
   "theorems": [
    "C52_constant_is_the_value",
    "C52_fold_preserves_values",
    "C52_errors_are_justified",
    "C52_step_hides_nothing",
    "C52_hides_errors_refuted",
    "C52_negate_min_refuted",
    "C52_negate_unsigned_refuted"
   ],
   "note": "Exactly what the statement says (well-typed expressions; run-time unsigned negation as parameter)."
  },
  {
   "property": "C53",
   "status": "proved",
   "theorems": [
    "C53_flows_fed",
    "C53_flow_gets_its_data",
    "C53_unknown_ignored",
    "C53_known_flows",
    "C53_safe",
    "C53_end_order_refuted",
    "C53_shared_flow_refuted",
    "C53_unknown_parser_refuted",
    "C53_null_call_refuted",
    "C53_shared_context"
   ],
   "note": "Exactly what the statement says, for all command sequences and parser behaviours."
  },
  {
   "property": "C54",
   "status": "proved",
   "theorems": [
    "C54_parse_accepts_exactly",
    "C54_roundtrip",
    "C54_key_exact",
    "C54_two_argument_constructor_refuted",
    "C54_uninitialized",
    "C54_equality",
    "C54_wildcard"
   ],
   "note": "Exactly what the statement says."
  },
  {
   "property": "C55",
   "status": "proved",
   "theorems": [
    "C55_never_twice",
    "C55_alive_iff_owned",
    "C55_values",
    "C55_no_leak"
   ],
   "note": ""
  },
  {
   "property": "C56",
   "status": "proved",
   "theorems": [
    "C56_pow_exact",
    "C56_pow_deterministic",
    "C56_negative_exponent",
    "C56_negative_exponent_refuted"
   ],
   "note": "Exact for all bases and exponents, given SafeInt's contract."
  },
  {
   "property": "C57",
   "status": "proved",
   "theorems": [
    "C57_text_roundtrip"
   ],
   "note": "Relies on libc's inet_pton/inet_ntop contract, a premise of the theorem."
  },
  {
   "property": "C58",
   "status": "proved",
   "theorems": [
    "C58_connects_exactly_matching",
    "C58_connects_once",
    "C58_wildcard_connects_twice_refuted"
   ],
   "note": "Exactly what the statement says."
  },
  {
   "property": "C59",
   "status": "proved",
   "theorems": [
    "C59_until_gap_refuted",
    "C59_until_first_occurrence",
    "C59_to_eod"
   ],
   "note": "Proved for all delimiters, inputs and schedules."
  },
  {
   "property": "C60",
   "status": "proved",
   "theorems": [
    "C60_whole_input",
    "C60_increment_refuted"
   ],
   "note": "Exactly what the statement says."
  },
  {
   "property": "C61",
   "status": "proved",
   "theorems": [
    "C61_inputs",
    "C61_finished",
    "C61_reset",
    "C61_block_finished_refuted",
    "C61_offset"
   ],
   "note": "Exactly what the statement says."
  },
  {
   "property": "C62",
   "status": "proved",
   "theorems": [
    "C62_exact",
    "C62_otherwise_throws",
    "C62_not_hexadecimal_refuted",
    "C62_surrogate_refuted"
   ],
   "note": "Exactly what the statement says. The libraries utfcpp and utf8proc are modelled by their documented behaviour."
  },
  {
   "property": "C63",
   "status": "proved",
   "theorems": [
    "C63_exact",
    "C63_reversible",
    "C63_invalid_refuted"
   ],
   "note": "Exactly what the statement says. The libraries utfcpp and utf8proc are modelled by their documented behaviour."
  },
  {
   "property": "C64",
   "status": "proved",
   "theorems": [
    "C64_replace_and_ignore_exact",
    "C64_strict_exact",
    "C64_otherwise_runtime_error",
    "C64_result_is_valid",
    "C64_valid_unchanged",
    "C64_encode_is_decode",
    "C64_repair_is_a_function",
    "C64_repair_fails_refuted",
    "C64_ascii_exact",
    "C64_ascii_strict",
    "C64_ascii_always_succeeds",
    "C64_ascii_whitespace_refuted",
    "C64_size_valid",
    "C64_size_repaired",
    "C64_size_strict",
    "C64_size_hangs_refuted",
    "C64_size_foreign_exception_refuted"
   ],
   "note": "Exactly what the statement says. The libraries utfcpp and utf8proc are modelled by their documented behaviour."
  },
  {
   "property": "C65",
   "status": "proved",
   "theorems": [
    "C65_encode_exact",
    "C65_decode_exact",
    "C65_decode_strict_exact",
    "C65_otherwise_runtime_error",
    "C65_even_data",
    "C65_odd_data",
    "C65_round_trip",
    "C65_byte_order_mark_refuted",
    "C65_round_trip_refuted",
    "C65_repair_fails_refuted"
   ],
   "note": "Exactly what the statement says. The libraries utfcpp and utf8proc are modelled by their documented behaviour."
  },
  {
   "property": "C66",
   "status": "proved",
   "theorems": [
    "C66_valid",
    "C66_repaired",
    "C66_strict",
    "C66_bytes_utf8",
    "C66_bytes_utf16"
   ],
   "note": "Exactly what the statement says. The libraries utfcpp and utf8proc are modelled by their documented behaviour."
  },
  {
   "property": "C67",
   "status": "proved",
   "theorems": [
    "C67_closed_is_new",
    "C67_new_sink",
    "C67_initial_number_rejected",
    "C67_initial_number_accepted",
    "C67_failing_unit_not_connected",
    "C67_connected_unit_gets_data"
   ],
   "note": "Exactly what the statement says, for sinks without filters (C48 has filters)."
  },
  {
   "property": "C68",
   "status": "proved",
   "theorems": [
    "C68_size_body_sees_only_its_bytes",
    "C68_continues_behind_size",
    "C68_max_size",
    "C68_size_not_met"
   ],
   "note": "For bodies built from the fields modelled (bytes, literals, integers, addresses, end-of-data tests, nested limits)."
  },
  {
   "property": "C69",
   "status": "proved",
   "theorems": [
    "C69_double_roundtrip",
    "C69_double_bytes",
    "C69_double_format",
    "C69_single_format",
    "C69_single_roundtrip",
    "C69_single_exact",
    "C69_single_bytes",
    "C69_signaling_nan_refuted",
    "C69_errors"
   ],
   "note": "Proved for all doubles and all bytes; a signaling NaN comes back quiet (refuted). Uses Flocq and the standard library's axioms of the reals."
  },
  {
   "property": "C70",
   "status": "proved",
   "theorems": [
    "C70_facts_exact",
    "C70_finishes",
    "C70_order_irrelevant",
    "C70_graph"
   ],
   "note": "For every function of the modelled language (assignments, locals, calls with inout parameters, if, while/else, try, throw, return, break, continue, assert, blocks), whatever the visiting order. Not in the language: for, switch, structs, aliasing types."
  },
  {
   "property": "C71",
   "status": "proved",
   "theorems": [
    "C71_dead_code",
    "C71_no_new_failure",
    "C71_total_operators",
    "C71_unreachable",
    "C71_break_refuted",
    "C71_try_refuted",
    "C71_catch_refuted",
    "C71_global_refuted",
    "C71_inout_refuted",
    "C71_failure_refuted",
    "C71_self_refuted",
    "C71_logical_refuted",
    "C71_hidden_update_refuted"
   ],
   "note": "Proved for functions without break, continue and try that do not assign to globals; each condition is shown necessary by a miscompiled function (nine refutations)."
  },
  {
   "property": "C72",
   "status": "proved",
   "theorems": [
    "C72_postorder",
    "C72_value_propagation",
    "C72_uninitialized_refuted",
    "C72_global_refuted",
    "C72_global_copy_refuted",
    "C72_return_refuted",
    "C72_return_inout_refuted",
    "C72_break_refuted",
    "C72_try_refuted",
    "C72_terminates_refuted",
    "C72_scope_refuted"
   ],
   "note": "Partial correctness: if the analysis finishes, the result behaves the same. Each condition is shown necessary by a miscompiled function (seven refutations); C72_terminates_refuted: the analysis itself recurses without end after x = x; C72_scope_refuted: a name may be moved out of its scope."
  },
  {
   "property": "C73",
   "status": "proved",
   "theorems": [
    "C73_arrival",
    "C73_decided_stays"
   ],
   "note": "For the modelled productions (sequence, literal, variable, look-ahead, while, counted and for-each loops, switch, block, nested unit, &size, conditions). The answers of leaf parsers and of the regexp token matcher are parameters of which only monotonicity in the input is assumed. Not modelled: &synchronize, &try, &parse-at/-from, filters, gaps."
  },
  {
   "property": "C74",
   "status": "proved",
   "theorems": [
    "C74_sound",
    "C74_size_refuted",
    "C74_integers_refuted"
   ],
   "note": "The two conditions are shown necessary: C74_size_refuted (a look-ahead symbol found before data limited by &size is accepted although it reaches beyond), C74_integers_refuted (pending integer look-ahead symbols are not compared with the input again)."
  },
  {
   "property": "C75",
   "status": "proved",
   "theorems": [
    "C75_complete",
    "C75_unambiguous",
    "C75_exact",
    "C75_tail_refuted",
    "C75_same_literal_twice_refuted",
    "C75_size_refuted",
    "C75_loop_refuted",
    "C75_condition_refuted",
    "C75_behind_refuted"
   ],
   "note": "Conditions shown necessary: C75_tail_refuted (a[]; b[] fails at the end of the data), C75_same_literal_twice_refuted (the same literal through two fields is reported as ambiguous), C75_size_refuted (the end of a limited field is taken for the end of data by what follows), C75_loop_refuted and C75_condition_refuted (the look-ahead sets assume every field present and exactly one element of counted loops), C75_behind_refuted."
  },
  {
   "property": "C76",
   "status": "proved",
   "theorems": [
    "C76_selects",
    "C76_default",
    "C76_no_match",
    "C76_last",
    "C76_end",
    "C76_condition",
    "C76_late_default_rejected",
    "C76_between_default_refuted",
    "C76_late_default_refuted",
    "C76_default_at_end_refuted",
    "C76_size_refuted",
    "C76_single_condition_refuted",
    "C76_no_literal_refuted"
   ],
   "note": "The grammar contains the productions of the switch as the code adds them (has_switch); the theorems assume that no other production refers into the chain of look-ahead productions. Deviations: C76_between_default_refuted (a default between other cases is never taken: the last case is), C76_late_default_refuted (a default as third or later case: rejected as ambiguous, the symbol of the look-ahead production is reused), C76_default_at_end_refuted, C76_size_refuted (&size of a look-ahead switch is accepted and ignored), C76_single_condition_refuted (the condition of a switch with one case is ignored), C76_no_literal_refuted."
  },
  {
   "property": "C77",
   "status": "proved",
   "theorems": [
    "C77_liveness_ends",
    "C77_liveness_exact",
    "C77_moves_last_uses",
    "C77_moves",
    "C77_break_refuted",
    "C77_try_refuted",
    "C77_inout_refuted"
   ],
   "note": "Total for the analysis (it ends) and exact behaviour for the moves, for functions without break, continue and try in which a variable given for an inout parameter occurs once in its expression. C77_moves_last_uses characterizes the moves exactly. Each condition is shown necessary: C77_break_refuted, C77_try_refuted (a moved-from variable is read again), C77_inout_refuted (f(x, inout x) moves x: the inout argument is not counted)."
  },
  {
   "property": "C78",
   "status": "proved",
   "theorems": [
    "C78_condition",
    "C78_selects",
    "C78_accepts_iff",
    "C78_unique",
    "C78_robust",
    "C78_two_else_refuted",
    "C78_unclosed_refuted",
    "C78_value_refuted",
    "C78_bang_refuted"
   ],
   "note": "Exact in both directions. How the scanner finds directives in the text is not modelled. Deviations: C78_two_else_refuted (a second @else is accepted and includes text again), C78_unclosed_refuted (a missing @endif goes unnoticed: expectingDirective() is never asked; the rest of the file is dropped silently), C78_value_refuted (2^31 read as -2^31, a lone sign as 0; larger numbers throw out of the compiler), C78_bang_refuted ('!X' without blank is an identifier, so the condition is false whatever X is)."
  },
  {
   "property": "C79",
   "status": "proved",
   "theorems": [
    "C79_transparent",
    "C79_closest",
    "C79_confirmed",
    "C79_terminates",
    "C79_subunits_forward",
    "C79_literals_forward",
    "C79_search",
    "C79_search_regexp",
    "C79_documented",
    "C79_literals_tidy",
    "C79_trimmed_refuted",
    "C79_stale_refuted",
    "C79_retry_refuted",
    "C79_resync_refuted",
    "C79_synced_reject_refuted",
    "C79_regexp_gap_refuted",
    "C79_gap_tokens_refuted",
    "C79_endless_refuted"
   ],
   "note": "What a field does is a parameter (any function on the parser state); literals and sub-units are modelled. All input is there from the beginning. Recovery inside of lists is not modelled here. C79_documented needs: fields that leave no look-ahead pending when they fail, one synchronization point or a %synced hook that confirms, no reject in %synced; each of these is needed: C79_stale_refuted, C79_retry_refuted, C79_resync_refuted, C79_synced_reject_refuted. Further deviations: C79_trimmed_refuted (InvalidIterator instead of recovery after a sub-unit that consumed input fails), C79_regexp_gap_refuted, C79_gap_tokens_refuted, C79_endless_refuted (never ends)."
  },
  {
   "property": "C80",
   "status": "proved",
   "theorems": [
    "C80_documented",
    "C80_unique",
    "C80_transparent",
    "C80_data_kept",
    "C80_most_recent",
    "C80_stale_look_ahead_refuted",
    "C80_field_error_refuted",
    "C80_synchronize_refuted"
   ],
   "note": "C80_documented and C80_unique need atomic parsers that leave no look-ahead pending, no error recovery inside, and fields with &try whose own %error hook does not backtrack; C80_data_kept and C80_most_recent do not need the first. Each restriction is needed: C80_stale_look_ahead_refuted (the look-ahead is not reset), C80_synchronize_refuted (recovery catches Backtrack, a ParseError), C80_field_error_refuted (a field's %error hook runs outside of its &try). &size and containers are not modelled."
  },
  {
   "property": "C81",
   "status": "proved",
   "theorems": [
    "C81_counted",
    "C81_counted_regexp",
    "C81_list",
    "C81_list_regexp",
    "C81_literals_clean",
    "C81_count",
    "C81_plain",
    "C81_transparent",
    "C81_list_transparent",
    "C81_unconfirmed",
    "C81_terminates",
    "C81_expected_number_refuted",
    "C81_last_refuted",
    "C81_stale_refuted",
    "C81_trim_refuted",
    "C81_property_refuted",
    "C81_stale_property_refuted",
    "C81_list_end_refuted",
    "C81_eod_refuted"
   ],
   "note": "For elements that begin with literals, the theorems need elements that leave no look-ahead pending when they fail (literals do); for regular expressions, any elements (and no gaps). The manual's own example, elements that are units beginning with a literal, does not meet this and misbehaves: C81_stale_refuted, C81_stale_property_refuted. Further refuted: the number of entries the manual promises (C81_expected_number_refuted), last element (C81_last_refuted), independence of trimming (C81_trim_refuted), unit properties in counted lists (C81_property_refuted), valid input of look-ahead lists without known follower (C81_list_end_refuted), &eod/&size/&until lists (C81_eod_refuted)."
  },
  {
   "property": "C82",
   "status": "proved",
   "theorems": [
    "C82_lifetime",
    "C82_access",
    "C82_null_expired",
    "C82_weak",
    "C82_expired_forever",
    "C82_never_undefined",
    "C82_undefined_only_dangling",
    "C82_bindings",
    "C82_values",
    "C82_exception_safe",
    "C82_throws",
    "C82_equality",
    "C82_kinds",
    "C82_self_assign",
    "C82_aliases",
    "C82_copy_independent",
    "C82_original_independent",
    "C82_share",
    "C82_share_null",
    "C82_move",
    "C82_value_move",
    "C82_new_instance",
    "C82_assign_seen_by_all",
    "C82_assign_null",
    "C82_move_assign",
    "C82_reset",
    "C82_as_shared",
    "C82_generic",
    "C82_null_shared_refuted",
    "C82_reset_refuted",
    "C82_generic_null_refuted",
    "C82_move_assign_refuted",
    "C82_assign_shared_refuted"
   ],
   "note": "One value type without references inside; std::shared_ptr and std::weak_ptr are modelled by their contract (counted owners). Not true of the code: asSharedPtr() of a value reference that became null by assignment throws instead of returning null (C82_null_shared_refuted), reset() does not give a default value (C82_reset_refuted), derefAsValue() of an unbound generic reference is not null (C82_generic_null_refuted), move assignment to a null reference leaves the source as it is (C82_move_assign_refuted), assigning a shared pointer to a wrapped 'this' of the same instance does not make it a manager (C82_assign_shared_refuted)."
  },
  {
   "property": "C83",
   "status": "proved",
   "theorems": [
    "C83_longest",
    "C83_chunking",
    "C83_caret_refuted",
    "C83_empty_final_refuted",
    "C83_match",
    "C83_match_advance",
    "C83_match_empty",
    "C83_match_empty_refuted",
    "C83_find",
    "C83_find_caret_refuted",
    "C83_match_groups",
    "C83_captures",
    "C83_captures_refuted",
    "C83_reuse",
    "C83_no_reuse_error",
    "C83_errors",
    "C83_independent",
    "C83_copy",
    "C83_copy_finished_refuted",
    "C83_copy_null_refuted",
    "C83_literal",
    "C83_literal_late_end",
    "C83_literal_late_end_refuted",
    "C83_dollar_refuted"
   ],
   "note": "JustRX is not in the repository; what is called of it is a longest-match loop over an arbitrary deterministic automaton whose symbols carry the begin/end assertions; jrx_current_accept and jrx_reggroups are parameters. Holds with the data of the first piece in one block or ^ only at the beginning (else C83_caret_refuted), and with the end of the data known no later than its last byte (else C83_empty_final_refuted, C83_literal_late_end_refuted, C83_dollar_refuted, whatever jrx_current_accept returns). Other refuted claims: find() takes ^ to hold at every byte, the empty value never matches, capture groups are not at their index after one that took no part, a copy of a finished state is not finished, copying a null state dereferences a null pointer; a final piece that yields -1 does not finish the state (C83_no_reuse_error)."
  },
  {
   "property": "C84",
   "status": "proved",
   "theorems": [
    "C84_pass_preserves_behaviour",
    "C84_removal_preserves_behaviour",
    "C84_inout_to_in_preserves_behaviour",
    "C84_result_well_formed",
    "C84_removed_exactly",
    "C84_call_argument_kept",
    "C84_kinds_exactly",
    "C84_interface_kept",
    "C84_declaration_matches_calls",
    "C84_copy_of_inout_argument_refuted",
    "C84_copy_of_global_refuted",
    "C84_call_inside_argument_refuted",
    "C84_method_call_argument_refuted",
    "C84_throwing_argument_refuted",
    "C84_nested_call_left_behind_refuted"
   ],
   "note": "The language is a cut of HILTI (integers, globals, locals, parameters, nested calls and method calls without the object, division that throws, loops); arguments are evaluated left to right. The unconditional claim is refuted: a copy parameter that becomes `in` sees writes to the variable through an inout parameter or a global; calls inside arguments, method calls and throwing arguments are dropped; a call nested in an argument of another pruned call keeps its arguments if its function is declared later."
  },
  {
   "property": "C85",
   "status": "proved",
   "theorems": [
    "C85_success",
    "C85_failure",
    "C85_finally_once",
    "C85_error_told",
    "C85_done_or_error",
    "C85_nested_units",
    "C85_field_hooks",
    "C85_hook_sees_value",
    "C85_hook_order",
    "C85_field_error",
    "C85_condition_false",
    "C85_condition_true",
    "C85_switch",
    "C85_switch_equality",
    "C85_subunit_first",
    "C85_container",
    "C85_count",
    "C85_eod",
    "C85_until",
    "C85_until_including",
    "C85_while",
    "C85_integers",
    "C85_element_requires",
    "C85_iterations",
    "C85_ends",
    "C85_hook_acts",
    "C85_field_error_acts",
    "C85_unit_hooks_act",
    "C85_unit_error_acts",
    "C85_size",
    "C85_size_exact",
    "C85_literal",
    "C85_uint",
    "C85_bytes",
    "C85_rest",
    "C85_if",
    "C85_subunit_alone",
    "C85_no_progress",
    "C85_REFUTED_loops_end",
    "C85_REFUTED_done_or_error",
    "C85_REFUTED_finally"
   ],
   "note": "User code is arbitrary: Coq functions on the unit's state and globals that may throw. The whole input is there and hooks do not move the input position; atomic types are unsigned integers, bytes and literals; one body per hook. Refuted: loops always end (at end of input a vector with &until/&while whose elements can be empty goes on forever), exactly one of %done and %error runs (both when &size is not used up or %done throws), %finally always runs (not if %error throws)."
  },
  {
   "property": "C86",
   "status": "proved",
   "theorems": [
    "C86_no_capture_preserves",
    "C86_resolution_kept",
    "C86_function_level",
    "C86_distinct_names",
    "C86_REFUTED_capture_after",
    "C86_REFUTED_renamed_captures",
    "C86_new_names",
    "C86_name_kept",
    "C86_ends",
    "C86_complete",
    "C86_flattens"
   ],
   "note": "Two semantics: by names, as in the generated C++, and by declarations (used in the proofs only); they agree on programs whose names are resolved. Values are natural numbers: references, and so what the assignments of defaults at the end of a block are for, are not modelled, but the assignments are. Refuted: the pass never changes what a program does (in the body of if or while, whose scope does not have the function's locals, a folded local captures later uses of one with the same name; and a renamed local captures a variable that has the new name)."
  },
  {
   "property": "C87",
   "status": "proved",
   "theorems": [
    "C87_preserved",
    "C87_removed",
    "C87_function",
    "C87_handed_back",
    "C87_arity",
    "C87_REFUTED_members",
    "C87_REFUTED_twice",
    "C87_REFUTED_globals",
    "C87_REFUTED_shadowed",
    "C87_REFUTED_by_reference"
   ],
   "note": "Parameters are passed by value; bodies without loops. Tail calls, groupings and coercions are not modelled. Refuted, each by leaving out one condition: members on the left side (`(x, self.f) = f(x)` loses the member's assignment), variables assigned twice, globals that the function changes, shadowed parameters, parameters passed to methods by reference."
  },
  {
   "property": "C88",
   "status": "proved",
   "theorems": [
    "C88_preserved",
    "C88_stays_bracketed",
    "C88_exact",
    "C88_expressions",
    "C88_terminates",
    "C88_REFUTED_error_member"
   ],
   "note": "Values are natural numbers; position updates of hooks and the control flow graph behind mayHaveSideEffects are not modelled. Hooks are arbitrary functions on self. Refuted without the order that the parser builder keeps: a hook outside of a pair sees the member __error change."
  }
 ]
}