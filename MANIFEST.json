{
 "claims": [
  {
   "property": "C01",
   "status": "proved",
   "theorems": [
    "C01_request_streaming_equals_batch",
    "C01_request_segmentation_independent"
   ],
   "note": ""
  },
  {
   "property": "C02",
   "status": "proved",
   "theorems": [
    "C02_response_streaming_equals_batch"
   ],
   "note": ""
  },
  {
   "property": "C03",
   "status": "proved",
   "theorems": [
    "C03_exact_consumption",
    "C03_exact_consumption_driven"
   ],
   "note": ""
  },
  {
   "property": "C04",
   "status": "proved",
   "theorems": [
    "C04_request_sound",
    "C04_request_sound_driven",
    "C04_request_complete",
    "C04_grammar_exact",
    "C04_response_complete",
    "C04_response_complete_eof",
    "C04_response_sound"
   ],
   "note": ""
  },
  {
   "property": "C05",
   "status": "proved",
   "theorems": [
    "C05_request_call_terminates",
    "C05_response_call_terminates"
   ],
   "note": ""
  },
  {
   "property": "C06",
   "status": "proved",
   "theorems": [
    "C06_held_line",
    "C06_held_line_response",
    "C06_accepted_lines",
    "C06_every_line",
    "C06_accepted_lines_response"
   ],
   "note": ""
  },
  {
   "property": "C07",
   "status": "proved",
   "theorems": [
    "C07_never_for_size",
    "C07_never_for_size_response",
    "C07_small_requests_accepted",
    "C07_prefixes_wait"
   ],
   "note": ""
  },
  {
   "property": "C08",
   "status": "proved",
   "theorems": [
    "C08_one_call",
    "C08_any_delivery_refuted",
    "C08_release_unlimited_refuted"
   ],
   "note": "The code lacks part of what one would expect; the statement says which. C08_any_delivery_refuted, C08_release_unlimited_refuted prove(s) that negative part about the model, the other theorems the positive part."
  },
  {
   "property": "C09",
   "status": "proved",
   "theorems": [
    "C09_panic_exactly",
    "C09_panic_exactly_response",
    "C09_fresh_call",
    "C09_in_limits",
    "C09_never_panics_refuted"
   ],
   "note": "The code lacks part of what one would expect; the statement says which. C09_never_panics_refuted prove(s) that negative part about the model, the other theorems the positive part."
  },
  {
   "property": "C10",
   "status": "proved",
   "theorems": [
    "C10_request_body",
    "C10_response_body",
    "C10_one_call",
    "C10_chunked_unlimited_refuted"
   ],
   "note": "The code lacks part of what one would expect; the statement says which. C10_chunked_unlimited_refuted prove(s) that negative part about the model, the other theorems the positive part."
  },
  {
   "property": "C100",
   "status": "proved",
   "theorems": [
    "C100_requests",
    "C100_responses",
    "C100_https"
   ],
   "note": ""
  },
  {
   "property": "C101",
   "status": "proved",
   "theorems": [
    "C101_arrives"
   ],
   "note": ""
  },
  {
   "property": "C102",
   "status": "proved",
   "theorems": [
    "C102_connection",
    "C102_server",
    "C102_server_answers",
    "C102_lines"
   ],
   "note": ""
  },
  {
   "property": "C103",
   "status": "proved",
   "theorems": [
    "C103_request_passed_on",
    "C103_response_passed_on",
    "C103_echo_is_safe",
    "C103_chunked_request_refuted",
    "C103_chunked_response_refuted",
    "C103_response_without_length_refuted",
    "C103_hidden_request_refuted"
   ],
   "note": "The code lacks part of what one would expect; the statement says which. C103_chunked_request_refuted, C103_chunked_response_refuted, C103_response_without_length_refuted, C103_hidden_request_refuted prove(s) that negative part about the model, the other theorems the positive part."
  },
  {
   "property": "C104",
   "status": "proved",
   "theorems": [
    "C104_release",
    "C104_requests",
    "C104_debug_refuted"
   ],
   "note": "The code lacks part of what one would expect; the statement says which. C104_debug_refuted prove(s) that negative part about the model, the other theorems the positive part."
  },
  {
   "property": "C105",
   "status": "proved",
   "theorems": [
    "C105_read_by_name",
    "C105_response_read_by_name",
    "C105_found_as_given",
    "C105_found_by_name_refuted",
    "C105_order_refuted"
   ],
   "note": "The code lacks part of what one would expect; the statement says which. C105_found_by_name_refuted, C105_order_refuted prove(s) that negative part about the model, the other theorems the positive part."
  },
  {
   "property": "C106",
   "status": "proved",
   "theorems": [
    "C106_request",
    "C106_response",
    "C106_connection",
    "C106_server",
    "C106_routed",
    "C106_ascii"
   ],
   "note": ""
  },
  {
   "property": "C107",
   "status": "proved",
   "theorems": [
    "C107_lookup",
    "C107_request",
    "C107_response",
    "C107_text",
    "C107_display",
    "C107_methods"
   ],
   "note": ""
  },
  {
   "property": "C108",
   "status": "proved",
   "theorems": [
    "C108_exactly",
    "C108_no_space_refuted",
    "C108_extras_refuted",
    "C108_spelling_refuted",
    "C108_server_refuses_refuted",
    "C108_server_spelling_refuted",
    "C108_response_exactly",
    "C108_response_no_space_refuted",
    "C108_response_extras_refuted",
    "C108_response_spelling_refuted"
   ],
   "note": "The code lacks part of what one would expect; the statement says which. C108_no_space_refuted, C108_extras_refuted, C108_spelling_refuted, C108_server_refuses_refuted, C108_server_spelling_refuted, C108_response_no_space_refuted, C108_response_extras_refuted, C108_response_spelling_refuted prove(s) that negative part about the model, the other theorems the positive part."
  },
  {
   "property": "C109",
   "status": "proved",
   "theorems": [
    "C109_exactly",
    "C109_at_end_refuted",
    "C109_next_taken_refuted",
    "C109_client_refuted"
   ],
   "note": "The code lacks part of what one would expect; the statement says which. C109_at_end_refuted, C109_next_taken_refuted, C109_client_refuted prove(s) that negative part about the model, the other theorems the positive part."
  },
  {
   "property": "C11",
   "status": "proved",
   "theorems": [
    "C11_too_large_in_one_call",
    "C11_too_large_response",
    "C11_maximum_never_received",
    "C11_maximum_never_received_response"
   ],
   "note": ""
  },
  {
   "property": "C110",
   "status": "proved",
   "theorems": [
    "C110_served",
    "C110_quiet",
    "C110_release",
    "C110_debug_refuted"
   ],
   "note": "The code lacks part of what one would expect; the statement says which. C110_debug_refuted prove(s) that negative part about the model, the other theorems the positive part."
  },
  {
   "property": "C111",
   "status": "proved",
   "theorems": [
    "C111_reference",
    "C111_release",
    "C111_requests",
    "C111_returns",
    "C111_debug_refuted"
   ],
   "note": "The code lacks part of what one would expect; the statement says which. C111_debug_refuted prove(s) that negative part about the model, the other theorems the positive part."
  },
  {
   "property": "C112",
   "status": "proved",
   "theorems": [
    "C112_determined",
    "C112_grows",
    "C112_reference",
    "C112_right",
    "C112_once",
    "C112_own",
    "C112_sooner"
   ],
   "note": ""
  },
  {
   "property": "C113",
   "status": "proved",
   "theorems": [
    "C113_always",
    "C113_silent",
    "C113_https",
    "C113_https_close_is_last"
   ],
   "note": ""
  },
  {
   "property": "C114",
   "status": "proved",
   "theorems": [
    "C114_connection",
    "C114_always",
    "C114_last",
    "C114_rest",
    "C114_https",
    "C114_https_quiet"
   ],
   "note": ""
  },
  {
   "property": "C115",
   "status": "proved",
   "theorems": [
    "C115_cost",
    "C115_left",
    "C115_once",
    "C115_no_more_later_refuted"
   ],
   "note": "The code lacks part of what one would expect; the statement says which. C115_no_more_later_refuted prove(s) that negative part about the model, the other theorems the positive part."
  },
  {
   "property": "C116",
   "status": "proved",
   "theorems": [
    "C116_workers_refuted",
    "C116_at_most_twice",
    "C116_panics_once_refuted"
   ],
   "note": "The code lacks part of what one would expect; the statement says which. C116_workers_refuted, C116_panics_once_refuted prove(s) that negative part about the model, the other theorems the positive part."
  },
  {
   "property": "C12",
   "status": "proved",
   "theorems": [
    "C12_ascii_nothing_lost",
    "C12_nothing_lost_refuted",
    "C12_split_character_refuted",
    "C12_same_bytes_same_request_refuted"
   ],
   "note": "The code lacks part of what one would expect; the statement says which. C12_nothing_lost_refuted, C12_split_character_refuted, C12_same_bytes_same_request_refuted prove(s) that negative part about the model, the other theorems the positive part."
  },
  {
   "property": "C13",
   "status": "proved",
   "theorems": [
    "C13_round_trip",
    "C13_round_trip_ascii",
    "C13_any_header_order"
   ],
   "note": ""
  },
  {
   "property": "C14",
   "status": "proved",
   "theorems": [
    "C14_round_trip",
    "C14_round_trip_eof",
    "C14_round_trip_ascii",
    "C14_any_header_order"
   ],
   "note": ""
  },
  {
   "property": "C15",
   "status": "proved",
   "theorems": [
    "C15_order_irrelevant_read",
    "C15_repeated_in_order_read",
    "C15_order_of_different_names_is_irrelevant",
    "C15_repeated_headers_in_order"
   ],
   "note": ""
  },
  {
   "property": "C16",
   "status": "proved",
   "theorems": [
    "C16_exactly_the_good_read",
    "C16_request_injection_read_refuted",
    "C16_exactly_the_good",
    "C16_request_injection_refuted",
    "C16_header_injection_refuted"
   ],
   "note": "The code lacks part of what one would expect; the statement says which. C16_request_injection_read_refuted, C16_request_injection_refuted, C16_header_injection_refuted prove(s) that negative part about the model, the other theorems the positive part."
  },
  {
   "property": "C17",
   "status": "proved",
   "theorems": [
    "C17_equal_iff_same_ignoring_case",
    "C17_idempotent",
    "C17_standard_names"
   ],
   "note": ""
  },
  {
   "property": "C18",
   "status": "proved",
   "theorems": [
    "C18_values_in_order",
    "C18_first_and_containment",
    "C18_add_one"
   ],
   "note": ""
  },
  {
   "property": "C19",
   "status": "proved",
   "theorems": [
    "C19_methods",
    "C19_method_round_trip",
    "C19_versions",
    "C19_status_codes",
    "C19_status_table_exact",
    "C19_registered_reasons",
    "C19_all_registered",
    "C19_constants"
   ],
   "note": ""
  },
  {
   "property": "C20",
   "status": "proved",
   "theorems": [
    "C20_content_length_first_read",
    "C20_otherwise_read",
    "C20_response_default_read",
    "C20_response_framed_read",
    "C20_content_length_first",
    "C20_otherwise",
    "C20_response_default"
   ],
   "note": ""
  },
  {
   "property": "C21",
   "status": "proved",
   "theorems": [
    "C21_chunked_requests",
    "C21_chunked_responses",
    "C21_decoder_inverts_encoder"
   ],
   "note": ""
  },
  {
   "property": "C22",
   "status": "proved",
   "theorems": [
    "C22_request_line_errors",
    "C22_status_line_errors"
   ],
   "note": ""
  },
  {
   "property": "C23",
   "status": "proved",
   "theorems": [
    "C23_numbers_exact",
    "C23_decimal_round_trip",
    "C23_chunk_size"
   ],
   "note": ""
  },
  {
   "property": "C24",
   "status": "proved",
   "theorems": [
    "C24_pipelined",
    "C24_session_exists",
    "C24_session_unique",
    "C24_written_requests"
   ],
   "note": ""
  },
  {
   "property": "C25",
   "status": "proved",
   "theorems": [
    "C25_end_of_stream",
    "C25_truncation_reported_refuted"
   ],
   "note": "The code lacks part of what one would expect; the statement says which. C25_truncation_reported_refuted prove(s) that negative part about the model, the other theorems the positive part."
  },
  {
   "property": "C26",
   "status": "proved",
   "theorems": [
    "C26_responses",
    "C26_reference_unique",
    "C26_one_response_each",
    "C26_any_input"
   ],
   "note": ""
  },
  {
   "property": "C27",
   "status": "proved",
   "theorems": [
    "C27_close_is_last",
    "C27_gone_for_good",
    "C27_dropped_iff"
   ],
   "note": ""
  },
  {
   "property": "C28",
   "status": "proved",
   "theorems": [
    "C28_malformed",
    "C28_truncated"
   ],
   "note": ""
  },
  {
   "property": "C29",
   "status": "proved",
   "theorems": [
    "C29_delivered",
    "C29_delivered_so_far",
    "C29_delivered_refuted",
    "C29_error_answer_refuted"
   ],
   "note": "The code lacks part of what one would expect; the statement says which. C29_delivered_refuted, C29_error_answer_refuted prove(s) that negative part about the model, the other theorems the positive part."
  },
  {
   "property": "C30",
   "status": "proved",
   "theorems": [
    "C30_conserved",
    "C30_prefix"
   ],
   "note": ""
  },
  {
   "property": "C31",
   "status": "proved",
   "theorems": [
    "C31_in_order_refuted",
    "C31_only_reordered"
   ],
   "note": "The code lacks part of what one would expect; the statement says which. C31_in_order_refuted prove(s) that negative part about the model, the other theorems the positive part."
  },
  {
   "property": "C32",
   "status": "proved",
   "theorems": [
    "C32_never_would_block",
    "C32_flush_drains",
    "C32_flushes_deliver"
   ],
   "note": ""
  },
  {
   "property": "C33",
   "status": "proved",
   "theorems": [
    "C33_failed_flush_forgets",
    "C33_sent_once_refuted",
    "C33_write_all_refuted"
   ],
   "note": "The code lacks part of what one would expect; the statement says which. C33_sent_once_refuted, C33_write_all_refuted prove(s) that negative part about the model, the other theorems the positive part."
  },
  {
   "property": "C34",
   "status": "proved",
   "theorems": [
    "C34_get",
    "C34_insert",
    "C34_remove"
   ],
   "note": ""
  },
  {
   "property": "C35",
   "status": "proved",
   "theorems": [
    "C35_slots",
    "C35_keys",
    "C35_no_slot_lost"
   ],
   "note": ""
  },
  {
   "property": "C36",
   "status": "proved",
   "theorems": [
    "C36_slab",
    "C36_own_event",
    "C36_every_event",
    "C36_tokens",
    "C36_wrong_connection_handled_refuted",
    "C36_wrong_connection_closed_refuted"
   ],
   "note": "The code lacks part of what one would expect; the statement says which. C36_wrong_connection_handled_refuted, C36_wrong_connection_closed_refuted prove(s) that negative part about the model, the other theorems the positive part."
  },
  {
   "property": "C37",
   "status": "proved",
   "theorems": [
    "C37_write_closed_frees",
    "C37_kept_forever",
    "C37_server_close_keeps",
    "C37_closed_frees_slot_refuted"
   ],
   "note": "The code lacks part of what one would expect; the statement says which. C37_closed_frees_slot_refuted prove(s) that negative part about the model, the other theorems the positive part."
  },
  {
   "property": "C38",
   "status": "proved",
   "theorems": [
    "C38_first_answer",
    "C38_reference_unique",
    "C38_calls",
    "C38_concerned_exists",
    "C38_append"
   ],
   "note": ""
  },
  {
   "property": "C39",
   "status": "proved",
   "theorems": [
    "C39_read_uri_is_text",
    "C39_mount",
    "C39_mount_elsewhere",
    "C39_nested",
    "C39_no_panic",
    "C39_no_panic_server",
    "C39_parsed_uri_is_text"
   ],
   "note": ""
  },
  {
   "property": "C40",
   "status": "proved",
   "theorems": [
    "C40_exact",
    "C40_called_iff"
   ],
   "note": ""
  },
  {
   "property": "C41",
   "status": "proved",
   "theorems": [
    "C41_at_most_twice",
    "C41_success_is_final",
    "C41_failure_is_retried_once",
    "C41_no_connection"
   ],
   "note": ""
  },
  {
   "property": "C42",
   "status": "proved",
   "theorems": [
    "C42_in_order",
    "C42_in_order_first",
    "C42_own_response_refuted",
    "C42_own_response_refuted_unreachable"
   ],
   "note": "The code lacks part of what one would expect; the statement says which. C42_own_response_refuted, C42_own_response_refuted_unreachable prove(s) that negative part about the model, the other theorems the positive part."
  },
  {
   "property": "C43",
   "status": "proved",
   "theorems": [
    "C43_compose",
    "C43_possible"
   ],
   "note": ""
  },
  {
   "property": "C44",
   "status": "proved",
   "theorems": [
    "C44_one_user",
    "C44_sequential",
    "C44_waits_only_for_busy",
    "C44_gets_one",
    "C44_waits_only_while_all_busy_refuted"
   ],
   "note": "The code lacks part of what one would expect; the statement says which. C44_waits_only_while_all_busy_refuted prove(s) that negative part about the model, the other theorems the positive part."
  },
  {
   "property": "C45",
   "status": "proved",
   "theorems": [
    "C45_not_found_read_refuted",
    "C45_unframed_read_refuted",
    "C45_not_found_read_at_end"
   ],
   "note": "The code lacks part of what one would expect; the statement says which. C45_not_found_read_refuted, C45_unframed_read_refuted prove(s) that negative part about the model, the other theorems the positive part."
  },
  {
   "property": "C46",
   "status": "proved",
   "theorems": [
    "C46_order",
    "C46_each_once",
    "C46_dropped",
    "C46_ended",
    "C46_is_a_queue",
    "C46_keeps_up"
   ],
   "note": ""
  },
  {
   "property": "C47",
   "status": "proved",
   "theorems": [
    "C47_at_most_size",
    "C47_drop_ends",
    "C47_lock"
   ],
   "note": ""
  },
  {
   "property": "C48",
   "status": "proved",
   "theorems": [
    "C48_workers_left",
    "C48_still_works",
    "C48_disabled",
    "C48_pool_survives_panics_refuted"
   ],
   "note": "The code lacks part of what one would expect; the statement says which. C48_pool_survives_panics_refuted prove(s) that negative part about the model, the other theorems the positive part."
  },
  {
   "property": "C49",
   "status": "proved",
   "theorems": [
    "C49_one_at_a_time",
    "C49_only_the_handler_reads"
   ],
   "note": ""
  },
  {
   "property": "C50",
   "status": "proved",
   "theorems": [
    "C50_no_lost_wakeup",
    "C50_settled_means_read",
    "C50_settles",
    "C50_handler_reads_to_block"
   ],
   "note": ""
  },
  {
   "property": "C51",
   "status": "proved",
   "theorems": [
    "C51_inside_refuted",
    "C51_without_dotdot",
    "C51_over_the_wire_refuted"
   ],
   "note": "The code lacks part of what one would expect; the statement says which. C51_inside_refuted, C51_over_the_wire_refuted prove(s) that negative part about the model, the other theorems the positive part."
  },
  {
   "property": "C52",
   "status": "proved",
   "theorems": [
    "C52_described",
    "C52_settled",
    "C52_one_at_a_time",
    "C52_stable_refuted"
   ],
   "note": "The code lacks part of what one would expect; the statement says which. C52_stable_refuted prove(s) that negative part about the model, the other theorems the positive part."
  },
  {
   "property": "C53",
   "status": "proved",
   "theorems": [
    "C53_lengths_stated",
    "C53_conversions_round_trip"
   ],
   "note": ""
  },
  {
   "property": "C54",
   "status": "proved",
   "theorems": [
    "C54_limited_read",
    "C54_limited_fill"
   ],
   "note": ""
  },
  {
   "property": "C55",
   "status": "proved",
   "theorems": [
    "C55_interrupt_in_body",
    "C55_interrupt_in_response_body",
    "C55_interrupt_only_in_body",
    "C55_interrupts_are_retried_refuted",
    "C55_only_in_body",
    "C55_only_in_body_response",
    "C55_otherwise_harmless",
    "C55_otherwise_harmless_response"
   ],
   "note": "The code lacks part of what one would expect; the statement says which. C55_interrupts_are_retried_refuted prove(s) that negative part about the model, the other theorems the positive part."
  },
  {
   "property": "C56",
   "status": "proved",
   "theorems": [
    "C56_accepted_is_unicode_resumed",
    "C56_accepted_response_is_unicode",
    "C56_text_is_unicode",
    "C56_accepted_is_unicode",
    "C56_other_lines_refused"
   ],
   "note": ""
  },
  {
   "property": "C57",
   "status": "proved",
   "theorems": [
    "C57_empty_when_drained",
    "C57_bounded_by_unsent_refuted"
   ],
   "note": "The code lacks part of what one would expect; the statement says which. C57_bounded_by_unsent_refuted prove(s) that negative part about the model, the other theorems the positive part."
  },
  {
   "property": "C58",
   "status": "proved",
   "theorems": [
    "C58_accept_all",
    "C58_never_returns",
    "C58_starved"
   ],
   "note": ""
  },
  {
   "property": "C59",
   "status": "proved",
   "theorems": [
    "C59_dispatch_all",
    "C59_returns_only_on_error"
   ],
   "note": ""
  },
  {
   "property": "C60",
   "status": "proved",
   "theorems": [
    "C60_handler_writes_to_block",
    "C60_held_output_first"
   ],
   "note": ""
  },
  {
   "property": "C61",
   "status": "proved",
   "theorems": [
    "C61_one_connection_delays_only_itself_refuted"
   ],
   "note": "The code lacks the property; the statement says so and C61_one_connection_delays_only_itself_refuted prove(s) it about the model."
  },
  {
   "property": "C62",
   "status": "proved",
   "theorems": [
    "C62_no_panic_no_loss",
    "C62_one_panic_one_connection_refuted"
   ],
   "note": "The code lacks part of what one would expect; the statement says which. C62_one_panic_one_connection_refuted prove(s) that negative part about the model, the other theorems the positive part."
  },
  {
   "property": "C63",
   "status": "proved",
   "theorems": [
    "C63_zero_timeout_panics"
   ],
   "note": ""
  },
  {
   "property": "C64",
   "status": "proved",
   "theorems": [
    "C64_failed_send_is_forgotten_refuted"
   ],
   "note": "The code lacks the property; the statement says so and C64_failed_send_is_forgotten_refuted prove(s) it about the model."
  },
  {
   "property": "C65",
   "status": "proved",
   "theorems": [
    "C65_lost_for_good",
    "C65_all_lost",
    "C65_zero_timeout_loses_all"
   ],
   "note": ""
  },
  {
   "property": "C66",
   "status": "proved",
   "theorems": [
    "C66_change_noticed_refuted",
    "C66_reachable"
   ],
   "note": "The code lacks part of what one would expect; the statement says which. C66_change_noticed_refuted prove(s) that negative part about the model, the other theorems the positive part."
  },
  {
   "property": "C67",
   "status": "proved",
   "theorems": [
    "C67_one_entry_each",
    "C67_bounded_refuted"
   ],
   "note": "The code lacks part of what one would expect; the statement says which. C67_bounded_refuted prove(s) that negative part about the model, the other theorems the positive part."
  },
  {
   "property": "C68",
   "status": "proved",
   "theorems": [
    "C68_main",
    "C68_secret"
   ],
   "note": ""
  },
  {
   "property": "C69",
   "status": "proved",
   "theorems": [
    "C69_with_event_loop",
    "C69_isolation"
   ],
   "note": ""
  },
  {
   "property": "C70",
   "status": "proved",
   "theorems": [
    "C70_event_loop_keeps",
    "C70_only_own_event_removes",
    "C70_event_loop_answers",
    "C70_event_loop_rests",
    "C70_hangup_elsewhere_refuted",
    "C70_never_dropped",
    "C70_all_answered",
    "C70_comes_to_rest"
   ],
   "note": "The code lacks part of what one would expect; the statement says which. C70_hangup_elsewhere_refuted prove(s) that negative part about the model, the other theorems the positive part."
  },
  {
   "property": "C71",
   "status": "proved",
   "theorems": [
    "C71_server",
    "C71_client",
    "C71_responses",
    "C71_one_response_each",
    "C71_any_input",
    "C71_close_is_last",
    "C71_client_in_order",
    "C71_parse_request",
    "C71_parse_response"
   ],
   "note": ""
  },
  {
   "property": "C72",
   "status": "proved",
   "theorems": [
    "C72_halves",
    "C72_right",
    "C72_own",
    "C72_answered"
   ],
   "note": ""
  },
  {
   "property": "C73",
   "status": "proved",
   "theorems": [
    "C73_at_most_twice",
    "C73_processed_once_refuted"
   ],
   "note": "The code lacks part of what one would expect; the statement says which. C73_processed_once_refuted prove(s) that negative part about the model, the other theorems the positive part."
  },
  {
   "property": "C74",
   "status": "proved",
   "theorems": [
    "C74_every_send_answered",
    "C74_possible"
   ],
   "note": ""
  },
  {
   "property": "C75",
   "status": "proved",
   "theorems": [
    "C75_version_has_no_effect",
    "C75_old_version_closed_refuted",
    "C75_other_spellings_refuted"
   ],
   "note": "The code lacks part of what one would expect; the statement says which. C75_old_version_closed_refuted, C75_other_spellings_refuted prove(s) that negative part about the model, the other theorems the positive part."
  },
  {
   "property": "C76",
   "status": "proved",
   "theorems": [
    "C76_one_chunked_body",
    "C76_body_is_routed_refuted"
   ],
   "note": "The code lacks part of what one would expect; the statement says which. C76_body_is_routed_refuted prove(s) that negative part about the model, the other theorems the positive part."
  },
  {
   "property": "C77",
   "status": "proved",
   "theorems": [
    "C77_parser",
    "C77_parser_response",
    "C77_connection",
    "C77_only_the_unfinished_request"
   ],
   "note": ""
  },
  {
   "property": "C78",
   "status": "proved",
   "theorems": [
    "C78_returned",
    "C78_jobs_finish",
    "C78_ends",
    "C78_aborts",
    "C78_error_returned_refuted"
   ],
   "note": "The code lacks part of what one would expect; the statement says which. C78_error_returned_refuted prove(s) that negative part about the model, the other theorems the positive part."
  },
  {
   "property": "C79",
   "status": "proved",
   "theorems": [
    "C79_hangup_processed_refuted"
   ],
   "note": "The code lacks the property; the statement says so and C79_hangup_processed_refuted prove(s) it about the model."
  },
  {
   "property": "C80",
   "status": "proved",
   "theorems": [
    "C80_idle_closed_refuted"
   ],
   "note": "The code lacks the property; the statement says so and C80_idle_closed_refuted prove(s) it about the model."
  },
  {
   "property": "C81",
   "status": "proved",
   "theorems": [
    "C81_busy_delays_only_itself_refuted"
   ],
   "note": "The code lacks the property; the statement says so and C81_busy_delays_only_itself_refuted prove(s) it about the model."
  },
  {
   "property": "C82",
   "status": "proved",
   "theorems": [
    "C82_interim_refuted"
   ],
   "note": "The code lacks the property; the statement says so and C82_interim_refuted prove(s) it about the model."
  },
  {
   "property": "C83",
   "status": "proved",
   "theorems": [
    "C83_nothing_before_complete",
    "C83_continue_refuted"
   ],
   "note": "The code lacks part of what one would expect; the statement says which. C83_continue_refuted prove(s) that negative part about the model, the other theorems the positive part."
  },
  {
   "property": "C84",
   "status": "proved",
   "theorems": [
    "C84_query_refuted",
    "C84_segments_refuted",
    "C84_file_query_refuted"
   ],
   "note": "The code lacks the property; the statement says so and C84_query_refuted, C84_segments_refuted, C84_file_query_refuted prove(s) it about the model."
  },
  {
   "property": "C85",
   "status": "proved",
   "theorems": [
    "C85_bounded",
    "C85_one_timeout_refuted"
   ],
   "note": "The code lacks part of what one would expect; the statement says which. C85_one_timeout_refuted prove(s) that negative part about the model, the other theorems the positive part."
  },
  {
   "property": "C86",
   "status": "proved",
   "theorems": [
    "C86_everything_held",
    "C86_bounded_refuted"
   ],
   "note": "The code lacks part of what one would expect; the statement says which. C86_bounded_refuted prove(s) that negative part about the model, the other theorems the positive part."
  },
  {
   "property": "C87",
   "status": "proved",
   "theorems": [
    "C87_in_proportion_refuted",
    "C87_any_amount_refuted"
   ],
   "note": "The code lacks the property; the statement says so and C87_in_proportion_refuted, C87_any_amount_refuted prove(s) it about the model."
  },
  {
   "property": "C88",
   "status": "proved",
   "theorems": [
    "C88_called",
    "C88_own",
    "C88_answered",
    "C88_stale_refuted"
   ],
   "note": "The code lacks part of what one would expect; the statement says which. C88_stale_refuted prove(s) that negative part about the model, the other theorems the positive part."
  },
  {
   "property": "C89",
   "status": "proved",
   "theorems": [
    "C89_ended",
    "C89_asked",
    "C89_half_closed"
   ],
   "note": ""
  },
  {
   "property": "C90",
   "status": "proved",
   "theorems": [
    "C90_any_text_refuted",
    "C90_reference",
    "C90_malformed",
    "C90_truncated",
    "C90_failed",
    "C90_same_bytes_same_answers"
   ],
   "note": "The code lacks part of what one would expect; the statement says which. C90_any_text_refuted prove(s) that negative part about the model, the other theorems the positive part."
  },
  {
   "property": "C91",
   "status": "proved",
   "theorems": [
    "C91_program",
    "C91_program_threads",
    "C91_received",
    "C91_answered",
    "C91_large_refuted"
   ],
   "note": "The code lacks part of what one would expect; the statement says which. C91_large_refuted prove(s) that negative part about the model, the other theorems the positive part."
  },
  {
   "property": "C92",
   "status": "proved",
   "theorems": [
    "C92_server",
    "C92_all_used",
    "C92_responses",
    "C92_any_input",
    "C92_close_is_last",
    "C92_writes_of_nothing_refuted"
   ],
   "note": "The code lacks part of what one would expect; the statement says which. C92_writes_of_nothing_refuted prove(s) that negative part about the model, the other theorems the positive part."
  },
  {
   "property": "C93",
   "status": "proved",
   "theorems": [
    "C93_responses",
    "C93_any_input",
    "C93_close_is_last",
    "C93_waits",
    "C93_handshake_first",
    "C93_flush_sends_all",
    "C93_drop",
    "C93_back_pressure",
    "C93_closed_means_complete_refuted"
   ],
   "note": "The code lacks part of what one would expect; the statement says which. C93_closed_means_complete_refuted prove(s) that negative part about the model, the other theorems the positive part."
  },
  {
   "property": "C94",
   "status": "proved",
   "theorems": [
    "C94_client",
    "C94_at_most_twice",
    "C94_in_order",
    "C94_tls_in_order",
    "C94_tls_until_close_refuted",
    "C94_tls_cut_is_noticed_refuted"
   ],
   "note": "The code lacks part of what one would expect; the statement says which. C94_tls_until_close_refuted, C94_tls_cut_is_noticed_refuted prove(s) that negative part about the model, the other theorems the positive part."
  },
  {
   "property": "C95",
   "status": "proved",
   "theorems": [
    "C95_served",
    "C95_quiet",
    "C95_workers_survive",
    "C95_own_records_only",
    "C95_comes_to_rest",
    "C95_rests_when_done"
   ],
   "note": ""
  },
  {
   "property": "C96",
   "status": "proved",
   "theorems": [
    "C96_server_address",
    "C96_server_binds",
    "C96_client_address",
    "C96_https_name",
    "C96_server_address_for_client_refuted",
    "C96_host_and_port",
    "C96_host_checked",
    "C96_host_always_checked_refuted",
    "C96_brackets",
    "C96_server_address_all",
    "C96_client_address_all",
    "C96_brackets_one_reading"
   ],
   "note": "The code lacks part of what one would expect; the statement says which. C96_server_address_for_client_refuted, C96_host_always_checked_refuted prove(s) that negative part about the model, the other theorems the positive part."
  },
  {
   "property": "C97",
   "status": "proved",
   "theorems": [
    "C97_panics",
    "C97_panics_early",
    "C97_fails",
    "C97_first_error",
    "C97_starts"
   ],
   "note": ""
  },
  {
   "property": "C98",
   "status": "proved",
   "theorems": [
    "C98_returns",
    "C98_same",
    "C98_tls",
    "C98_https_rests_when_done",
    "C98_always_returns_refuted"
   ],
   "note": "The code lacks part of what one would expect; the statement says which. C98_always_returns_refuted prove(s) that negative part about the model, the other theorems the positive part."
  },
  {
   "property": "C99",
   "status": "proved",
   "theorems": [
    "C99_sends_return",
    "C99_same",
    "C99_bytes",
    "C99_reads",
    "C99_tls"
   ],
   "note": ""
  }
 ]
}