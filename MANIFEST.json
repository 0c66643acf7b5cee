{
 "claims": [
  {
   "property": "C01",
   "status": "proved",
   "theorems": [
    "C01_ilint_round_trip"
   ],
   "note": ""
  },
  {
   "property": "C02",
   "status": "proved",
   "theorems": [
    "C02_ilint_size"
   ],
   "note": ""
  },
  {
   "property": "C03",
   "status": "proved",
   "theorems": [
    "C03_ilint_decoder_exact"
   ],
   "note": ""
  },
  {
   "property": "C04",
   "status": "proved",
   "theorems": [
    "C04_ilint_prefix_free"
   ],
   "note": ""
  },
  {
   "property": "C05",
   "status": "proved",
   "theorems": [
    "C05_canonical_ilint_enforced_refuted",
    "C05_accepted_encodings_exact"
   ],
   "note": "The claim as checked is false of the code; the refutation and the exact set of accepted encodings are proved."
  },
  {
   "property": "C06",
   "status": "proved",
   "theorems": [
    "C06_sign_folding_bijection"
   ],
   "note": ""
  },
  {
   "property": "C07",
   "status": "proved",
   "theorems": [
    "C07_signed_ilint_round_trip"
   ],
   "note": ""
  },
  {
   "property": "C08",
   "status": "proved",
   "theorems": [
    "C08_fixed_width_values"
   ],
   "note": ""
  },
  {
   "property": "C09",
   "status": "proved",
   "theorems": [
    "C09_strings",
    "C09_wrappers"
   ],
   "note": ""
  },
  {
   "property": "C10",
   "status": "proved",
   "theorems": [
    "C10_byte_array_reader_stream"
   ],
   "note": ""
  },
  {
   "property": "C11",
   "status": "proved",
   "theorems": [
    "C11_vec_reader_equals_array_reader"
   ],
   "note": ""
  },
  {
   "property": "C12",
   "status": "proved",
   "theorems": [
    "C12_memory_readers_all_or_nothing"
   ],
   "note": ""
  },
  {
   "property": "C13",
   "status": "proved",
   "theorems": [
    "C13_memory_sources",
    "C13_never_past_the_limit",
    "C13_limited_reader_never_over_reads",
    "C13_goto_end",
    "C13_goto_end_any_source"
   ],
   "note": ""
  },
  {
   "property": "C14",
   "status": "proved",
   "theorems": [
    "C14_limited_reader_failed_reads_consume_nothing",
    "C14_failed_reads_keep_available",
    "C14_limited_skip_past_the_limit",
    "C14_failed_attempts_never_change_the_offset_refuted"
   ],
   "note": "False for skip (documented otherwise): refuted, and the exact number of bytes a failed skip takes is proved."
  },
  {
   "property": "C15",
   "status": "proved",
   "theorems": [
    "C15_default_skip"
   ],
   "note": ""
  },
  {
   "property": "C16",
   "status": "proved",
   "theorems": [
    "C16_read_reader_fragmentation",
    "C16_drain_machine",
    "C16_all_or_nothing_source"
   ],
   "note": ""
  },
  {
   "property": "C17",
   "status": "proved",
   "theorems": [
    "C17_seekable_skip",
    "C17_seekable_skip_overflow",
    "C17_failed_skip_keeps_position_refuted",
    "C17_skip_never_goes_back_refuted",
    "C17_failing_seeks"
   ],
   "note": "The two claims checked are false of the code and refuted; exact behaviour in and out of range and on overflow is proved."
  },
  {
   "property": "C18",
   "status": "proved",
   "theorems": [
    "C18_sized_seek",
    "C18_len_keeps_position_refuted",
    "C18_failing_seeks"
   ],
   "note": "Also refuted: a failing seek inside len() can leave the position moved."
  },
  {
   "property": "C19",
   "status": "proved",
   "theorems": [
    "C19_vec_writer_overwrites_then_extends"
   ],
   "note": ""
  },
  {
   "property": "C20",
   "status": "proved",
   "theorems": [
    "C20_borrowed_vec_writer",
    "C20_new",
    "C20_bytes_written_after_set_offset_refuted",
    "C20_bytes_written_exact"
   ],
   "note": "The underflow of bytes_written() after set_offset is the refuted claim."
  },
  {
   "property": "C21",
   "status": "proved",
   "theorems": [
    "C21_byte_array_writer"
   ],
   "note": ""
  },
  {
   "property": "C22",
   "status": "proved",
   "theorems": [
    "C22_write_writer",
    "C22_progress_means_success_refuted",
    "C22_write_writer_exact",
    "C22_write_writer_outcome",
    "C22_seek_writer_retries",
    "C22_seek_writer_fails",
    "C22_user_writer"
   ],
   "note": "The claim that progress of the sink means success is false of WriteWriter and refuted."
  },
  {
   "property": "C23",
   "status": "proved",
   "theorems": [
    "C23_size_is_bytes_written"
   ],
   "note": ""
  },
  {
   "property": "C24",
   "status": "proved",
   "theorems": [
    "C24_layout"
   ],
   "note": ""
  },
  {
   "property": "C25",
   "status": "proved",
   "theorems": [
    "C25_round_trip",
    "C25_round_trip_standard",
    "C25_from_bytes"
   ],
   "note": ""
  },
  {
   "property": "C26",
   "status": "proved",
   "theorems": [
    "C26_accepts_exactly_the_grammar",
    "C26_success_on_any_reader",
    "C26_standard_factory"
   ],
   "note": ""
  },
  {
   "property": "C27",
   "status": "proved",
   "theorems": [
    "C27_prefix_free",
    "C27_from_bytes"
   ],
   "note": ""
  },
  {
   "property": "C28",
   "status": "proved",
   "theorems": [
    "C28_total",
    "C28_standard_factory",
    "C28_depth_bounded_by_input",
    "C28_from_bytes"
   ],
   "note": ""
  },
  {
   "property": "C29",
   "status": "proved",
   "theorems": [
    "C29_stable",
    "C29_standard_factory"
   ],
   "note": ""
  },
  {
   "property": "C30",
   "status": "proved",
   "theorems": [
    "C30_hash_order",
    "C30_sorted_entries",
    "C30_byte_order_is_code_point_order"
   ],
   "note": ""
  },
  {
   "property": "C31",
   "status": "proved",
   "theorems": [
    "C31_last_value_wins",
    "C31_every_dictionary",
    "C31_last_string_wins",
    "C31_every_string_dictionary",
    "C31_accepted_bytes_are_canonical_refuted"
   ],
   "note": ""
  },
  {
   "property": "C32",
   "status": "proved",
   "theorems": [
    "C32_same_bytes_and_size",
    "C32_accepts",
    "C32_strdict_as_dict",
    "C32_final_contents_decide_refuted"
   ],
   "note": ""
  },
  {
   "property": "C33",
   "status": "proved",
   "theorems": [
    "C33_same_bytes_and_size",
    "C33_accept_the_same_payloads"
   ],
   "note": ""
  },
  {
   "property": "C34",
   "status": "proved",
   "theorems": [
    "C34_serialize",
    "C34_deserialize",
    "C34_same_outcome",
    "C34_output_on_failure"
   ],
   "note": ""
  },
  {
   "property": "C35",
   "status": "proved",
   "theorems": [
    "C35_rejected_before_the_payload",
    "C35_limit_is_inclusive",
    "C35_written_tags_can_be_read_refuted"
   ],
   "note": ""
  },
  {
   "property": "C36",
   "status": "proved",
   "theorems": [
    "C36_kept_raw",
    "C36_only_raw",
    "C36_refused"
   ],
   "note": ""
  },
  {
   "property": "C37",
   "status": "proved",
   "theorems": [
    "C37_engine_is_a_map",
    "C37_standard_engine_is_a_map"
   ],
   "note": ""
  },
  {
   "property": "C38",
   "status": "proved",
   "theorems": [
    "C38_standard_engine",
    "C38_engines_meet_hypotheses"
   ],
   "note": ""
  },
  {
   "property": "C39",
   "status": "proved",
   "theorems": [
    "C39_accepts",
    "C39_agrees_with_deserialize",
    "C39_previous_contents",
    "C39_other_id"
   ],
   "note": ""
  },
  {
   "property": "C40",
   "status": "proved",
   "theorems": [
    "C40_id_and_type",
    "C40_unchanged_on_failure",
    "C40_always_unchanged_refuted"
   ],
   "note": ""
  },
  {
   "property": "C41",
   "status": "proved",
   "theorems": [
    "C41_equal_bytes",
    "C41_equivalence",
    "C41_same_data",
    "C41_standard_tags",
    "C41_same_type_refuted"
   ],
   "note": ""
  },
  {
   "property": "C42",
   "status": "proved",
   "theorems": [
    "C42_clone",
    "C42_clone_standard",
    "C42_any_tag",
    "C42_never_panics",
    "C42_iltag_clone",
    "C42_clone_keeps_bytes_refuted"
   ],
   "note": ""
  },
  {
   "property": "C43",
   "status": "proved",
   "theorems": [
    "C43_failed_serialize_leaves_prefix",
    "C43_calls",
    "C43_error_is_the_writers"
   ],
   "note": ""
  },
  {
   "property": "C44",
   "status": "proved",
   "theorems": [
    "C44_writer_independent",
    "C44_byte_array_exact"
   ],
   "note": ""
  },
  {
   "property": "C45",
   "status": "proved",
   "theorems": [
    "C45_reader_independent",
    "C45_same_outcome"
   ],
   "note": ""
  },
  {
   "property": "C46",
   "status": "proved",
   "theorems": [
    "C46_downcasts"
   ],
   "note": ""
  },
  {
   "property": "C47",
   "status": "proved",
   "theorems": [
    "C47_size_and_layout",
    "C47_round_trip",
    "C47_outcome",
    "C47_any_payload",
    "C47_others_unchanged",
    "C47_test_payload",
    "C47_implicit_id",
    "C47_every_id_round_trips_refuted",
    "C47_anywhere",
    "C47_boxes"
   ],
   "note": "The contract is a record over an arbitrary payload type; two instances (the fixed-size payload of the tests and one holding a tag read through the factory) are proved to meet it. The claim for every id is refuted: implicit ids are accepted by new and lose the round trip. C47_anywhere has payload tags at any place in the containers of the library, with the factory that creates them there; C47_boxes has payloads that are themselves trees with payload tags, by induction on how deep they are nested."
  },
  {
   "property": "C48",
   "status": "proved",
   "theorems": [
    "C48_layout",
    "C48_standard_tags",
    "C48_slices",
    "C48_accessors",
    "C48_slices_outside",
    "C48_slices_checked_refuted",
    "C48_default",
    "C48_end",
    "C48_never_none",
    "C48_success",
    "C48_if_id"
   ],
   "note": "The claim that slices never point elsewhere is false where usize has 32 bits and refuted; the rest is proved."
  },
  {
   "property": "C49",
   "status": "proved",
   "theorems": [
    "C49_reported_header",
    "C49_later_offsets",
    "C49_offsets_right_refuted"
   ],
   "note": "The claim as checked is false of the code: refuted, with the exact size of the error on every input and how it carries over to later offsets."
  },
  {
   "property": "C50",
   "status": "proved",
   "theorems": [
    "C50_only_overflow_panics",
    "C50_seekable_only_overflow_panics",
    "C50_overflow_panics",
    "C50_never_panics_refuted",
    "C50_scan_ends_refuted",
    "C50_progress",
    "C50_failed_call_moves_offset"
   ],
   "note": "Both claims checked are false of the code and refuted; the exact condition for a panic and progress otherwise are proved."
  },
  {
   "property": "C51",
   "status": "proved",
   "theorems": [
    "C51_agrees",
    "C51_standard_factory",
    "C51_scanner_validates_refuted"
   ],
   "note": "The agreement is proved for every factory that keeps ids; its converse is refuted."
  },
  {
   "property": "C52",
   "status": "proved",
   "theorems": [
    "C52_corrupted_iff_outside",
    "C52_same_bytes",
    "C52_outside_is_refused_refuted"
   ],
   "note": "Proved for children whose end is below 2^64; refuted beyond."
  },
  {
   "property": "C53",
   "status": "proved",
   "theorems": [
    "C53_counted_program",
    "C53_size_calls",
    "C53_serialize_calls",
    "C53_to_bytes_calls",
    "C53_exponential",
    "C53_polynomial_refuted",
    "C53_short_input"
   ],
   "note": ""
  },
  {
   "property": "C54",
   "status": "proved",
   "theorems": [
    "C54_reached",
    "C54_bounded_refuted",
    "C54_bounded",
    "C54_bounded_by_input"
   ],
   "note": ""
  },
  {
   "property": "C55",
   "status": "proved",
   "theorems": [
    "C55_traced_program",
    "C55_requests",
    "C55_requests_bytes",
    "C55_requests_into",
    "C55_proportional_refuted",
    "C55_header_alone"
   ],
   "note": ""
  },
  {
   "property": "C56",
   "status": "proved",
   "theorems": [
    "C56_implicit_ids"
   ],
   "note": ""
  },
  {
   "property": "C57",
   "status": "proved",
   "theorems": [
    "C57_constructors",
    "C57_panics_exactly",
    "C57_constructors_offered",
    "C57_defaults",
    "C57_version_value",
    "C57_setters",
    "C57_histories",
    "C57_last_value_set",
    "C57_well_formed"
   ],
   "note": ""
  },
  {
   "property": "C58",
   "status": "proved",
   "theorems": [
    "C58_any_source",
    "C58_limit_holds_whatever_the_source_does_refuted",
    "C58_each_success_within_available"
   ],
   "note": "The claim is false of the code and refuted; what does hold over any source is C58_any_source."
  },
  {
   "property": "C59",
   "status": "proved",
   "theorems": [
    "C59_insert_get",
    "C59_insert_get_string",
    "C59_history_does_not_show"
   ],
   "note": ""
  },
  {
   "property": "C60",
   "status": "proved",
   "theorems": [
    "C60_results_are_final",
    "C60_errors",
    "C60_truncated",
    "C60_missing_data_means_incomplete_refuted"
   ],
   "note": "The claim that an error for missing data means an incomplete input is refuted: a limit hit inside a container is reported with the same error."
  },
  {
   "property": "C61",
   "status": "proved",
   "theorems": [
    "C61_deserialize",
    "C61_deserialize_into",
    "C61_from_bytes",
    "C61_grammar"
   ],
   "note": ""
  },
  {
   "property": "C62",
   "status": "proved",
   "theorems": [
    "C62_deserialize",
    "C62_deserialize_into"
   ],
   "note": ""
  },
  {
   "property": "C63",
   "status": "proved",
   "theorems": [
    "C63_provided",
    "C63_layout",
    "C63_round_trip",
    "C63_from_bytes",
    "C63_round_trip_into",
    "C63_total",
    "C63_creator_panics",
    "C63_framing",
    "C63_conservative",
    "C63_conservative_serialize"
   ],
   "note": "User code is an arbitrary record of functions; contracts are hypotheses, each shown to hold for the payload type of the repository's tests registered as a user type."
  },
  {
   "property": "C64",
   "status": "proved",
   "theorems": [
    "C64_no_overflow",
    "C64_to_bytes",
    "C64_to_bytes_32_bits",
    "C64_to_bytes_never_panics_refuted"
   ],
   "note": ""
  },
  {
   "property": "C65",
   "status": "proved",
   "theorems": [
    "C65_deserialize",
    "C65_deserialize_into",
    "C65_string",
    "C65_stream"
   ],
   "note": ""
  },
  {
   "property": "C66",
   "status": "proved",
   "theorems": [
    "C66_deserialize",
    "C66_retry_never_succeeds",
    "C66_enough",
    "C66_deserialize_into"
   ],
   "note": ""
  },
  {
   "property": "C67",
   "status": "proved",
   "theorems": [
    "C67_round_trip",
    "C67_reads",
    "C67_one_way_to_cut",
    "C67_end",
    "C67_resumes_after_refused_tag_refuted"
   ],
   "note": "The claim about resuming after an error is false of the code and refuted for every reader; the rest is proved."
  },
  {
   "property": "C68",
   "status": "proved",
   "theorems": [
    "C68_sequence",
    "C68_array",
    "C68_dictionary",
    "C68_extent",
    "C68_ends",
    "C68_always_ends_refuted"
   ],
   "note": "The claim that containers return whenever the factory does is false of ILTagSeqTag and refuted; the rest is proved."
  },
  {
   "property": "C69",
   "status": "proved",
   "theorems": [
    "C69_deserialize",
    "C69_deserialize_into",
    "C69_ilint"
   ],
   "note": ""
  },
  {
   "property": "C70",
   "status": "proved",
   "theorems": [
    "C70_answers",
    "C70_accepted",
    "C70_rejected",
    "C70_read_only"
   ],
   "note": ""
  },
  {
   "property": "C71",
   "status": "proved",
   "theorems": [
    "C71_same_answers",
    "C71_same_answers_into",
    "C71_library_readers"
   ],
   "note": ""
  },
  {
   "property": "C72",
   "status": "proved",
   "theorems": [
    "C72_serialize",
    "C72_serialize_value",
    "C72_bytes",
    "C72_value_bytes",
    "C72_prefix",
    "C72_number_of_calls",
    "C72_ilint",
    "C72_signed_ilint",
    "C72_numbers",
    "C72_same_answers",
    "C72_library_writers",
    "C72_default_write_all"
   ],
   "note": ""
  },
  {
   "property": "C73",
   "status": "proved",
   "theorems": [
    "C73_any_reader",
    "C73_next_tag",
    "C73_seekable"
   ],
   "note": ""
  },
  {
   "property": "C74",
   "status": "proved",
   "theorems": [
    "C74_skip",
    "C74_skip_u64",
    "C74_skip_u64_wide",
    "C74_pieces",
    "C74_goto_end",
    "C74_library_readers"
   ],
   "note": ""
  },
  {
   "property": "C75",
   "status": "proved",
   "theorems": [
    "C75_next_tag",
    "C75_next_tag_if_id",
    "C75_adjacent",
    "C75_same_answers",
    "C75_library_readers",
    "C75_limited"
   ],
   "note": ""
  },
  {
   "property": "C76",
   "status": "proved",
   "theorems": [
    "C76_layout",
    "C76_size_error",
    "C76_first_failure",
    "C76_is_implicity"
   ],
   "note": ""
  },
  {
   "property": "C77",
   "status": "proved",
   "theorems": [
    "C77_contents",
    "C77_valid",
    "C77_retry"
   ],
   "note": ""
  },
  {
   "property": "C78",
   "status": "proved",
   "theorems": [
    "C78_size",
    "C78_serialize",
    "C78_serialize_panics",
    "C78_serialize_wraps",
    "C78_to_bytes",
    "C78_to_bytes_large",
    "C78_no_less",
    "C78_no_less_refuted"
   ],
   "note": "The claim that no container says less than it writes is false in builds without overflow checks and refuted; the rest is proved."
  },
  {
   "property": "C79",
   "status": "proved",
   "theorems": [
    "C79_exactly",
    "C79_exactly_into",
    "C79_same_results",
    "C79_same_results_into",
    "C79_same_results_from_bytes",
    "C79_64_bits",
    "C79_32_bits",
    "C79_accepted",
    "C79_panics",
    "C79_never_panics_refuted",
    "C79_sizes_of_callers",
    "C79_string_tag"
   ],
   "note": "The claim that deserialization never panics is false on 32-bit targets and refuted; the exact condition is proved. Growth by push and by hash map insertion is not counted."
  },
  {
   "property": "C80",
   "status": "proved",
   "theorems": [
    "C80_reserialize",
    "C80_from_bytes",
    "C80_exactly_one",
    "C80_same_document",
    "C80_standard",
    "C80_canonical_input_enforced_refuted"
   ],
   "note": "The claim that only canonical input is accepted is false and refuted; the exact classification is proved."
  },
  {
   "property": "C81",
   "status": "proved",
   "theorems": [
    "C81_total",
    "C81_framing",
    "C81_accepted",
    "C81_accepts",
    "C81_unambiguous",
    "C81_confined",
    "C81_memory_framing",
    "C81_confined_on_streams_refuted"
   ],
   "note": "The claim that a program stays inside its tag is false on streams and refuted; it is proved for memory readers, and for programs that propagate failures on every reader."
  },
  {
   "property": "C82",
   "status": "proved",
   "theorems": [
    "C82_total",
    "C82_answers",
    "C82_answers_into",
    "C82_bytes",
    "C82_accepted",
    "C82_same_answers",
    "C82_library_readers",
    "C82_confined"
   ],
   "note": ""
  },
  {
   "property": "C83",
   "status": "proved",
   "theorems": [
    "C83_into_is_a_program",
    "C83_written_out",
    "C83_total",
    "C83_framing",
    "C83_accepted",
    "C83_accepts",
    "C83_memory_framing"
   ],
   "note": ""
  },
  {
   "property": "C84",
   "status": "proved",
   "theorems": [
    "C84_determined",
    "C84_no_panic",
    "C84_total",
    "C84_total_needs_the_bound",
    "C84_written_out",
    "C84_written_back",
    "C84_accepted",
    "C84_accepts",
    "C84_memory_framing"
   ],
   "note": "The claim that such programs always end is refuted for readers with one byte more than the program has got; without that byte it is proved."
  },
  {
   "property": "C85",
   "status": "proved",
   "theorems": [
    "C85_determined",
    "C85_no_panic",
    "C85_total",
    "C85_written_out",
    "C85_written_back",
    "C85_accepted",
    "C85_accepts",
    "C85_framing",
    "C85_memory_framing"
   ],
   "note": ""
  },
  {
   "property": "C86",
   "status": "proved",
   "theorems": [
    "C86_determined",
    "C86_no_panic",
    "C86_total",
    "C86_answers",
    "C86_same_answers",
    "C86_success",
    "C86_first_failure",
    "C86_layout",
    "C86_bytes",
    "C86_library",
    "C86_emits",
    "C86_contract",
    "C86_careless_refuted"
   ],
   "note": ""
  },
  {
   "property": "C87",
   "status": "proved",
   "theorems": [
    "C87_determined",
    "C87_no_panic",
    "C87_total",
    "C87_answers",
    "C87_answers_into",
    "C87_bytes",
    "C87_accepted",
    "C87_same_answers",
    "C87_library_readers",
    "C87_confined"
   ],
   "note": ""
  },
  {
   "property": "C88",
   "status": "proved",
   "theorems": [
    "C88_types",
    "C88_programs",
    "C88_into_programs",
    "C88_other_programs",
    "C88_full_programs",
    "C88_readers",
    "C88_scanner",
    "C88_programs_on_readers",
    "C88_full_programs_on_readers",
    "C88_writers",
    "C88_shared_reading",
    "C88_shared_writing",
    "C88_downcasts"
   ],
   "note": ""
  },
  {
   "property": "C89",
   "status": "proved",
   "theorems": [
    "C89_equal",
    "C89_equivalence",
    "C89_same_data",
    "C89_clone",
    "C89_plain_clone",
    "C89_plain_clone_raw",
    "C89_from_bytes",
    "C89_standard_stays",
    "C89_clone_any_factory",
    "C89_untouchable",
    "C89_symmetric_refuted"
   ],
   "note": "The claim that the order of the arguments never matters is false and refuted: it does when one object fails and the other panics."
  },
  {
   "property": "C90",
   "status": "proved",
   "theorems": [
    "C90_size",
    "C90_serialize",
    "C90_failure",
    "C90_size_failure",
    "C90_size_answers",
    "C90_answers",
    "C90_size_asks",
    "C90_serialize_asks",
    "C90_exponential",
    "C90_to_bytes",
    "C90_equal",
    "C90_unequal",
    "C90_settled",
    "C90_stateless_size",
    "C90_stateless",
    "C90_frame_refuted",
    "C90_reflexive_refuted"
   ],
   "note": "The claims that momentarily honest sizes frame a sequence correctly and that equality is reflexive are false for objects with changing state and refuted; both are proved where the state does not show (C90_settled) or is absent (C89)."
  },
  {
   "property": "C91",
   "status": "proved",
   "theorems": [
    "C91_downcasts",
    "C91_library",
    "C91_sound",
    "C91_agree",
    "C91_itself",
    "C91_id_refuted",
    "C91_mut_refuted",
    "C91_assert_refuted"
   ],
   "note": "The claims that the object handed out has the id asked for, that the shared and mutable helpers agree and that a downcast succeeds after the assertion held are false for arbitrary as_any and refuted; they are proved for objects that answer with themselves (C91_itself, C91_library) or always the same (C91_agree)."
  },
  {
   "property": "C92",
   "status": "proved",
   "theorems": [
    "C92_confined",
    "C92_ends",
    "C92_determined",
    "C92_exact",
    "C92_answers",
    "C92_stateless",
    "C92_calls",
    "C92_log",
    "C92_twice_refuted",
    "C92_size_refuted",
    "C92_full"
   ],
   "note": "The claims that the same bytes give the same object and that deserialize_into of an object with an ordinary id takes the size in its header are false for code with changing state and refuted; they are proved where the state does not show (C92_answers) or the id stays ordinary (C92_exact)."
  },
  {
   "property": "C93",
   "status": "proved",
   "theorems": [
    "C93_beside",
    "C93_from_bytes",
    "C93_total",
    "C93_answers",
    "C93_stateless",
    "C93_plain",
    "C93_clone",
    "C93_plain_clone",
    "C93_panics",
    "C93_same_clones_refuted",
    "C93_failure_without_effect_refuted"
   ],
   "note": "The claims that two clones of one object are equal objects and that a failing from_bytes has no effect on the state are false for creators with state and refuted."
  },
  {
   "property": "C94",
   "status": "proved",
   "theorems": [
    "C94_counts_only",
    "C94_call",
    "C94_bound",
    "C94_bound_into",
    "C94_each_tag_costs",
    "C94_exact",
    "C94_shallow",
    "C94_quadratic",
    "C94_linear_refuted"
   ],
   "note": "The claim that the calls are proportional to the input is false and refuted; a quadratic bound is proved instead."
  }
 ]
}