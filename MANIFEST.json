{
 "claims": [
  {
   "property": "C01",
   "status": "proved",
   "theorems": [
    "C01_utf8_roundtrip",
    "C01_utf8_too_big"
   ],
   "note": ""
  },
  {
   "property": "C02",
   "status": "proved",
   "theorems": [
    "C02_utf16_roundtrip",
    "C02_utf32_roundtrip",
    "C02_utf16_lone_lead",
    "C02_utf16_ffff_refuted"
   ],
   "note": "With 16-bit units U+FFFF is excluded: it equals the stream's eof value (C02_utf16_ffff_refuted)."
  },
  {
   "property": "C03",
   "status": "proved",
   "theorems": [
    "C03_utf8_wellformed"
   ],
   "note": ""
  },
  {
   "property": "C04",
   "status": "proved",
   "theorems": [
    "C04_utf8_decode_any",
    "C04_utf8_truncated",
    "C04_announced",
    "C04_utf8_text",
    "C04_utf8_strict_refuted"
   ],
   "note": ""
  },
  {
   "property": "C05",
   "status": "proved",
   "theorems": [
    "C05_surrogates_split",
    "C05_surrogates_join",
    "C05_classes"
   ],
   "note": ""
  },
  {
   "property": "C06",
   "status": "proved",
   "theorems": [
    "C06_outcomes",
    "C06_outcomes_into",
    "C06_linear"
   ],
   "note": "Steps are counted as nested calls and loop rounds of the model: any budget of at least 2n+1 for n input units gives the same result."
  },
  {
   "property": "C07",
   "status": "proved",
   "theorems": [
    "C07_dialect",
    "C07_dialect_utf8",
    "C07_dialect_utf16",
    "C07_dialect_utf32",
    "C07_one_meaning",
    "C07_code_points_only"
   ],
   "note": ""
  },
  {
   "property": "C08",
   "status": "proved",
   "theorems": [
    "C08_exact",
    "C08_overflow",
    "C08_every_integer"
   ],
   "note": ""
  },
  {
   "property": "C09",
   "status": "proved",
   "theorems": [
    "C09_fraction",
    "C09_exponent",
    "C09_integral_exact",
    "C09_accuracy",
    "C09_nearest_refuted"
   ],
   "note": "The nearest-double reading is refuted with 0.3."
  },
  {
   "property": "C10",
   "status": "proved",
   "theorems": [
    "C10_string",
    "C10_bad_string",
    "C10_broken",
    "C10_unencodable"
   ],
   "note": ""
  },
  {
   "property": "C11",
   "status": "proved",
   "theorems": [
    "C11_blanks",
    "C11_end_refuted"
   ],
   "note": "Holds wherever some text follows; at the very end of the text it is refuted (an exponent sign followed by end of input)."
  },
  {
   "property": "C12",
   "status": "proved",
   "theorems": [
    "C12_object",
    "C12_first_wins",
    "C12_same_keys",
    "C12_order_free",
    "C12_sorted_everywhere"
   ],
   "note": ""
  },
  {
   "property": "C13",
   "status": "proved",
   "theorems": [
    "C13_trailing_comma_array",
    "C13_trailing_comma_object",
    "C13_lone_key",
    "C13_stray_comma",
    "C13_missing_separator",
    "C13_stray_character",
    "C13_incomplete"
   ],
   "note": ""
  },
  {
   "property": "C14",
   "status": "proved",
   "theorems": [
    "C14_trailing"
   ],
   "note": "Numbers that abort or overflow (C16) do so after the document too."
  },
  {
   "property": "C15",
   "status": "proved",
   "theorems": [
    "C15_rfc_accepted",
    "C15_full_refuted"
   ],
   "note": ""
  },
  {
   "property": "C16",
   "status": "proved",
   "theorems": [
    "C16_abort_iff",
    "C16_overflow_iff",
    "C16_safe",
    "C16_ndebug"
   ],
   "note": ""
  },
  {
   "property": "C17",
   "status": "proved",
   "theorems": [
    "C17_token_start",
    "C17_after_value",
    "C17_wide_not_a_digit",
    "C17_wide_not_a_letter",
    "C17_narrow_refuted"
   ],
   "note": "Any character, also a non-ASCII one, is taken for a digit directly after an exponent sign; C17 speaks of the other places."
  },
  {
   "property": "C18",
   "status": "proved",
   "theorems": [
    "C18_compact"
   ],
   "note": ""
  },
  {
   "property": "C19",
   "status": "proved",
   "theorems": [
    "C19_pretty",
    "C19_options",
    "C19_any_depth",
    "C19_nul_indent"
   ],
   "note": ""
  },
  {
   "property": "C20",
   "status": "proved",
   "theorems": [
    "C20_round_trip",
    "C20_round_trip_all",
    "C20_json",
    "C20_any_float"
   ],
   "note": ""
  },
  {
   "property": "C21",
   "status": "proved",
   "theorems": [
    "C21_succeeds_iff",
    "C21_first_bad",
    "C21_throws_iff",
    "C21_undecodable_only_refuted"
   ],
   "note": "the wording 'exactly undecodable strings' is refuted; the corrected statement is proved: undecodable or unencodable strings throw, and out-of-range integral floats are undefined behaviour"
  },
  {
   "property": "C22",
   "status": "proved",
   "theorems": [
    "C22_printable"
   ],
   "note": ""
  },
  {
   "property": "C23",
   "status": "proved",
   "theorems": [
    "C23_rfc",
    "C23_any_float",
    "C23_control_refuted",
    "C23_control_changes_refuted"
   ],
   "note": ""
  },
  {
   "property": "C24",
   "status": "proved",
   "theorems": [
    "C24_integral",
    "C24_undefined_iff",
    "C24_fraction",
    "C24_format",
    "C24_reads_back",
    "C24_exact_refuted"
   ],
   "note": ""
  },
  {
   "property": "C25",
   "status": "proved",
   "theorems": [
    "C25_injective",
    "C25_keys_in_order"
   ],
   "note": "the rendering of C18/C19 lists members in the order of the value"
  },
  {
   "property": "C26",
   "status": "proved",
   "theorems": [
    "C26_safe"
   ],
   "note": ""
  },
  {
   "property": "C27",
   "status": "proved",
   "theorems": [
    "C27_parse",
    "C27_dump"
   ],
   "note": ""
  },
  {
   "property": "C28",
   "status": "proved",
   "theorems": [
    "C28_left",
    "C28_unique"
   ],
   "note": ""
  },
  {
   "property": "C29",
   "status": "proved",
   "theorems": [
    "C29_history",
    "C29_at_count",
    "C29_size",
    "C29_make_object",
    "C29_every_object_is_a_map"
   ],
   "note": ""
  },
  {
   "property": "C30",
   "status": "proved",
   "theorems": [
    "C30_history",
    "C30_at_size",
    "C30_erase_iterator",
    "C30_erase_range",
    "C30_largest_index_refuted"
   ],
   "note": "the largest index 2^64-1 is excluded: there the size computation wraps (C30_largest_index_refuted)"
  },
  {
   "property": "C31",
   "status": "proved",
   "theorems": [
    "C31_operations",
    "C31_subscripts",
    "C31_at_unchanged",
    "C31_erase_iterator",
    "C31_null_becomes_object",
    "C31_null_becomes_array",
    "C31_chains_unchanged_refuted"
   ],
   "note": "unchanged for operations reached through at(); through operator[] new nulls may remain (C31_chains_unchanged_refuted)"
  },
  {
   "property": "C32",
   "status": "proved",
   "theorems": [
    "C32_size_empty",
    "C32_find_count_at",
    "C32_distance"
   ],
   "note": ""
  },
  {
   "property": "C33",
   "status": "proved",
   "theorems": [
    "C33_clear"
   ],
   "note": ""
  },
  {
   "property": "C34",
   "status": "proved",
   "theorems": [
    "C34_symmetric",
    "C34_reflexive",
    "C34_structural",
    "C34_content",
    "C34_transitive_exact",
    "C34_transitive_refuted",
    "C34_not_equal"
   ],
   "note": "transitivity is refuted in general and proved for integers up to 2^53 and numbers"
  },
  {
   "property": "C35",
   "status": "proved",
   "theorems": [
    "C35_irreflexive",
    "C35_asymmetric",
    "C35_total_on_sorts",
    "C35_numeric",
    "C35_scalars",
    "C35_across_types",
    "C35_lexicographic_array",
    "C35_lexicographic_object",
    "C35_derived",
    "C35_transitive_refuted",
    "C35_antisymmetric_refuted"
   ],
   "note": "total on every sort; cycles exist in general"
  },
  {
   "property": "C38",
   "status": "proved",
   "theorems": [
    "C38_forward",
    "C38_loop",
    "C38_steps"
   ],
   "note": ""
  },
  {
   "property": "C39",
   "status": "proved",
   "theorems": [
    "C39_backward",
    "C39_loop"
   ],
   "note": ""
  },
  {
   "property": "C40",
   "status": "proved",
   "theorems": [
    "C40_end",
    "C40_end_is_end",
    "C40_object_arithmetic",
    "C40_array_arithmetic",
    "C40_array_back",
    "C40_array_order",
    "C40_scalar_arithmetic",
    "C40_key",
    "C40_other_value",
    "C40_empty_iterator",
    "C40_back_and_forth",
    "C40_out_of_range",
    "C40_retyped",
    "C40_retyped_scalar"
   ],
   "note": ""
  },
  {
   "property": "C36",
   "status": "proved",
   "theorems": [
    "C36_copy_construct",
    "C36_independent",
    "C36_move_construct",
    "C36_copy_assign",
    "C36_move_assign",
    "C36_swap",
    "C36_one_reading"
   ],
   "note": "over the memory model"
  },
  {
   "property": "C37",
   "status": "proved",
   "theorems": [
    "C37_step",
    "C37_covered",
    "C37_history",
    "C37_history_from",
    "C37_none_left",
    "C37_ordered",
    "C37_own_inside_refuted",
    "C37_old_reference_refuted"
   ],
   "note": "self-containing moves excluded, with leak witnesses"
  },
  {
   "property": "C41",
   "status": "proved",
   "theorems": [
    "C41_round_trip",
    "C41_narrower",
    "C41_kinds"
   ],
   "note": ""
  },
  {
   "property": "C42",
   "status": "proved",
   "theorems": [
    "C42_to_value",
    "C42_round_trip",
    "C42_set",
    "C42_less",
    "C42_pointer_refuted",
    "C42_zero_refuted"
   ],
   "note": "exact condition; the plain statement is refuted"
  },
  {
   "property": "C43",
   "status": "proved",
   "theorems": [
    "C43_outcome",
    "C43_result",
    "C43_throws",
    "C43_class",
    "C43_exclusive",
    "C43_sequence_kind",
    "C43_map_kind",
    "C43_into_outcome",
    "C43_into_true",
    "C43_into_false",
    "C43_unchanged",
    "C43_array_type",
    "C43_object_type",
    "C43_nan_set_refuted",
    "C43_nan_free",
    "C43_reference"
   ],
   "note": "NaN elements of std::set excluded, with witness"
  },
  {
   "property": "C44",
   "status": "proved",
   "theorems": [
    "C44_throws",
    "C44_class",
    "C44_fields",
    "C44_written",
    "C44_equal",
    "C44_initial",
    "C42_round_trip"
   ],
   "note": "round trip is C42's"
  },
  {
   "property": "C45",
   "status": "proved",
   "theorems": [
    "C45_same",
    "C45_nul_inside",
    "C45_without_provisos_refuted",
    "C45_nul_ended",
    "C45_nul_ended_same",
    "C45_nul_ended_forever"
   ],
   "note": "provisos needed, with witnesses"
  },
  {
   "property": "C46",
   "status": "proved",
   "theorems": [
    "C46_out",
    "C46_out_options",
    "C46_out_always",
    "C46_out_any_width_refuted",
    "C46_in_untouched",
    "C46_in_parse",
    "C46_in_string",
    "C46_in_whole",
    "C46_in_nul_refuted",
    "C46_round_trip",
    "C46_typed_out",
    "C46_typed_in",
    "C46_typed_round_trip"
   ],
   "note": "widths below 256; text without NUL; both limits have witnesses"
  },
  {
   "property": "C47",
   "status": "proved",
   "theorems": [
    "C47_step",
    "C47_history",
    "C47_left",
    "C47_unchanged",
    "C47_never_fails",
    "C47_enough",
    "C47_from_list",
    "C47_no_leak_refuted",
    "C47_strong_refuted"
   ],
   "note": "strong guarantee and absence of leaks are false, with witnesses"
  },
  {
   "property": "C48",
   "status": "proved",
   "theorems": [
    "C48_reset",
    "C48_destroy_refuted"
   ],
   "note": "destruction after a failed reset is undefined in every case"
  },
  {
   "property": "C49",
   "status": "proved",
   "theorems": [
    "C49_delivered",
    "C49_handled",
    "C49_adapter",
    "C49_limited",
    "C49_quiet",
    "C49_loud",
    "C49_told_refuted"
   ],
   "note": "that a refusal is always reported is false, with witnesses"
  },
  {
   "property": "C50",
   "status": "proved",
   "theorems": [
    "C50_get_peek",
    "C50_adapter",
    "C50_after_peek_refuted",
    "C50_none",
    "C50_nothing_refuted",
    "C50_end_refuted",
    "C50_string",
    "C50_string_refuted",
    "C50_string_end_refuted",
    "C50_buffer_refuted",
    "C50_buffer_end_refuted",
    "C50_file_refuted",
    "C50_same_get",
    "C50_same_peek"
   ],
   "note": "read() departs from the text in the stated places, with exact results"
  },
  {
   "property": "C51",
   "status": "proved",
   "theorems": [
    "C51_document",
    "C51_document_text",
    "C51_document_value",
    "C51_into",
    "C51_enough",
    "C51_new",
    "C51_complete_refuted",
    "C51_complete",
    "C51_complete_into",
    "C51_no_leak_refuted"
   ],
   "note": "that a returning parse is complete and that a throwing one loses nothing are false, with witnesses"
  },
  {
   "property": "C52",
   "status": "proved",
   "theorems": [
    "C52_message",
    "C52_message_utf8",
    "C52_one_complaint",
    "C52_not_about_documents",
    "C52_total",
    "C52_recorded",
    "C52_seen_once",
    "C52_seen",
    "C52_named_refuted",
    "C52_decoding",
    "C52_trailing"
   ],
   "note": "that the error always names the character in the way is false, with witness"
  },
  {
   "property": "C53",
   "status": "proved",
   "theorems": [
    "C53_dump",
    "C53_dump_one",
    "C53_dump_seen",
    "C53_codepoint_refuted",
    "C53_conversion",
    "C53_conversion_exact",
    "C53_conversion_two",
    "C53_conversion_seen",
    "C53_types_named",
    "C53_member_refuted",
    "C53_misuse_seen"
   ],
   "note": "that the number named is a code point and that a missing member is named are false, with witnesses"
  },
  {
   "property": "C54",
   "status": "proved",
   "theorems": [
    "C54_same",
    "C54_same_dump",
    "C54_parse",
    "C54_every_document",
    "C54_parse_bound",
    "C54_at_least_nesting",
    "C54_limit_refuted",
    "C54_tower",
    "C54_nesting_refuted",
    "C54_comments",
    "C54_dump",
    "C54_compare"
   ],
   "note": "that there is a depth limit and that the nesting of the value bounds the depth are false, with families of witnesses; stack frames themselves are not modelled"
  },
  {
   "property": "C55",
   "status": "proved",
   "theorems": [
    "C55_copies_bound",
    "C55_copies_by_depth",
    "C55_memberless",
    "C55_linear_refuted",
    "C55_quadratic",
    "C55_equal",
    "C55_equal_first",
    "C55_equal_first_object",
    "C55_equal_once",
    "C55_less",
    "C55_less_first",
    "C55_less_first_object",
    "C55_less_shorter",
    "C55_less_once",
    "C55_doubled",
    "C55_exponential"
   ],
   "note": "that copying is linear in the text is false, with a family of witnesses"
  },
  {
   "property": "C56",
   "status": "proved",
   "theorems": [
    "C56_same_or_lost",
    "C56_contained",
    "C56_accepts",
    "C56_complete",
    "C56_message",
    "C56_same_refuted"
   ],
   "note": "that a document followed by an exception is still read is false; that istream catches exceptions of the buffer and sets badbit is part of the stream model"
  },
  {
   "property": "C57",
   "status": "proved",
   "theorems": [
    "C57_map",
    "C57_same_end",
    "C57_same_document",
    "C57_accepts",
    "C57_grammar",
    "C57_fifo",
    "C57_fifo_map",
    "C57_round_trip",
    "C57_round_trip_fifo",
    "C57_round_trip_map"
   ],
   "note": "a container is its members in iteration order and its emplace function; put_last stands for fifo_map::emplace"
  },
  {
   "property": "C58",
   "status": "proved",
   "theorems": [
    "C58_documents",
    "C58_same_stream",
    "C58_same_parser",
    "C58_first",
    "C58_exhausted",
    "C58_empty_refuted",
    "C58_written",
    "C58_later",
    "C58_later_compact",
    "C58_later_refuted",
    "C58_failed_stream",
    "C58_dropped_refuted",
    "C58_safe",
    "C58_round_trip",
    "C58_no_nuls_refuted"
   ],
   "note": "the state of a parser after an exception is not modelled; that empty documents are skipped, that indentation is right after a failure, that a call that returns has written, and that NULs are not needed are false"
  },
  {
   "property": "C59",
   "status": "proved",
   "theorems": [
    "C59_decided",
    "C59_parse",
    "C59_dump",
    "C59_order_refuted",
    "C59_handler_value",
    "C59_handler_text",
    "C59_round_trip",
    "C59_default_refuted"
   ],
   "note": "encodings are the four of the library, not user-written ones; that options commute and that any options read back what the default ones wrote are false"
  },
  {
   "property": "C60",
   "status": "proved",
   "theorems": [
    "C60_int64",
    "C60_reads",
    "C60_narrow",
    "C60_same_end",
    "C60_wraps",
    "C60_wrap_meaning",
    "C60_literal_wraps",
    "C60_literal_exact",
    "C60_fits",
    "C60_float_refuted",
    "C60_dump",
    "C60_text",
    "C60_text_indented",
    "C60_round_trip",
    "C60_least_refuted",
    "C60_integral_refuted",
    "C60_char_refuted",
    "C60_single",
    "C60_single_round_trip",
    "C60_single_rounds_refuted",
    "C60_single_fraction_refuted"
   ],
   "note": "dump is modelled for double and float as float_type; the refuted parts of the statement are proved false by witnesses"
  },
  {
   "property": "C61",
   "status": "proved",
   "theorems": [
    "C61_new",
    "C61_assign",
    "C61_push",
    "C61_container",
    "C61_no_leak_refuted"
   ],
   "note": "the blocks of the C++ object itself are not counted; to_value functions written by hand have no part in it; that nothing leaks is false"
  },
  {
   "property": "C62",
   "status": "proved",
   "theorems": [
    "C62_enough",
    "C62_result",
    "C62_alloc",
    "C62_exception",
    "C62_returns",
    "C62_unbound",
    "C62_silent_refuted",
    "C62_outcome",
    "C62_into_true",
    "C62_into_false",
    "C62_into_enough",
    "C62_unchanged",
    "C62_raw_refuted"
   ],
   "note": "what the copy of a basic_value itself does when it throws is C47; from_value functions written by hand have no part in it; that get<T>() is all or nothing is false"
  },
  {
   "property": "C63",
   "status": "proved",
   "theorems": [
    "C63_enough",
    "C63_ends",
    "C63_width",
    "C63_when",
    "C63_deep",
    "C63_message",
    "C63_string",
    "C63_string_refuted"
   ],
   "note": "when the target refused nothing and when a request is made: with pretty printing only at a positive indentation (a width that is a multiple of 256 breaks this); C63_message for values that make no other request"
  },
  {
   "property": "C64",
   "status": "proved",
   "theorems": [
    "C64_not_good",
    "C64_blank",
    "C64_parse",
    "C64_failbit_refuted",
    "C64_mask",
    "C64_loop",
    "C64_loop_typed",
    "C64_loop_only",
    "C64_loop_noskipws",
    "C64_out",
    "C64_round_trip",
    "C64_blanks_refuted"
   ],
   "note": "the buffer is a string; whether the sentry of an output stream that is not good sets failbit is a parameter; that a failed extraction sets failbit, and that blanks separate values, are false"
  },
  {
   "property": "C65",
   "status": "proved",
   "theorems": [
    "C65_runs",
    "C65_write_sequence",
    "C65_write_array",
    "C65_write_map",
    "C65_write_struct",
    "C65_write_pointer",
    "C65_read_vector",
    "C65_read_list",
    "C65_read_forward_list",
    "C65_read_sequence_kind",
    "C65_read_array",
    "C65_read_array_kind",
    "C65_read_map",
    "C65_read_map_none",
    "C65_read_map_kind",
    "C65_read_pointer",
    "C65_read_struct",
    "C65_made_whole",
    "C65_first_exception",
    "C65_class",
    "C65_built_in",
    "C65_sequence_safe",
    "C65_array_safe",
    "C65_map_safe",
    "C65_pointer_safe",
    "C65_struct_safe",
    "C65_get_into",
    "C65_sequence_kept",
    "C65_array_kept",
    "C65_map_kept",
    "C65_struct_kept",
    "C65_pointer_kept",
    "C65_pointer_lost",
    "C65_built_in_kept",
    "C65_elements_made",
    "C65_fields_filled",
    "C65_field_refuted",
    "C65_same_read",
    "C65_same_struct_read",
    "C65_same_written",
    "C65_same_struct_written"
   ],
   "note": "constructors, assignments and comparisons of the class do not throw; sets of such classes are left out; that a class got back by get<T>() is got back as a field is false"
  },
  {
   "property": "C66",
   "status": "proved",
   "theorems": [
    "C66_place",
    "C66_step",
    "C66_dangling",
    "C66_alias",
    "C66_progress",
    "C66_run",
    "C66_program"
   ],
   "note": "references to the elements themselves of an array count as lost whenever its length changes; nothing is said of a reference to an erased member whose key is inserted again"
  },
  {
   "property": "C67",
   "status": "proved",
   "theorems": [
    "C67_stays",
    "C67_lost",
    "C67_for_good",
    "C67_astray",
    "C67_scalar",
    "C67_null",
    "C67_others",
    "C67_value",
    "C67_program",
    "C67_read",
    "C67_key",
    "C67_taken",
    "C67_next",
    "C67_previous",
    "C67_compare",
    "C67_known",
    "C67_run",
    "C67_run_astray",
    "C67_erase",
    "C67_store",
    "C67_erase_if",
    "C67_erase_post",
    "C67_erase_post_array",
    "C67_rewrite",
    "C67_rewrite_scalar",
    "C67_endless",
    "C67_range",
    "C67_offsets",
    "C67_offsets_others",
    "C67_astray_more",
    "C67_reverse"
   ],
   "note": "iterators of a vector count as lost whenever the number of its elements changes; an iterator is not followed into the value its map is moved to"
  },
  {
   "property": "C68",
   "status": "proved",
   "theorems": [
    "C68_owned",
    "C68_owned_run",
    "C68_got",
    "C68_read",
    "C68_one",
    "C68_block",
    "C68_block_run",
    "C68_gone",
    "C68_word",
    "C68_store",
    "C68_values",
    "C68_answers",
    "C68_program",
    "C68_same_variable_refuted"
   ],
   "note": "variables that all exist and no failing allocation; pointers to the content of elements are not followed; that a pointer keeps giving the content of the variable it was obtained from is false"
  }
 ]
}