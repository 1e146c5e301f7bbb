{
 "claims": [
  {
   "property": "C01",
   "status": "proved",
   "theorems": [
    "C01_add_exact",
    "C01_sub_exact",
    "C01_mul_exact"
   ],
   "note": ""
  },
  {
   "property": "C02",
   "status": "proved",
   "theorems": [
    "C02_compare_exact"
   ],
   "note": ""
  },
  {
   "property": "C03",
   "status": "proved",
   "theorems": [
    "C03_expressions_canonical",
    "C03_equal_iff_same_key"
   ],
   "note": ""
  },
  {
   "property": "C04",
   "status": "partial",
   "theorems": [
    "C04_rem_partial",
    "C04_rem_zero_error",
    "C04_refuted"
   ],
   "note": "false of the code"
  },
  {
   "property": "C05",
   "status": "proved",
   "theorems": [
    "C05_sum_exact",
    "C05_product_exact",
    "C05_order_independent"
   ],
   "note": ""
  },
  {
   "property": "C06",
   "status": "partial",
   "theorems": [
    "C06_key_identity_partial",
    "C06_key_identity_integers",
    "C06_refuted"
   ],
   "note": "Proved for objects with string keys; false for non-string keys ({1:x} and {\"1\":x} collide)."
  },
  {
   "property": "C07",
   "status": "proved",
   "theorems": [
    "C07_total_preorder",
    "C07_transitive_integers"
   ],
   "note": "For values whose numbers lie in a domain on which double comparison is exact (all integers of any size form one)."
  },
  {
   "property": "C08",
   "status": "proved",
   "theorems": [
    "C08_set_members",
    "C08_no_duplicates",
    "C08_order_and_repetition_irrelevant"
   ],
   "note": ""
  },
  {
   "property": "C09",
   "status": "proved",
   "theorems": [
    "C09_members",
    "C09_laws",
    "C09_union_all",
    "C09_intersection_all"
   ],
   "note": ""
  },
  {
   "property": "C10",
   "status": "partial",
   "theorems": [
    "C10_in_array_or_set",
    "C10_in_object",
    "C10_index_in_array",
    "C10_key_in_object",
    "C10_index_in_set_refuted"
   ],
   "note": "`k, v in set` compares k with a position (refuted); everything else proved."
  },
  {
   "property": "C11",
   "status": "partial",
   "theorems": [
    "C11_sort_partial",
    "C11_min_max_partial",
    "C11_refuted"
   ],
   "note": "sort/min/max order numbers by their text: false for numbers of different length."
  },
  {
   "property": "C12",
   "status": "proved",
   "theorems": [
    "C12_terminates"
   ],
   "note": "For every bundle, verified or not, given that builtins return."
  },
  {
   "property": "C13",
   "status": "partial",
   "theorems": [
    "C13_in_bounds_partial",
    "C13_verify_defined",
    "C13_refuted"
   ],
   "note": "Verification accepts bundles with fewer than two locals, dangling entrypoint names, mistyped Scan operands and functions without blocks; in bounds when these conditions hold."
  },
  {
   "property": "C14",
   "status": "proved",
   "theorems": [
    "C14_never_exceeds_limit",
    "C14_limit_reported",
    "C14_results_do_not_depend_on_limit"
   ],
   "note": ""
  },
  {
   "property": "C15",
   "status": "proved",
   "theorems": [
    "C15_call_stack_bounded",
    "C15_reentry_is_error",
    "C15_depth_is_error"
   ],
   "note": ""
  },
  {
   "property": "C16",
   "status": "partial",
   "theorems": [
    "C16_with_scoped_partial",
    "C16_refuted"
   ],
   "note": "Proved except for roots that are not objects (null dereference), undefined values (an Error node enters the document), quoted path names and non-string keys."
  },
  {
   "property": "C17",
   "status": "partial",
   "theorems": [
    "C17_raised_errors_reported_partial",
    "C17_error_code_is_raised",
    "C17_errors_are_never_dropped",
    "C17_refuted"
   ],
   "note": "Every raised error is reported; ObjectMerge conflicts and undefined values inserted in objects become Error nodes inside results."
  },
  {
   "property": "C18",
   "status": "partial",
   "theorems": [
    "C18_cached_value_partial",
    "C18_with_ignores_cache",
    "C18_refuted"
   ],
   "note": "A cached function that reads a local it does not set answers with a stale value."
  },
  {
   "property": "C19",
   "status": "proved",
   "theorems": [
    "C19_scan_visits_all",
    "C19_scan_of_others"
   ],
   "note": ""
  },
  {
   "property": "C20",
   "status": "proved",
   "theorems": [
    "C20_assign_once",
    "C20_insert_once"
   ],
   "note": ""
  },
  {
   "property": "C21",
   "status": "partial",
   "theorems": [
    "C21_merge_keeps_paths",
    "C21_merge_succeeds_partial",
    "C21_refuted"
   ],
   "note": "Objects nested deeper than 256 that agree are reported as a conflict."
  },
  {
   "property": "C22",
   "status": "partial",
   "theorems": [
    "C22_round_trip_partial",
    "C22_location_refuted",
    "C22_query_plan_refuted",
    "C22_set_refuted",
    "C22_save_again_refuted"
   ],
   "note": "Round trip proved for every bundle the format can hold; locations outside the first file, query plans from 128 on, sets in data and saving a loaded bundle are refuted."
  },
  {
   "property": "C23",
   "status": "partial",
   "theorems": [
    "C23_load_safe_partial",
    "C23_cut_short",
    "C23_truncated_refuted",
    "C23_allocation_refuted",
    "C23_type_depth_refuted"
   ],
   "note": "Termination, nesting and allocation bounds for all byte strings and rejection of truncated files proved; undefined behaviour on short payloads, unbounded nesting of builtin types and allocation ahead of the bytes are refuted."
  },
  {
   "property": "C24",
   "status": "proved",
   "theorems": [
    "C24_burst_rejected",
    "C24_bytes_rejected"
   ],
   "note": ""
  },
  {
   "property": "C25",
   "status": "partial",
   "theorems": [
    "C25_concat",
    "C25_reverse",
    "C25_flatten",
    "C25_slice_partial",
    "C25_wrong_type",
    "C25_refuted"
   ],
   "note": "array.slice: proved for 64-bit bounds; refuted beyond (error), for bounds that are no integers (exception) and for non-arrays (undefined behaviour)."
  },
  {
   "property": "C26",
   "status": "partial",
   "theorems": [
    "C26_bitwise",
    "C26_reject",
    "C26_shift_partial",
    "C26_wrong_type",
    "C26_refuted"
   ],
   "note": "Left shift exact up to 62, right shift up to 63; refuted: lsh by 63 gives a wrong number, shifts by 64 or more are undefined behaviour."
  },
  {
   "property": "C27",
   "status": "proved",
   "theorems": [
    "C27_range",
    "C27_range_step",
    "C27_stepped_meaning"
   ],
   "note": ""
  },
  {
   "property": "C28",
   "status": "partial",
   "theorems": [
    "C28_filter_remove",
    "C28_keys",
    "C28_union",
    "C28_union_n",
    "C28_get_partial",
    "C28_refuted"
   ],
   "note": "object.get: proved when no array index on the path is out of range; refuted otherwise (exception, or a wrapped negative index)."
  },
  {
   "property": "C29",
   "status": "partial",
   "theorems": [
    "C29_subset_partial",
    "C29_scalar_rejected",
    "C29_refuted"
   ],
   "note": "Proved when the sub document has no empty array; refuted for the empty array (undefined behaviour)."
  },
  {
   "property": "C30",
   "status": "proved",
   "theorems": [
    "C30_reachable",
    "C30_paths"
   ],
   "note": "For graph objects with string keys (well-formed values); the loops' fuel is shown to suffice."
  },
  {
   "property": "C31",
   "status": "partial",
   "theorems": [
    "C31_valid",
    "C31_releases",
    "C31_order_partial",
    "C31_antisymmetric_refuted",
    "C31_precedence_refuted",
    "C31_prerelease_refuted",
    "C31_valid_refuted",
    "C31_rejects"
   ],
   "note": "The comparison is not a version order: it is neither antisymmetric nor lexicographic, compares the release text, puts a release before its pre-releases and counts build metadata. What it computes is proved for all releases, and that it is right when no number decreases and digit counts agree."
  },
  {
   "property": "C32",
   "status": "partial",
   "theorems": [
    "C32_parse_bytes_exact",
    "C32_parse_exact",
    "C32_parse_bytes_errors",
    "C32_parse_errors",
    "C32_parse_bytes_accepts",
    "C32_quoted",
    "C32_digits_refuted"
   ],
   "note": "Exact for all integers in canonical form and all units, errors for all other texts. Refuted for leading zeros and a plus sign. Fractions go through doubles, which are an oracle."
  },
  {
   "property": "C33",
   "status": "partial",
   "theorems": [
    "C33_terminates",
    "C33_arguments",
    "C33_match_partial",
    "C33_match_plain",
    "C33_match_escapes",
    "C33_quote_meta",
    "C33_quote_match_partial",
    "C33_escape_refuted",
    "C33_quote_meta_refuted",
    "C33_depth_refuted",
    "C33_bytes"
   ],
   "note": "glob.match always returns. Patterns of bytes, ?, *, ** and classes are answered exactly; with braces the answer is exact or an error. An escaped byte ends the match (refuted), so quote_meta does not round-trip; braces nested beyond 64 match nothing (refuted)."
  },
  {
   "property": "C34",
   "status": "partial",
   "theorems": [
    "C34_encode",
    "C34_decode",
    "C34_base64_round_trip",
    "C34_no_pad_round_trip_partial",
    "C34_no_pad_refuted",
    "C34_decode_safe",
    "C34_reject_unpadded",
    "C34_error_refuted",
    "C34_padding_refuted",
    "C34_is_valid_refuted",
    "C34_decode_value_refuted",
    "C34_hex_decode",
    "C34_hex_round_trip_partial",
    "C34_hex_round_trip_refuted"
   ],
   "note": "base64 and base64url follow RFC 4648 and round-trip for every byte string; no reads out of bounds. Refuted: malformed base64 throws instead of giving an error, inner padding is accepted, encode_no_pad of the empty string is undefined, hex.encode of bytes from 128 on is wrong, decoded text is not escaped."
  },
  {
   "property": "C35",
   "status": "partial",
   "theorems": [
    "C35_query_round_trip_partial",
    "C35_encode_refuted",
    "C35_decode",
    "C35_malformed_refuted",
    "C35_decode_object_partial",
    "C35_encode_object_partial",
    "C35_empty_values_refuted",
    "C35_single_refuted"
   ],
   "note": "Round trip and output alphabet proved for ASCII text, decoding for every percent-encoded text, decode_object for two or more parameters. Refuted: malformed escapes are undefined behaviour, a single parameter is recorded twice, non-ASCII text is undefined."
  },
  {
   "property": "C36",
   "status": "partial",
   "theorems": [
    "C36_parse",
    "C36_text_unique",
    "C36_round_trip",
    "C36_canonical",
    "C36_fields",
    "C36_time_fields_partial",
    "C36_mac_refuted",
    "C36_time_refuted",
    "C36_generated",
    "C36_consistent",
    "C36_distinct"
   ],
   "note": "The fields of version 1 and 2 UUIDs are right unless the time overflows 64-bit nanoseconds (undefined behaviour) or the address is local multicast (reported as global unicast)."
  },
  {
   "property": "C37",
   "status": "partial",
   "theorems": [
    "C37_startswith",
    "C37_endswith",
    "C37_contains",
    "C37_contains_escapes_refuted",
    "C37_indexof",
    "C37_indexof_n",
    "C37_split",
    "C37_split_empty",
    "C37_concat",
    "C37_concat_errors",
    "C37_split_concat",
    "C37_concat_split",
    "C37_replace",
    "C37_replace_empty_refuted",
    "C37_strings_count",
    "C37_substring",
    "C37_count",
    "C37_reverse",
    "C37_trim",
    "C37_trim_space",
    "C37_trim_prefix_suffix",
    "C37_lower_upper_partial",
    "C37_lower_upper_refuted",
    "C37_any_match",
    "C37_format_int_partial",
    "C37_format_int_refuted",
    "C37_kinds",
    "C37_not_strings",
    "C37_escapes_refuted",
    "C37_trim_escapes_refuted",
    "C37_count_empty_refuted",
    "C37_replace_n_refuted",
    "C37_replace_n_partial",
    "C37_spec_functional"
   ],
   "note": "Proved for all strings of characters that stand for themselves in JSON (no quote, backslash, control character), any UTF-8 library correct on valid text. Missing or false of the code: text with escapes (contains, split, replace, upper, reverse, substring and trim work on the escaped text), replace with an empty old text never ends, replace_n with several pairs replaces its own output, strings.count of the empty string counts bytes, lower and upper are undefined outside ASCII, format_int prints two bits in base 2 and negative numbers as unsigned."
  },
  {
   "property": "C38",
   "status": "partial",
   "theorems": [
    "C38_pointer",
    "C38_patch_partial",
    "C38_tests_first_refuted",
    "C38_departures_refuted",
    "C38_undefined_refuted",
    "C38_path_array_refuted",
    "C38_leading_zero",
    "C38_set",
    "C38_path_array"
   ],
   "note": "Proved: which texts are JSON pointers; json.patch gives exactly the RFC 6902 result or an error, for patches whose tests come first and whose array tokens are indices. Refuted in general: tests see the original document, copy/move to the root do nothing, non-index tokens append, indices wrap, empty and non-ASCII array tokens are undefined, array paths are not escaped. Values are immutable in the model, so that doc is unchanged is by construction."
  },
  {
   "property": "C39",
   "status": "partial",
   "theorems": [
    "C39_filter_partial",
    "C39_remove_partial",
    "C39_leaves_partial",
    "C39_elements_partial",
    "C39_departures_refuted"
   ],
   "note": "Proved for nested objects with distinct string keys, and for the elements of an array one level down. Refuted: remove drops scalars before the end of a path and members whose keys are not strings; set members are matched by JSON text."
  },
  {
   "property": "C40",
   "status": "proved",
   "theorems": [
    "C40_walk"
   ],
   "note": "Each once: when no set member or object key is repeated inside the value."
  },
  {
   "property": "C41",
   "status": "partial",
   "theorems": [
    "C41_failure_invisible_partial",
    "C41_query",
    "C41_query_text_partial",
    "C41_build",
    "C41_run_bundle",
    "C41_reports",
    "C41_stale_query_refuted",
    "C41_c_interface",
    "C41_c_questions",
    "C41_data_names"
   ],
   "note": "InterpModel.v models every Interpreter call that changes or reads its documents, modules, input, query and entry points, and the C functions over them; readers, compiler and VM are parameters. Proved for all histories: failed calls leave no trace, answers depend only on what could be read. The last clause is false: query(text) with unreadable text answers the previous query (C41_stale_query_refuted). Rewriting is assumed not to change the nodes handed to it."
  },
  {
   "property": "C42",
   "status": "partial",
   "theorems": [
    "C42_size_suffices",
    "C42_no_overrun",
    "C42_type_name_refuted",
    "C42_large_refuted",
    "C42_null_partial"
   ],
   "note": "Proved for every text function except the node type name, whose reported size has no room for the terminator (refuted), and for texts below 4 GiB, where the reported size wraps (refuted). Never writes outside the buffer."
  },
  {
   "property": "C43",
   "status": "partial",
   "theorems": [
    "C43_build",
    "C43_build_exact",
    "C43_set_input",
    "C43_misuse_partial",
    "C43_sticky",
    "C43_misuse_refuted",
    "C43_null_refuted",
    "C43_float_partial",
    "C43_float_refuted",
    "C43_string_refuted",
    "C43_set_input_fails"
   ],
   "note": "Every value whose floats are six-decimal texts is built by its post-order calls. Errors stick and leave the interpreter's input alone. Refuted: object items accepted in arrays and as keys, several values accepted by validation, duplicate keys kept, doubles kept to six decimals, strings not escaped, null handle dereferenced by regoInputNode and regoInputValidate."
  },
  {
   "property": "C44",
   "status": "partial",
   "theorems": [
    "C44_meaning",
    "C44_runs",
    "C44_never_runs",
    "C44_unavailable",
    "C44_total",
    "C44_available",
    "C44_blacklist_refuted",
    "C44_unknown_refuted",
    "C44_no_arguments_refuted",
    "C44_registration_refuted",
    "C44_refused",
    "C44_library"
   ],
   "note": "Proved for every history of registry operations. Refuted: a blacklisted builtin still runs under an alias name; unknown names behind a whitelist (or on a blacklist) dereference null; refused calls without arguments read args[0]; a policy change forgets registered builtins."
  },
  {
   "property": "C45",
   "status": "partial",
   "theorems": [
    "C45_order_partial",
    "C45_acyclic_partial",
    "C45_resolve",
    "C45_unresolved",
    "C45_circle_dropped_refuted",
    "C45_twice_refuted",
    "C45_as_written_refuted",
    "C45_undeclared_argument_refuted"
   ],
   "note": "DepModel.v models the dependency graph from the names each literal needs and binds: add_literal, captures, connected parts, ordering, the body built, and the unification queue. Collecting names from the syntax tree and splitting a unification are not modelled. Proved under: no name bound twice, no assigned function argument. Missing: circles are dropped silently, doubly bound names repeat literals, bodies without unification or scan are left as written."
  },
  {
   "property": "C46",
   "status": "partial",
   "theorems": [
    "C46_read",
    "C46_refused",
    "C46_exponents_refused"
   ],
   "note": "Every document whose numbers are plain integers or decimals with a fraction is read as the value it denotes, last member of each name winning in document order; exactly the documents with other numbers (1e5, 1.5E3) are refused, though they are valid JSON."
  },
  {
   "property": "C47",
   "status": "partial",
   "theorems": [
    "C47_calendar",
    "C47_clock_date",
    "C47_date",
    "C47_clock_first_day_refuted",
    "C47_unknown_zone_refuted",
    "C47_not_an_instant",
    "C47_add_date_partial",
    "C47_add_date_nothing",
    "C47_add_date_years_refuted",
    "C47_add_date_days_refuted",
    "C47_diff_partial",
    "C47_diff_symmetric",
    "C47_diff_year_refuted",
    "C47_diff_months_refuted",
    "C47_diff_far_refuted",
    "C47_format",
    "C47_format_fraction_refuted",
    "C47_weekday",
    "C47_weekday_layout_refuted",
    "C47_duration_exact_partial",
    "C47_duration_close",
    "C47_duration_decimal_refuted",
    "C47_duration_rejects",
    "C47_duration_zero",
    "C47_now_constant"
   ],
   "note": "Calendar conversions proved against an independent day-by-day calendar for all day numbers; clock/date recompose every instant of every zone; add_date inside the library's year range (it wraps outside: refuted); diff parts recompose with 365-day years (calendar year and month range refuted); durations exact for whole terms, close in general, decimals refuted. Parsing with a layout and the text of zoned layouts rest on std::chrono and are not modelled."
  },
  {
   "property": "C48",
   "status": "partial",
   "theorems": [
    "C48_reading",
    "C48_lossless",
    "C48_sprintf_partial",
    "C48_errors_partial",
    "C48_binary_refuted"
   ],
   "note": "How a single value is printed is a parameter. The claim that only missing arguments are errors is false: %d and %f reject arguments of another kind, and %b always throws."
  },
  {
   "property": "C49",
   "status": "proved",
   "theorems": [
    "C49_equality_test"
   ],
   "note": "For well-formed values whose numbers lie in a domain where the double oracle converts; integers of any size are such a domain."
  },
  {
   "property": "C50",
   "status": "proved",
   "theorems": [
    "C50_negation"
   ],
   "note": "For every body whose run ends in the model (no exception, fault or exhausted fuel)."
  },
  {
   "property": "C51",
   "status": "proved",
   "theorems": [
    "C51_indexing",
    "C51_indexing_is_deterministic"
   ],
   "note": "Keys that are floats are excluded, and arrays longer than 2^32."
  },
  {
   "property": "C52",
   "status": "proved",
   "theorems": [
    "C52_building",
    "C52_length"
   ],
   "note": ""
  },
  {
   "property": "C53",
   "status": "proved",
   "theorems": [
    "C53_tests"
   ],
   "note": ""
  },
  {
   "property": "C54",
   "status": "partial",
   "theorems": [
    "C54_parse",
    "C54_parts",
    "C54_builtin",
    "C54_raw_path_refuted",
    "C54_escaping_refuted"
   ],
   "note": "Full characterisation of uri.parse and uri.is_valid; RE2's refusal of text that is not UTF-8 is not modelled. Refuted: raw_path is the decoded path when the path is canonically encoded, and the parts are not escaped."
  },
  {
   "property": "C55",
   "status": "partial",
   "theorems": [
    "C55_range",
    "C55_zero_refuted",
    "C55_negative_refuted"
   ],
   "note": "Proved for bounds of 64 bits; zero divides by zero and negative bounds wrap. The generator is an oracle."
  },
  {
   "property": "C56",
   "status": "partial",
   "theorems": [
    "C56_round_trip",
    "C56_equal",
    "C56_total",
    "C56_canonical",
    "C56_options",
    "C56_key_text_refuted",
    "C56_float_text_refuted",
    "C56_option_text_refuted",
    "C56_unmarshal"
   ],
   "note": "Proved for values with string keys and numbers in the two readable forms, relative to the library reading back what it prints. False for keys 1 and \"1\" together and for floats printed with a bare exponent; option texts are used in escaped form."
  },
  {
   "property": "C57",
   "status": "partial",
   "theorems": [
    "C57_standard",
    "C57_unknown_partial",
    "C57_distinct",
    "C57_unknown_refuted"
   ],
   "note": "All standard names resolve to their builtin and arity. All other names are unknown except the odd ones listed in odd_name, where aliases, exceptions and undefined behaviour are shown."
  },
  {
   "property": "C58",
   "status": "partial",
   "theorems": [
    "C58_same_program",
    "C58_names",
    "C58_verified_exactly",
    "C58_verified_partial",
    "C58_number_refuted",
    "C58_duplicate_name_refuted"
   ],
   "note": "Loading says the same program, with an injective slot assignment; names; verification holds exactly when every number literal sits below the slot count in the string table. That it always holds is refuted: MakeNumberRef string indices are compared with local_count."
  },
  {
   "property": "C59",
   "status": "partial",
   "theorems": [
    "C59_answers",
    "C59_errors",
    "C59_unambiguous",
    "C59_memory",
    "C59_sound_partial",
    "C59_complete_partial",
    "C59_complete_text_partial",
    "C59_exact_without_star",
    "C59_sound_refuted",
    "C59_complete_refuted",
    "C59_symmetric_refuted"
   ],
   "note": "Ends with an answer, accepts exactly the globs, exact for patterns without * (no merged +, no empty set). In general soundness, completeness and symmetry are refuted with witnesses; what remains true is proved."
  },
  {
   "property": "C60",
   "status": "partial",
   "theorems": [
    "C60_patterns",
    "C60_is_valid",
    "C60_match",
    "C60_ends",
    "C60_find_n",
    "C60_find_n_prefix",
    "C60_find_n_complete",
    "C60_find_all",
    "C60_find_all_agrees_partial",
    "C60_find_all_agrees_refuted",
    "C60_split_partial",
    "C60_split_literal",
    "C60_split_refuted",
    "C60_template_parts",
    "C60_template_refuted",
    "C60_escapes_refuted",
    "C60_replace"
   ],
   "note": "Errors, ends, find_n (bounded, ordered, complete) and the template's parts are proved for every library. Partial: split ends only without empty matches at the front, find_all agrees with find_n only for patterns without empty matches that do not look back; templates are not literal; each failure is refuted by name."
  },
  {
   "property": "C61",
   "status": "partial",
   "theorems": [
    "C61_accepts",
    "C61_complete_partial",
    "C61_results",
    "C61_pinned",
    "C61_forged",
    "C61_public_key_refuted",
    "C61_ignored",
    "C61_constraints_refuted",
    "C61_verify",
    "C61_verify_complete_partial",
    "C61_verify_results",
    "C61_decode",
    "C61_decode_results",
    "C61_malformed_refuted",
    "C61_malleable_refuted",
    "C61_sign",
    "C61_sign_verify",
    "C61_sign_verify_hmac",
    "C61_sign_decode",
    "C61_encode_sign_partial",
    "C61_encode_sign_refuted",
    "C61_result_claims"
   ],
   "note": "Soundness of decode_verify and verify for every library, exactness of decode, results, pinned algorithms and round trips of signing are proved. Partial: completeness for PEM keys and HMAC secrets only; the algorithm confusion, ignored constraints, exceptions, padding and the injection in encode_sign are refuted by name."
  },
  {
   "property": "C62",
   "status": "partial",
   "theorems": [
    "C62_round_trip_partial",
    "C62_saved",
    "C62_data",
    "C62_names",
    "C62_files",
    "C62_data_refuted",
    "C62_crash_refuted",
    "C62_description_refuted",
    "C62_names_refuted",
    "C62_outside_refuted",
    "C62_order_refuted"
   ],
   "note": "The round trip is proved for every complete bundle whose data does not look like a plan, with an exact characterisation of such data. Partial: the texts of declarations and file names must need no escape; the loss of data, the crash, escapes, colliding names, files outside and order are refuted by name."
  },
  {
   "property": "C63",
   "status": "partial",
   "theorems": [
    "C63_complete",
    "C63_set",
    "C63_object_partial",
    "C63_lifted",
    "C63_built",
    "C63_calls_partial",
    "C63_entry",
    "C63_query_partial",
    "C63_conflict_refuted",
    "C63_object_bodies_refuted"
   ],
   "note": "Proved for complete rules and functions, sets, and objects with one variable key, for every body; C63_query_partial goes from the text of an entry point's plan to the answer of run_entrypoint. Partial: members with constant keys, longer paths of keys and rules merged with data are modelled but not proved; the values of an object rule must be defined; in C63_query_partial the entry point consists of one call of the rule; bodies chained to one head do not conflict (refuted), members with several bodies do not compile (refuted)."
  },
  {
   "property": "C64",
   "status": "partial",
   "theorems": [
    "C64_function",
    "C64_expressions",
    "C64_reported",
    "C64_lowered",
    "C64_built",
    "C64_query_partial",
    "C64_statements_refuted"
   ],
   "note": "Proved for every query with an expression. Partial: errors are not characterised; the function hands over its list with AssignVar, where the compiler emits AssignVarOnce and relies on both locals sharing one node (QueryModel says why); a query without an expression lists nothing (refuted)."
  },
  {
   "property": "C65",
   "status": "partial",
   "theorems": [
    "C65_term",
    "C65_query",
    "C65_scope",
    "C65_complete",
    "C65_set",
    "C65_object",
    "C65_ask_partial",
    "C65_policy_partial",
    "C65_values",
    "C65_undefined_refuted",
    "C65_object_refuted",
    "C65_equals_refuted"
   ],
   "note": "Proved from the source of a rule to the answer of run_query (C65_ask_partial), and for policies of complete, set and object rules that refer to each other (C65_policy_partial, with an input given; C65_values: the values exist and are unique). Partial: one body for each head, object rules with one variable key; functions with arguments, `with`, `print`, template strings and destructuring are not in the source language of the model; builtins are total on defined arguments; errors are not characterised. The statement is refuted for variables that are undefined (C65_undefined_refuted, C65_object_refuted) and for false comparisons inside terms (C65_equals_refuted)."
  },
  {
   "property": "C66",
   "status": "partial",
   "theorems": [
    "C66_walk",
    "C66_one_reading",
    "C66_count",
    "C66_expressions",
    "C66_binding",
    "C66_beyond",
    "C66_errors",
    "C66_undefined",
    "C66_shown",
    "C66_unbound_refuted",
    "C66_range_refuted",
    "C66_ok_refuted",
    "C66_text_refuted",
    "C66_null_refuted"
   ],
   "note": "The walk and the accessors are proved for all answers whose values contain no error nodes. Refuted parts: NULL for unbound variables and indices without a result (an exception instead), ok after an exception, one text for one string, null outputs. The text of an answer as JSON is not in this property."
  },
  {
   "property": "C67",
   "status": "partial",
   "theorems": [
    "C67_scalars",
    "C67_integer",
    "C67_roundtrip",
    "C67_value",
    "C67_refused",
    "C67_exact_refuted",
    "C67_prefix_refuted",
    "C67_int_refuted",
    "C67_minus_refuted",
    "C67_range_refuted"
   ],
   "note": "Proved for all numerals in the range: the value to one part in 10^15, integers exactly, refusal exactly of texts that no number begins (texts that start with a quote and \"-\" left out). Refuted parts: exactness up to 15 digits, texts that go on after the number, Int results that are integers, no exceptions. std::stod is modelled as glibc's strtod in the C locale; exactly representable denormals are left out."
  },
  {
   "property": "C68",
   "status": "partial",
   "theorems": [
    "C68_print",
    "C68_print_type",
    "C68_display",
    "C68_template_partial",
    "C68_conflict",
    "C68_template_type",
    "C68_escapes_refuted",
    "C68_quotes_refuted"
   ],
   "note": "print's lines and the type errors are proved in full. C68_template_partial: the content of the result needs displayed parts without backslashes (without that it is refuted, C68_quotes_refuted) and parts without raw control characters: how those are escaped (escape_char below 32) is modelled, but no theorem speaks of it, and three edits of it went unnoticed (seeded/LOG.jsonl). Strings printed as what they stand for is refuted (C68_escapes_refuted). How the compiler wraps arguments and expressions in sets is not part of the model."
  },
  {
   "property": "C69",
   "status": "partial",
   "theorems": [
    "C69_digest_partial",
    "C69_hmac_partial",
    "C69_equal",
    "C69_verify",
    "C69_types",
    "C69_escapes_refuted"
   ],
   "note": "For all hash functions. The _partial theorems are for strings without escapes; with escapes the claim is refuted (C69_escapes_refuted). Failures inside OpenSSL and keys of 2 GiB and more are left out."
  },
  {
   "property": "C70",
   "status": "partial",
   "theorems": [
    "C70_equivalent_partial",
    "C70_no_solution_lost",
    "C70_pattern",
    "C70_wait",
    "C70_order",
    "C70_assigned_partial",
    "C70_body_partial",
    "C70_ends",
    "C70_ignored_refuted",
    "C70_sizes_refuted",
    "C70_objects_partial",
    "C70_objects_wait",
    "C70_objects_wait_refuted",
    "C70_objects_keys_refuted"
   ],
   "note": "No solution is lost, in all cases; waiting changes nothing; the order is runnable. The _partial theorems assume that no nested failure was ignored (shown for patterns matched against known terms: C70_pattern; refuted in general: C70_ignored_refuted, C70_sizes_refuted). Values are compared by identity. For objects with distinct constant keys see C70_objects_*: waiting there keeps literals (C70_objects_wait_refuted), and a repeated key on the left hides keys of the right (C70_objects_keys_refuted). Nested objects, objects with variable keys, references, comprehensions, calls and with-clauses are left out."
  }
 ]
}
