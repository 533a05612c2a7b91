{
 "claims": [
  {
   "property": "C01",
   "status": "proved",
   "theorems": [
    "C01_tokenize_json"
   ],
   "note": "For every concrete syntax tree, layout and spelling."
  },
  {
   "property": "C02",
   "status": "proved",
   "theorems": [
    "C02_token_sound"
   ],
   "note": "Arbitrary bytes and positions."
  },
  {
   "property": "C03",
   "status": "proved",
   "theorems": [
    "C03_step_progress",
    "C03_scan_bound",
    "C03_error_keeps_position"
   ],
   "note": ""
  },
  {
   "property": "C04",
   "status": "proved",
   "theorems": [
    "C04_seek_replays",
    "C04_seek_to_start",
    "C04_suffix_only"
   ],
   "note": ""
  },
  {
   "property": "C05",
   "status": "proved",
   "theorems": [
    "C05_unescape_inverts_escaping",
    "C05_parse_escaped_literal"
   ],
   "note": ""
  },
  {
   "property": "C06",
   "status": "proved",
   "theorems": [
    "C06_unescape_memory_safe"
   ],
   "note": "Any scratch buffer size."
  },
  {
   "property": "C07",
   "status": "proved",
   "theorems": [
    "C07_only_legal_escapes_refuted",
    "C07_accepted_escapes",
    "C07_bad_surrogate_reads_as_empty_refuted"
   ],
   "note": "The property is false for the code: refuted, with an exact characterisation of the accepted bodies."
  },
  {
   "property": "C08",
   "status": "proved",
   "theorems": [
    "C08_integer_literal_exact",
    "C08_integer_literal_wraps",
    "C08_out_of_range_refuted"
   ],
   "note": "In-range part proved; out-of-range part refuted (values are reduced modulo 2^64)."
  },
  {
   "property": "C09",
   "status": "proved",
   "theorems": [
    "C09_layouts_exist",
    "C09_any_order"
   ],
   "note": "for all formulas, layouts, sessions with arbitrary order, repetition and nested loop runs"
  },
  {
   "property": "C10",
   "status": "proved",
   "theorems": [
    "C10_state_is_kleene",
    "C10_early_result_sound",
    "C10_waits_only_if_needed"
   ],
   "note": ""
  },
  {
   "property": "C11",
   "status": "proved",
   "theorems": [
    "C11_no_double_marking"
   ],
   "note": ""
  },
  {
   "property": "C12",
   "status": "proved",
   "theorems": [
    "C12_finalize",
    "C12_finalize_unreported_false"
   ],
   "note": "unreported loops take the value of their body with nothing reported, which is false only for bodies false on the empty report"
  },
  {
   "property": "C13",
   "status": "proved",
   "theorems": [
    "C13_iteration_local",
    "C13_loop_is_one_report"
   ],
   "note": ""
  },
  {
   "property": "C14",
   "status": "proved",
   "theorems": [
    "C14_merged_independent",
    "C14_merged_final"
   ],
   "note": ""
  },
  {
   "property": "C15",
   "status": "proved",
   "theorems": [
    "C15_validate_exact",
    "C15_laid_out_trees_accepted",
    "C15_validate_terminates",
    "C15_accepted_layout_refuted",
    "C15_validate_panics_refuted"
   ],
   "note": "the converse as first stated is false (child links are only range-checked, and validation can index past the end); exact characterisation proved instead"
  },
  {
   "property": "C16",
   "status": "proved",
   "theorems": [
    "C16_tree_of_the_expressions",
    "C16_bucket_count",
    "C16_constants_only"
   ],
   "note": "Every successful compilation of any expression list."
  },
  {
   "property": "C17",
   "status": "proved",
   "theorems": [
    "C17_compilable_compiles",
    "C17_prefix_path_refuted",
    "C17_outer_variable_refuted",
    "C17_not_exists_in_loop_refuted",
    "C17_constant_in_loop_refuted",
    "C17_inner_loop_over_document_refuted",
    "C17_empty_connective_crashes"
   ],
   "note": "As stated the property is false of the code: five kinds of well-scoped expressions crash the compiler. Proved: every expression of an explicit syntactic class (compilable) that leaves those five kinds out compiles."
  },
  {
   "property": "C18",
   "status": "proved",
   "theorems": [
    "C18_exactly_the_mentioned_fields",
    "C18_defined_iff_supported",
    "C18_unsupported_crashes"
   ],
   "note": "exact set and no duplicates whenever it returns; it crashes exactly on expressions with TRUE, FALSE or NOT EXISTS nodes (so unconditional totality fails)"
  },
  {
   "property": "C19",
   "status": "proved",
   "theorems": [
    "C19_loop_free",
    "C19_paths",
    "C19_exists_named",
    "C19_basic",
    "C19_literal_document_refuted",
    "C19_function_of_absent_refuted",
    "C19_repeated_names_refuted",
    "C19_nested_operands_refuted"
   ],
   "note": "Without restriction false of the code (refuted four ways). Proved for all supported loop-free filters and all documents (objects, arrays, and scalars where no test names two paths) with distinct names in which no mentioned path leads to an empty container and arguments of multi-field functions are present; C19_basic gives the simple form for function-free filters."
  },
  {
   "property": "C20",
   "status": "proved",
   "theorems": [
    "C20_loop",
    "C28_loop_over_absent_refuted",
    "C28_negation_in_loop_refuted"
   ],
   "note": "For all supported loops, bodies (nested loops included), arrays of every length, on benign documents; the unrestricted claim fails for negated bodies with absent fields (refuted)."
  },
  {
   "property": "C21",
   "status": "proved",
   "theorems": [
    "C21_own_answer",
    "C21_loop_hides_indexes_refuted",
    "C21_loop_reveals_empty_refuted",
    "C21_constant_expression_refuted",
    "C21_true_in_list_refuted"
   ],
   "note": "Each expression's answer is its truth value and the one it has alone, for supported lists and benign documents; unrestricted claim refuted."
  },
  {
   "property": "C22",
   "status": "proved",
   "theorems": [
    "C22_reset_is_fresh",
    "C22_status_fresh_unless_raised",
    "C22_status_sticky_refuted",
    "C22_without_reset_refuted"
   ],
   "note": "Result and state proved equal after any history; the status flag part is false of the code (sticky), refuted with a witness."
  },
  {
   "property": "C23",
   "status": "proved",
   "theorems": [
    "C23_layout_and_order",
    "C23_respelled",
    "C23_container_text_refuted"
   ],
   "note": "For operands that are scalars; arrays and objects are compared by their text, so layout matters there (refuted)."
  },
  {
   "property": "C24",
   "status": "proved",
   "theorems": [
    "C24_unreferenced",
    "alike_answers",
    "C24_empty_object_refuted"
   ],
   "note": "For non-empty objects (the empty object differs, refuted). alike_answers covers unreferenced members inside array elements."
  },
  {
   "property": "C25",
   "status": "proved",
   "theorems": [
    "C25_skip_lands_after_value"
   ],
   "note": ""
  },
  {
   "property": "C26",
   "status": "proved",
   "theorems": [
    "C26_wellformed_answers",
    "C26_malformed_crash_refuted",
    "C26_constant_filter_refuted"
   ],
   "note": "False of the code for malformed documents and for lists of constants only (refuted with witnesses). Proved: on every well-formed JSON document (any kind, repeated names, empty containers) every new or reset matcher of every compiled filter without division or modulo answers, with no error and no crash."
  },
  {
   "property": "C27",
   "status": "proved",
   "theorems": [
    "C27_match_terminates"
   ],
   "note": "Every filter list that compiles and has conditions (not values) as operands of NOT/AND/OR, as loop bodies and as filters; every matcher state and every byte string."
  },
  {
   "property": "C28",
   "status": "proved",
   "theorems": [
    "C28_absent",
    "C20_loop",
    "C28_negation_in_loop_refuted",
    "C28_loop_over_absent_refuted"
   ],
   "note": "Proved outside loops, and inside loops through the meaning used in C20_loop for atoms not below a negation; false below a negation in a loop (refuted)."
  },
  {
   "property": "C29",
   "status": "proved",
   "theorems": [
    "C29_independent",
    "C29_stale_value_refuted"
   ],
   "note": "Proved when comparisons of several element fields find all of them present; otherwise a value of an earlier element is used (refuted)."
  },
  {
   "property": "C30",
   "status": "proved",
   "theorems": [
    "C30_nested_true_is_false",
    "C30_constants",
    "C30_nested_true_refuted"
   ],
   "note": "False of the code for TRUE (refuted); exact: a nested TRUE compiles to the same program as FALSE, and FALSE keeps its value."
  },
  {
   "property": "C31",
   "status": "proved",
   "theorems": [
    "C31_empty_loop",
    "C31_empty_array_refuted"
   ],
   "note": "False of the code (refuted); loops over empty arrays do give the right answer."
  },
  {
   "property": "C32",
   "status": "proved",
   "theorems": [
    "C32_antisymmetric",
    "C32_documents",
    "C32_unsigned_constant_refuted"
   ],
   "note": "as first stated it fails for a user-defined unsigned constant against a non-positive signed integer (refuted); proved for every other pair that is not two constants"
  },
  {
   "property": "C33",
   "status": "proved",
   "theorems": [
    "C33_signed",
    "C33_unsigned",
    "C33_mixed",
    "C33_zero_refuted"
   ],
   "note": "mixed signedness: exact condition under which it holds, and a refutation of the unconditional claim"
  },
  {
   "property": "C34",
   "status": "proved",
   "theorems": [
    "C34_equals_is_compare_zero",
    "C34_symmetric",
    "C34_equal_iff_identical",
    "C34_equivalence",
    "C34_float_reflexive",
    "C34_nan_refuted",
    "C34_float_transitivity_refuted"
   ],
   "note": "equivalence on every exact type; refuted for floats"
  },
  {
   "property": "C35",
   "status": "proved",
   "theorems": [
    "C35_total_preorder",
    "C35_fallback",
    "C35_compare_transitivity_refuted"
   ],
   "note": "the collation is a total preorder and is what comparison falls back to; comparison with conversions is not transitive (refuted)"
  },
  {
   "property": "C36",
   "status": "proved",
   "theorems": [
    "C36_sound",
    "C36_complete",
    "C36_zero_refuted",
    "C36_negation",
    "C36_absolute",
    "C36_absolute_refuted"
   ],
   "note": ""
  },
  {
   "property": "C37",
   "status": "proved",
   "theorems": [
    "C37_panics_exactly",
    "C37_nonzero_divisor",
    "C37_unary_never",
    "C37_division_by_zero_refuted"
   ],
   "note": "as first stated refuted; exact characterisation of the crashes proved"
  },
  {
   "property": "C38",
   "status": "proved",
   "theorems": [
    "C38_compact_truth",
    "C38_compact_loop_exact",
    "C38_compact_idempotent",
    "C38_compact_clean",
    "C38_compact_keeps",
    "C38_compact_match",
    "C38_compact_any_refuted",
    "C38_compact_every_refuted"
   ],
   "note": "False of the code where a loop over a constant body meets an empty or absent array (refuted). Proved: meaning is kept on every document where each such loop reached through and/or runs over an element (condition exact for one loop); compacting is idempotent, leaves no constant next to and/or, and the matcher on the compacted list answers the truth of the original list."
  },
  {
   "property": "C39",
   "status": "proved",
   "theorems": [
    "C39_roundtrip",
    "C39_accepts_exactly",
    "C39_unambiguous"
   ],
   "note": "Over decoded JSON values (encoding/json itself is not modelled)."
  },
  {
   "property": "C40",
   "status": "proved",
   "theorems": [
    "C40_shaped_answers",
    "C40_short_refuted",
    "C40_empty_refuted",
    "C40_func_refuted"
   ],
   "note": "False of the code: arrays with too few entries, empty arrays, null, and non-array function parameters crash it (refuted). Proved: otherwise it answers with an expression or an error."
  },
  {
   "property": "C41",
   "status": "proved",
   "theorems": [
    "C41_stats_exact",
    "C41_stats_add",
    "C41_nested_sound",
    "C41_nested_two",
    "C41_nested_refuted",
    "C41_not_refuted"
   ],
   "note": "False of the code in two places (refuted): NOT, LIKE, constants, times and regexes crash it, loops nested three deep are not counted as nested. Proved: exact counts on all other expressions, crash exactly on those kinds, nested count exact up to depth two."
  },
  {
   "property": "C42",
   "status": "proved",
   "theorems": [
    "C42_remove",
    "C42_escaped_name_refuted",
    "C42_duplicate_names_refuted"
   ],
   "note": "Exact for every object and layout and distinct names: output, values, count. Arrays ending in a plain string make the call fail (part of the theorem); names written with escapes are not removed and repeated names misread the text (refuted)."
  },
  {
   "property": "C43",
   "status": "proved",
   "theorems": [
    "C43_nothing_removed",
    "C43_string_end_refuted"
   ],
   "note": "Unless an array ends in a plain string, when the call fails (refuted)."
  },
  {
   "property": "C44",
   "status": "proved",
   "theorems": [
    "C44_in_bounds",
    "C44_short_refuted"
   ],
   "note": "For a destination at least as long as the source; a shorter one panics (refuted)."
  },
  {
   "property": "C45",
   "status": "proved",
   "theorems": [
    "C45_agree",
    "C45_several_refuted",
    "C45_missing_refuted",
    "C45_object_loop_refuted",
    "C45_integers_refuted",
    "C45_order_refuted"
   ],
   "note": "False without restriction (refuted five ways). Proved: wherever the reference matcher answers, it gives for each expression the answer the fast matcher gives (and the same overall result for a single expression), for filters whose fields are all present, numbers equal or apart by the tolerance, integers below 2^53, ordered strings printable, loops over arrays; the decoding of the document is a relation (members in any order)."
  },
  {
   "property": "C46",
   "status": "proved",
   "theorems": [
    "C46_translates",
    "C46_match",
    "C46_true_refuted",
    "C46_or_true_refuted",
    "C46_missing_refuted",
    "C46_empty_refuted",
    "C46_division_refuted"
   ],
   "note": "C46_translates: every parsed filter is accepted exactly when its patterns and dates are, and the expression it becomes has the truth value of the filter as written on every document. C46_match carries this to the matcher's answer under stated conditions; without them refuted (TRUE matches nothing, and so on). How trees come from text: C62."
  },
  {
   "property": "C47",
   "status": "proved",
   "theorems": [
    "C47_paths",
    "C47_paths_refuted"
   ],
   "note": "Proved for paths of any length written as one word (plain or back-quoted names, then indexes not starting with 0); false otherwise (refuted): an index before a name is repeated, index 0 and names containing an operator are refused, repeated spaces in names are lost."
  },
  {
   "property": "C48",
   "status": "proved",
   "theorems": [
    "C48_alone",
    "C48_exclusive",
    "C48_calm",
    "C48_refuted"
   ],
   "note": "False of the code: with the filter a = \"5\", a schedule of two matchers gives one the other's number (refuted, in both directions). Proved: right answers for any number of matchers under every schedule that does not interrupt a conversion of a number to text, and under every schedule when all filters but at most one only compare with constants that are not texts."
  },
  {
   "property": "C49",
   "status": "proved",
   "theorems": [
    "C49_match",
    "C49_string_constant"
   ],
   "note": "C49_match goes through compiling and matching; documents whose names are decodable and distinct."
  },
  {
   "property": "C50",
   "status": "proved",
   "theorems": [
    "C50_total_order",
    "C50_byte_order_refuted",
    "C50_characters",
    "C50_bytes"
   ],
   "note": "Total order proved. Byte order is refuted: strings are compared in quoted form, and a newline (escaped) sorts after A. Corrected: strings of printable characters other than the quote and the backslash, in the document (however spelled) or constant, compare in a filter by their characters, which is the order of their bytes."
  },
  {
   "property": "C51",
   "status": "proved",
   "theorems": [
    "C51_boolean_words",
    "C51_bars_refuted"
   ],
   "note": "for texts without a bar; with bars refuted"
  },
  {
   "property": "C52",
   "status": "proved",
   "theorems": [
    "C52_time_compiles",
    "C52_time_refuted"
   ],
   "note": "False of the code for dates with other separators than dashes (refuted, assuming time.Parse refuses 2018/02/03T00:00:00Z); proved for RFC 3339 times."
  },
  {
   "property": "C53",
   "status": "proved",
   "theorems": [
    "C53_builds",
    "C53_pattern_refuted",
    "C53_prefix_refuted"
   ],
   "note": "False of the code for patterns the regular expression library refuses and for conditions comparing a field with a part of itself (refuted); proved for all other filters."
  },
  {
   "property": "C54",
   "status": "proved",
   "theorems": [
    "C54_grouping",
    "C54_precedence_refuted",
    "C54_spelling_refuted",
    "C54_string_refuted",
    "C54_presence_refuted",
    "C54_parens_refuted"
   ],
   "note": "False of the code (refuted five ways). Proved: the exact grouping of every chain of tests, of any length and any mixture of operators."
  },
  {
   "property": "C55",
   "status": "proved",
   "theorems": [
    "C55_strings",
    "C55_integers",
    "C55_decimals",
    "C55_strings_refuted"
   ],
   "note": "Proved for strings of words separated by single spaces that do not look like a number, int64 integers, and fractions; otherwise false (refuted)."
  },
  {
   "property": "C56",
   "status": "proved",
   "theorems": [
    "C56_compared",
    "C56_constants_refuted"
   ],
   "note": "Proved for constants compared with a field; a constant joined by AND or OR is dropped (refuted)."
  },
  {
   "property": "C57",
   "status": "proved",
   "theorems": [
    "C57_chains",
    "C57_crash_refuted"
   ],
   "note": "False of the code (refuted with three filters); proved for every chain of tests."
  },
  {
   "property": "C58",
   "status": "proved",
   "theorems": [
    "C58_ends",
    "C58_chains",
    "C58_endless_refuted"
   ],
   "note": "False of the code: a text on which parsing never ends, for every amount of fuel (refuted). Proved: parsing ends on every text that has no quote, or no opening, or no closing parenthesis (well-formed or not), and succeeds on every chain of tests."
  },
  {
   "property": "C59",
   "status": "proved",
   "theorems": [
    "C59_all",
    "C59_any"
   ],
   "note": "From text through parser, compiler and matcher, for well-formed object and array documents with distinct names where no mentioned path leads to an empty container (tests with calls: no path continues another in the same test, and with several paths those inside calls are present)."
  },
  {
   "property": "C60",
   "status": "proved",
   "theorems": [
    "C60_calls",
    "C60_second_refuted"
   ],
   "note": "Proved for calls nested to any depth in the first argument, as subject of a test, right side or both; a call as second argument loses its arguments (refuted)."
  },
  {
   "property": "C61",
   "status": "proved",
   "theorems": [
    "C61_accepts",
    "C61_reuse",
    "C61_all"
   ],
   "note": "For every sequence of filter lists on one transformer and every use of the resulting matchers, on arbitrary bytes; a transformer that crashed is not used again."
  },
  {
   "property": "C62",
   "status": "proved",
   "theorems": [
    "C62_reads",
    "C62_distinct",
    "C62_match",
    "C62_sum_refuted",
    "C62_right_refuted",
    "C62_negative_refuted",
    "C62_quoted_refuted",
    "C62_left_refuted",
    "C62_signs_refuted",
    "C62_operators"
   ],
   "note": "Proved for every filter whose words are not mistaken for others, from tokens to tree and on to the matcher's answer. False of the code otherwise (refuted): of a longer sum only the last term counts, a number times a field is refused on the right, a string spelled like a word of the grammar is that word. The grammar is the struct tags; how the parsing library (not in the repository) interprets them is stated in MGrammar, and agrees with the filters in filterExprParser_test.go; the scanner from text to tokens is not modelled."
  },
  {
   "property": "C63",
   "status": "proved",
   "theorems": [
    "C63_total"
   ],
   "note": "Every token sequence. Building the matcher from the expression can still crash: see C53."
  },
  {
   "property": "C64",
   "status": "proved",
   "theorems": [
    "C64_reads",
    "C64_text",
    "C64_match",
    "C64_parentheses",
    "C64_written",
    "C64_quoted_refuted"
   ],
   "note": "Every token sequence and every library setting. The converse, that what is written is accepted, is C62. A quoted parenthesis is taken for a parenthesis (refuted), so balance is proved for texts without one."
  },
  {
   "property": "C65",
   "status": "proved",
   "theorems": [
    "C65_status",
    "C65_all_straight",
    "C65_doubt_is_reported",
    "C65_single",
    "C65_same_kind",
    "C65_container",
    "C65_unsigned_refuted"
   ],
   "note": "Under the conditions of C21. A status raised before stays raised over Reset (C22). An unsigned constant above the signed range and a negative number count as incomparable although both are numbers (refuted for unsigned constants). The slow matcher never reports a status."
  },
  {
   "property": "C66",
   "status": "proved",
   "theorems": [
    "C66_settled",
    "C66_truncated",
    "C66_whole",
    "C66_settled_truth"
   ],
   "note": "Settled is a sufficient condition (tests on several members are left to the end of the document). The tail must not continue a number."
  },
  {
   "property": "C67",
   "status": "proved",
   "theorems": [
    "C67_broken_is_reported_refuted",
    "C67_prefix_agrees_refuted",
    "C67_unfinished",
    "C67_prefix",
    "C67_trailing",
    "C67_trailing_answers"
   ],
   "note": "False of the code (refuted with witnesses); proved what it does instead, for every text that ends behind a member of the outermost object and for every text behind a complete document. A text that ends elsewhere mostly crashes the matcher (C26; examples only)."
  },
  {
   "property": "C68",
   "status": "proved",
   "theorems": [
    "C68_any_kind",
    "C68_scalar",
    "C68_array",
    "C68_position",
    "C68_every_kind_refuted"
   ],
   "note": "False of the code in two cases (refuted with witnesses): a scalar document with a test that names two paths, and an array document with a loop over an absent field whose body names other fields. Proved for all other documents, on which the conditions of C21 are the same as for objects."
  },
  {
   "property": "C69",
   "status": "proved",
   "theorems": [
    "C69_calendar",
    "C69_order",
    "C69_before",
    "C69_string",
    "C69_separators",
    "C69_separators_refuted",
    "C69_libraries"
   ],
   "note": "time.Parse and strconv.IsPrint are library calls, so what they do on RFC 3339 texts and printable ASCII is a hypothesis (SDate.libraries), shown to be satisfiable by C69_libraries. False of the code for dates with other separators than dashes (refuted with a witness); proved what is answered for them."
  },
  {
   "property": "C70",
   "status": "proved",
   "theorems": [
    "C70_no_false_difference",
    "C70_by_value",
    "C70_decimals",
    "C70_exact_refuted",
    "C70_libraries"
   ],
   "note": "False of the code for close numbers (refuted with a witness). What strconv.ParseFloat returns is a hypothesis (SNumber.parsesDecimals: a nearest double), shown to be satisfiable by C70_libraries. Unsigned constants and integers beyond 2^53 are in C33."
  },
  {
   "property": "C71",
   "status": "proved",
   "theorems": [
    "C71_prints",
    "C71_exact",
    "C71_no_panic",
    "C71_meaning",
    "C71_stable",
    "C71_distinct_refuted"
   ],
   "note": "That the text determines the meaning is false of the code (refuted with two witnesses). The formatting of floating-point numbers is the parameter x_fmtV."
  },
  {
   "property": "C72",
   "status": "proved",
   "theorems": [
    "C72_spacing",
    "C72_same",
    "C72_compare",
    "C72_name_refuted",
    "C72_call_refuted",
    "C72_join_refuted"
   ],
   "note": "False of the code in the three cases named in the statement (refuted with witnesses); proved for all other spacings. White space inside string constants counts as one space (C55)."
  },
  {
   "property": "C73",
   "status": "proved",
   "theorems": [
    "C73_balanced",
    "C73_turned_down",
    "C73_call_refuted",
    "C73_quotes_refuted"
   ],
   "note": "For texts without quotes and calls; with calls it is false of the code (refuted with a witness), and within quotes parentheses mean nothing. Turned down means an error or one of the crashes of C57."
  },
  {
   "property": "C74",
   "status": "proved",
   "theorems": [
    "C74_text",
    "C74_meaning",
    "C74_constants",
    "C74_empty_refuted",
    "C74_constants_refuted",
    "C74_names_refuted"
   ],
   "note": "For plain names and constants that can be told apart; otherwise false of the code (refuted three ways). The formats of floating-point numbers, times and values of other types are a parameter."
  },
  {
   "property": "C75",
   "status": "proved",
   "theorems": [
    "C75_reuse",
    "C75_reset",
    "C75_refused_refuted"
   ],
   "note": "json.Unmarshal is a parameter. The results of expressions after a refused document are stale (refuted with a witness)."
  },
  {
   "property": "C76",
   "status": "proved",
   "theorems": [
    "C76_meaning",
    "C76_only",
    "C76_no_crash",
    "C76_shadow_refuted",
    "C76_crash_refuted"
   ],
   "note": "False of the code for variables used twice and for constructs the matcher lacks (refuted with witnesses). json.Unmarshal is a parameter; a loop over an object takes the members in the order the parameter gives."
  },
  {
   "property": "C77",
   "status": "proved",
   "theorems": [
    "C77_shown",
    "C77_conditions",
    "C77_constants_refuted",
    "C77_pcre_refuted"
   ],
   "note": "False of the code for PCRE constants and for lists of constants only (refuted). The formats of floating-point numbers and times are a parameter. A condition whose operand has a line break is shown, but indented inside."
  },
  {
   "property": "C78",
   "status": "proved",
   "theorems": [
    "C78_round",
    "C78_wrong_refuted",
    "C78_unique",
    "C78_integer",
    "C78_filter"
   ],
   "note": "False of the code exactly on the doubles listed (C78_wrong_refuted). What the conversion to int gives beyond 64 bits is a parameter of which only the range is used. The filter theorem assumes the parameter for strconv.ParseFloat is correctly rounded, as C70."
  },
  {
   "property": "C79",
   "status": "proved",
   "theorems": [
    "C79_add",
    "C79_sub",
    "C79_mul",
    "C79_div",
    "C79_abs",
    "C79_degrees",
    "C79_radians",
    "C79_filter",
    "C79_product"
   ],
   "note": "Go arithmetic on float64 is taken to be the SpecFloat operations, without fused multiply-add. Overflowing results, infinities and NaN are not covered. The filter theorem assumes the parameter for strconv.ParseFloat is correctly rounded, as C70. It covers sums, differences and products, not quotients; operands of products have at most three decimal places and size up to a thousand."
  },
  {
   "property": "C80",
   "status": "proved",
   "theorems": [
    "C80_says",
    "C80_decided",
    "C80_loop"
   ],
   "note": "The meaning is stated on the decoded filter and the text of the document, not on the model's expressions. Decoding the text of the filter itself (encoding/json) is a library call and not modelled; a number in the filter is taken to be the nearest double. A loop is the whole filter, and its body has no not, notequals or notexists; loops inside other filters, functions, comparisons of a field with a part of itself, times, regular expressions and the order of strings that are not printable ASCII are not covered here (see C19, C20, C39, C50, C69). The parameter for strconv.ParseFloat is assumed to be correctly rounded, as C70, and the one for unicode.IsPrint to accept the printable ASCII characters."
  },
  {
   "property": "C81",
   "status": "proved",
   "theorems": [
    "C81_says",
    "C81_decided"
   ],
   "note": "The meaning of a test is stated on the filter as written and the text of the document, without the evaluation functions of the model (C46 and C62 state it with them). Words are tokens: the scanner and the parsing library are as in C62. A sum, difference or product of two numbers, the negative of a field or its ABS stands on one side of a comparison. Not covered here: other arithmetic, functions other than DATE and ABS, regular expressions, the constant TRUE (refuted in C46), other comparisons of values of different kinds than a string that is no integer with an integer constant, and an integer of the document with a string constant. The parameters for strconv.ParseFloat, time.Parse and strconv.IsPrint are assumed to be as in C69 and C70."
  }
 ]
}