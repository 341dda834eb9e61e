{
 "claims": [
  {
   "property": "C01",
   "status": "proved",
   "theorems": [
    "C01_struct_is_sequence",
    "C01_struct_first_failure",
    "C01_any_field_parsers"
   ],
   "note": ""
  },
  {
   "property": "C02",
   "status": "proved",
   "theorems": [
    "C02_enum_is_ordered_choice",
    "C02_variant_failure",
    "C02_later_variants_irrelevant"
   ],
   "note": ""
  },
  {
   "property": "C03",
   "status": "proved",
   "theorems": [
    "C03_enum_failure_restores_stream",
    "C03_either_failure_restores_stream",
    "C03_absent_maybe_restores_stream",
    "C03_any_stops_after_last_item",
    "C03_separated_stops_after_last_item",
    "C03_grammars_are_lawful"
   ],
   "note": "Every grammar is lawful (lawful_pty); a failed enum/Either leaves the stream untouched; absent Maybe / end of Any / end of Separated leave the stream after the last accepted item."
  },
  {
   "property": "C04",
   "status": "proved",
   "theorems": [
    "C04_enum_reports_last_ending_error",
    "C04_either_reports_last_ending_error",
    "C04_reported_unique"
   ],
   "note": ""
  },
  {
   "property": "C05",
   "status": "proved",
   "theorems": [
    "C05_furthest_place",
    "C05_errors_point_at_places",
    "C05_furthest_refuted"
   ],
   "note": "The README promise is refuted for alternatives that run out of input at top level (C05_furthest_refuted); proved for sources where all alternatives fail at a place of the source (C05_furthest_place, C05_errors_point_at_places)."
  },
  {
   "property": "C06",
   "status": "proved",
   "theorems": [
    "C06_error_chain"
   ],
   "note": ""
  },
  {
   "property": "C07",
   "status": "proved",
   "theorems": [
    "C07_print_is_what_was_consumed",
    "C07_words_are_kept",
    "C07_to_tokens_by_type",
    "C07_parsed_to_tokens_by_type"
   ],
   "note": ""
  },
  {
   "property": "C08",
   "status": "proved",
   "theorems": [
    "C08_every_token_is_printed",
    "C08_nothing_left"
   ],
   "note": ""
  },
  {
   "property": "C09",
   "status": "proved",
   "theorems": [
    "C09_parsed_values_are_typed",
    "C09_parsed_values_are_typed_no_lit",
    "C09_reparse_exact",
    "C09_reparse_exact_no_lit",
    "C09_reparse_of_printed",
    "C09_reparse_spacing_free",
    "C09_spacing_refuted",
    "C09_minus_zero_refuted"
   ],
   "note": "Without the proviso the claim is refuted (C09_spacing_refuted, C09_minus_zero_refuted); for ll1 grammars it holds with no proviso (C09_reparse_exact)."
  },
  {
   "property": "C10",
   "status": "proved",
   "theorems": [
    "C10_parse_of_print",
    "C10_values_print",
    "C10_print_injective",
    "C10_unchecked_refuted"
   ],
   "note": ""
  },
  {
   "property": "C11",
   "status": "proved",
   "theorems": [
    "C11_group_accepts",
    "C11_group_rejects",
    "C11_leftovers_are_fatal",
    "C11_leftovers_are_recorded",
    "C11_leftovers_not_backtracked"
   ],
   "note": "Leftovers inside groups are recorded, not backtracked over, and make the whole parse fail (C11_leftovers_*)."
  },
  {
   "property": "C12",
   "status": "proved",
   "theorems": [
    "C12_maybe",
    "C12_maybe_committed_failure",
    "C12_maybe_print"
   ],
   "note": ""
  },
  {
   "property": "C13",
   "status": "proved",
   "theorems": [
    "C13_punctuated",
    "C13_punctuated_fails",
    "C13_punctuated_consumes_everything"
   ],
   "note": ""
  },
  {
   "property": "C14",
   "status": "proved",
   "theorems": [
    "C14_many",
    "C14_many_prints_items",
    "C14_many_items"
   ],
   "note": ""
  },
  {
   "property": "C15",
   "status": "proved",
   "theorems": [
    "C15_separated",
    "C15_separated_fails"
   ],
   "note": ""
  },
  {
   "property": "C16",
   "status": "proved",
   "theorems": [
    "C16_any",
    "C16_any_never_fails"
   ],
   "note": ""
  },
  {
   "property": "C17",
   "status": "proved",
   "theorems": [
    "C17_any_returns",
    "C17_separated_returns",
    "C17_punctuated_returns",
    "C17_any_returns_iff",
    "C17_separated_never_returns",
    "C17_any_of_nothing_never_returns",
    "C17_any_empty_never_returns",
    "C17_any_maybe_never_returns"
   ],
   "note": ""
  },
  {
   "property": "C18",
   "status": "proved",
   "theorems": [
    "C18_no_left_recursion_terminates",
    "C18_check_is_sound",
    "C18_check_whole_input",
    "C18_left_recursion_never_returns",
    "C18_left_recursive_variant_never_returns"
   ],
   "note": ""
  },
  {
   "property": "C19",
   "status": "proved",
   "theorems": [
    "C19_left_assoc",
    "C19_left_assoc_accepts_separated",
    "C19_left_assoc_folds_left",
    "C19_values_mean_the_left_fold"
   ],
   "note": ""
  },
  {
   "property": "C20",
   "status": "proved",
   "theorems": [
    "C20_right_assoc",
    "C20_right_assoc_accepts_separated",
    "C20_right_assoc_folds_right",
    "C20_agrees_with_right_recursion",
    "C20_converse_refuted",
    "C20_values_mean_the_right_fold"
   ],
   "note": "The converse (everything the right-recursive grammar accepts) is refuted by C20_converse_refuted and is not part of the property."
  },
  {
   "property": "C21",
   "status": "proved",
   "theorems": [
    "C21_prints_in_source_order",
    "C21_left_bijection",
    "C21_right_bijection"
   ],
   "note": ""
  },
  {
   "property": "C22",
   "status": "proved",
   "theorems": [
    "C22_never_empty_never_trailing",
    "C22_accessors_return",
    "C22_changes_do_what_they_say",
    "C22_only_positions_panic",
    "C22_try_from",
    "C22_parse_builds"
   ],
   "note": ""
  },
  {
   "property": "C23",
   "status": "proved",
   "theorems": [
    "C23_into_first_rest",
    "C23_into_last_rest",
    "C23_every_sequence"
   ],
   "note": ""
  },
  {
   "property": "C24",
   "status": "proved",
   "theorems": [
    "C24_keyword_exact",
    "C24_custom_ident_exact",
    "C24_partition",
    "C24_keyword_list_exact",
    "C24_word_accepts_all",
    "C24_raw_identifiers_distinct",
    "C24_ident_exact",
    "C24_messages"
   ],
   "note": ""
  },
  {
   "property": "C25",
   "status": "proved",
   "theorems": [
    "C25_lit_int_exact_range",
    "C25_lit_uint_exact_range",
    "C25_only_integer_literals",
    "C25_integers_round_trip",
    "C25_i64_exactly",
    "C25_u64_exactly",
    "C25_types_round_trip"
   ],
   "note": ""
  },
  {
   "property": "C26",
   "status": "proved",
   "theorems": [
    "C26_classified_by_sign",
    "C26_parsed_int_not_positive",
    "C26_parsed_int_negative_refuted",
    "C26_lit_round_trip",
    "C26_exactly_the_exceptions"
   ],
   "note": "'Never non-negative' is refuted for the literal -0 (C26_parsed_int_negative_refuted); C26_parsed_int_not_positive and C26_classified_by_sign are the exact facts."
  },
  {
   "property": "C27",
   "status": "proved",
   "theorems": [
    "C27_byte_literals",
    "C27_buffer_has_slack",
    "C27_token_is_a_byte_literal"
   ],
   "note": ""
  },
  {
   "property": "C28",
   "status": "proved",
   "theorems": [
    "C28_strings_round_trip",
    "C28_chars_round_trip",
    "C28_byte_strings_round_trip",
    "C28_tokens_are_literals",
    "C28_read_as_denoted",
    "C28_one_denotation",
    "C28_characters_are_the_scalar_values",
    "C28_every_scalar_value_round_trips",
    "C28_from_str_reads_as_denoted"
   ],
   "note": ""
  },
  {
   "property": "C29",
   "status": "proved",
   "theorems": [
    "C29_doubles_are_binary64",
    "C29_binary64_are_doubles",
    "C29_literals_read_as_nearest",
    "C29_nearest_is_unique",
    "C29_finite_round_trip",
    "C29_parsed_floats_are_doubles",
    "C29_infinity_cannot_be_printed",
    "C29_overflow_is_infinity",
    "C29_plain_notation_is_unique",
    "C29_prints_shortest",
    "C29_prints_zero"
   ],
   "note": "NaN cannot be written as a literal: the model type f64 has no NaN because parsing never produces one."
  },
  {
   "property": "C30",
   "status": "proved",
   "theorems": [
    "C30_formatter_output_lexes_back",
    "C30_display_lexes_back",
    "C30_with_indent_lexes_back",
    "C30_formatting_is_idempotent",
    "C30_layouts_commute",
    "C30_joint_slashes_refuted",
    "C30_invisible_groups_refuted",
    "C30_joint_before_word_refuted",
    "C30_quickcheck_property"
   ],
   "note": ""
  },
  {
   "property": "C31",
   "status": "proved",
   "theorems": [
    "C31_only_whitespace_between",
    "C31_compact_spaces_only",
    "C31_compact_is_one_line",
    "C31_displays_agree"
   ],
   "note": ""
  },
  {
   "property": "C32",
   "status": "proved",
   "theorems": [
    "C32_level_is_restored",
    "C32_stops_at_the_first_error",
    "C32_prefix_is_written",
    "C32_write_twice",
    "C32_write_twice_text",
    "C32_level_after_error_refuted"
   ],
   "note": ""
  },
  {
   "property": "C33",
   "status": "proved",
   "theorems": [
    "C33_offsets_invert_positions",
    "C33_lexer_positions",
    "C33_ranges_are_the_extent",
    "C33_byte_offset_clamped",
    "C33_substring_never_panics",
    "C33_char_offset_clamped_refuted"
   ],
   "note": ""
  },
  {
   "property": "C34",
   "status": "proved",
   "theorems": [
    "C34_format",
    "C34_injective",
    "C34_first_and_last_character",
    "C34_one_character",
    "C34_last_character_newline_refuted"
   ],
   "note": ""
  },
  {
   "property": "C35",
   "status": "proved",
   "theorems": [
    "C35_bounds",
    "C35_predicates",
    "C35_errors",
    "C35_union",
    "C35_parse_and_to_tokens",
    "C35_self_bounds",
    "C35_order_irrelevant"
   ],
   "note": ""
  },
  {
   "property": "C36",
   "status": "proved",
   "theorems": [
    "C36_either_is_two_variant_enum"
   ],
   "note": ""
  },
  {
   "property": "C37",
   "status": "proved",
   "theorems": [
    "C37_left",
    "C37_right",
    "C37_lawful",
    "C37_flip_involution",
    "C37_flip_swaps",
    "C37_map_side",
    "C37_transpose_side",
    "C37_transpose_result_side",
    "C37_extend_side"
   ],
   "note": ""
  },
  {
   "property": "C38",
   "status": "proved",
   "theorems": [
    "C38_from_str_to_string_from_str",
    "C38_from_str_to_string_from_str_no_lit",
    "C38_parse_format_parse",
    "C38_from_str_to_string",
    "C38_spacing_free",
    "C38_text_of_a_value_lexes",
    "C38_to_string_from_str",
    "C38_same_value_same_text",
    "C38_text_is_stable",
    "C38_spacing_refuted",
    "C38_minus_zero_refuted"
   ],
   "note": "Same provisos as C09, at the level of text; hypotheses on the Unicode tables are sane_tables."
  },
  {
   "property": "C39",
   "status": "proved",
   "theorems": [
    "C39_assertions"
   ],
   "note": ""
  },
  {
   "property": "C40",
   "status": "proved",
   "theorems": [
    "C40_spans_do_not_matter",
    "C40_panics_and_divergence_agree",
    "C40_same_order_same_errors",
    "C40_corresponding_values_are_equal",
    "C40_messages_refuted"
   ],
   "note": "Corresponding places are defined by place (SimSpan.v), order by in_order (PropSame.v). Without the order the message may differ (C40_messages_refuted)."
  },
  {
   "property": "C41",
   "status": "proved",
   "theorems": [
    "C41_consumes_a_prefix",
    "C41_prefix_of_visible_tokens"
   ],
   "note": ""
  },
  {
   "property": "C42",
   "status": "proved",
   "theorems": [
    "C42_accepts_exactly_whitespace",
    "C42_output_between_tokens_is_whitespace"
   ],
   "note": ""
  },
  {
   "property": "C43",
   "status": "proved",
   "theorems": [
    "C43_struct_prints_fields_in_order",
    "C43_enum_prints_active_variant",
    "C43_unit_prints_nothing",
    "C43_struct_by_type",
    "C43_enum_by_type"
   ],
   "note": ""
  },
  {
   "property": "C44",
   "status": "proved",
   "theorems": [
    "C44_via_syn",
    "C44_bytes_via_syn",
    "C44_bytes_via_u8_token_refuted",
    "C44_spans_ignored",
    "C44_total_order",
    "C44_equal_nodes_hash_alike",
    "C44_order_means",
    "C44_strings_compare_as_utf8"
   ],
   "note": "Bytes depend on the token syn::LitByte::new makes; with the u8-suffixed token of syn 2.0.66 the way back panics (C44_bytes_via_u8_token_refuted)."
  },
  {
   "property": "C45",
   "status": "proved",
   "theorems": [
    "C45_no_panic",
    "C45_unreadable_panics",
    "C45_total",
    "C45_literals_of_a_text_are_readable",
    "C45_from_str_never_panics",
    "C45_from_str_total"
   ],
   "note": ""
  },
  {
   "property": "C46",
   "status": "proved",
   "theorems": [
    "C46_collect_values",
    "C46_collect_pairs",
    "C46_extend_pairs",
    "C46_pairs_round_trip"
   ],
   "note": ""
  },
  {
   "property": "C47",
   "status": "proved",
   "theorems": [
    "C47_tokens_lie_in_the_text",
    "C47_source_substring_of_a_token",
    "C47_spans_are_of_the_file",
    "C47_lexing_terminates"
   ],
   "note": ""
  },
  {
   "property": "C48",
   "status": "proved",
   "theorems": [
    "C48_every_text_is_decided",
    "C48_parse_of_to_tokens_is_identity",
    "C48_from_str_of_to_string_is_identity",
    "C48_output_is_read_back",
    "C48_bool_at_end_refuted"
   ],
   "note": "20 grammars pass the checks of C17 and C10; the 21st (BoolAtEnd in the docs of Maybe) has values whose tokens do not parse (C48_bool_at_end_refuted). PropUsage.v also runs every README/doc/test example through the model."
  },
  {
   "property": "C49",
   "status": "proved",
   "theorems": [
    "C49_value_is_a_tree_of_its_tokens",
    "C49_every_part_has_its_tokens",
    "C49_tree_of_the_text",
    "C49_span_of_a_part",
    "C49_parts_lie_inside",
    "C49_siblings_are_in_order",
    "C49_whole_text"
   ],
   "note": "Spans follow proc_macro2's fallback and quote's join_spans; the hypothesis print v <> None excludes infinite floats, whose to_tokens panics (C29)."
  },
  {
   "property": "C50",
   "status": "proved",
   "theorems": [
    "C50_layout",
    "C50_every_line_is_indented_by_depth",
    "C50_number_of_lines",
    "C50_invisible_group_indents"
   ],
   "note": ""
  },
  {
   "property": "C51",
   "status": "proved",
   "theorems": [
    "C51_generated_struct_parser",
    "C51_generated_enum_parser",
    "C51_generated_struct_printer",
    "C51_generated_enum_printer",
    "C51_field_called_tokens_refuted",
    "C51_empty_enum_printer_refuted",
    "C51_bare_Err_refuted",
    "C51_unions_refused",
    "C51_generated_parse",
    "C51_generated_to_tokens"
   ],
   "note": ""
  },
  {
   "property": "C52",
   "status": "proved",
   "theorems": [
    "C52_leaf_messages",
    "C52_every_message",
    "C52_whole_input"
   ],
   "note": ""
  },
  {
   "property": "C53",
   "status": "proved",
   "theorems": [
    "C53_equivalence",
    "C53_equality_means",
    "C53_values_are_proper",
    "C53_locations_ignored",
    "C53_equal_nodes_hash_alike",
    "C53_order",
    "C53_equal_trees_print_alike",
    "C53_equal_trees_have_the_same_text",
    "C53_same_tokens_equal_trees",
    "C53_same_text_equal_trees",
    "C53_parsing_ignores_locations",
    "C53_to_string_from_str",
    "C53_minus_zero_refuted",
    "C53_order_means"
   ],
   "note": "Without the zero proviso 'equal trees print alike' is false: 0.0 == -0.0 (C53_minus_zero_refuted). The hypothesis proper (one location per operator character, literals of their type) holds of every value of a type (C53_values_are_proper)."
  },
  {
   "property": "C54",
   "status": "proved",
   "theorems": [
    "C54_display_lexes_to_the_tokens",
    "C54_reading_display_is_reading_tokens",
    "C54_display_reads_back",
    "C54_literals_read_back",
    "C54_any_literal_reads_back",
    "C54_words_read_back",
    "C54_display_total",
    "C54_not_eof_refuted"
   ],
   "note": "Display is modelled by type (Display.v); for the types that go through format_ast_node it is to_string (C38). NotEof is the exception (C54_not_eof_refuted). Width and precision flags are not modelled."
  },
  {
   "property": "C55",
   "status": "proved",
   "theorems": [
    "C55_counting_changes_nothing",
    "C55_one_cost",
    "C55_depth_linear",
    "C55_published_depth_linear",
    "C55_depth_at_least_nesting",
    "C55_readme_exponential",
    "C55_linear_calls_refuted",
    "C55_calls_linear",
    "C55_published_calls_linear",
    "C55_text_depth_linear",
    "C55_text_calls_linear"
   ],
   "note": "Calls of Parse::parse are counted, not time. The number of calls is linear for grammars that pass the check predictive (C55_calls_linear); for the README's Boolean grammar that is refuted (C55_linear_calls_refuted)."
  },
  {
   "property": "C56",
   "status": "proved",
   "theorems": [
    "C56_lex_errors_point_at_the_problem",
    "C56_errors_point_into_the_text",
    "C56_delimiter_spans",
    "C56_reported_error_ends_last"
   ],
   "note": "Case (c) is a finding: at the very end of the input there is no location (C05_furthest_refuted). Within a doc comment all tokens share the comment's span, so an error about one of them points at the comment or at its first or last character."
  },
  {
   "property": "C57",
   "status": "proved",
   "theorems": [
    "C57_obtainable_is_typed",
    "C57_prints",
    "C57_tokens_read_back",
    "C57_text_reads_back",
    "C57_read_what_was_written",
    "C57_edits_are_local",
    "C57_wrapping_keeps_the_place",
    "C57_taken_apart",
    "C57_default_literals",
    "C57_set_span",
    "C57_keyword_ident_refuted",
    "C57_many_separator_refuted",
    "C57_positive_int_refuted"
   ],
   "note": "A history is a derivation of obtainable (PropBuild.v), one rule per API function. The three obligations of the caller are necessary: C57_keyword_ident_refuted, C57_positive_int_refuted, C57_many_separator_refuted."
  },
  {
   "property": "C58",
   "status": "proved",
   "theorems": [
    "C58_every_layout_lexes",
    "C58_layout_keeps_the_tokens",
    "C58_layout_does_not_matter",
    "C58_every_stream_can_be_written",
    "C58_separating_tokens_refuted",
    "C58_layout_keeps_the_errors",
    "C58_doc_comment_errors_refuted"
   ],
   "note": "The layouts are the derivations of laid (Laid.v); may_follow is a sufficient condition for two tokens not to run together (it excludes a dot, a quote or a pound sign directly after a literal, and quotes and pound signs directly after a word). For error messages the tokens must not contain a pound sign, which excludes doc comments; for those C58_doc_comment_errors_refuted."
  },
  {
   "property": "C59",
   "status": "proved",
   "theorems": [
    "C59_refactoring",
    "C59_whole_inputs",
    "C59_texts",
    "C59_box",
    "C59_associativity",
    "C59_recursive_chain",
    "C59_recursive_list",
    "C59_either",
    "C59_inline_struct",
    "C59_factor",
    "C59_readme_factored",
    "C59_published_linear",
    "C59_common_end_refuted",
    "C59_maybe_is_no_choice_refuted",
    "C59_separated_is_no_repetition_refuted",
    "C59_order_refuted"
   ],
   "note": "The steps are step_type, step_seq and step_alts at the head of Refactor.v; same_type/same_seq/same_alts close them under congruence, on both sides, and refactoring under recursion. Texts of messages name types and fields and so may differ."
  },
  {
   "property": "C60",
   "status": "proved",
   "theorems": [
    "C60_old_values",
    "C60_old_inputs",
    "C60_old_inputs_spacing_free",
    "C60_old_documents",
    "C60_old_texts",
    "C60_locally",
    "C60_only_the_new_variants",
    "C60_locally_whole_inputs",
    "C60_unchecked_refuted",
    "C60_in_front_refuted"
   ],
   "note": "upgrade and settled (PropExtend.v) are the conditions on the two grammars; C60_unchecked_refuted and C60_in_front_refuted show that they are needed."
  },
  {
   "property": "C61",
   "status": "proved",
   "theorems": [
    "C61_any_program_implements",
    "C61_closed_types_implement",
    "C61_one_outcome",
    "C61_maybe",
    "C61_either",
    "C61_any",
    "C61_separated",
    "C61_punctuated",
    "C61_group",
    "C61_left_assoc",
    "C61_right_assoc",
    "C61_struct",
    "C61_enum",
    "C61_print_maybe",
    "C61_print_either",
    "C61_print_any",
    "C61_print_separated",
    "C61_print_punctuated",
    "C61_print_group",
    "C61_print_left_assoc",
    "C61_print_right_assoc",
    "C61_print_struct",
    "C61_print_enum",
    "C61_reads_means",
    "C61_print_whole_input",
    "C61_print_map",
    "C61_print_recursive",
    "C61_recursive_does",
    "C61_pieces_respected",
    "C61_print_piecewise",
    "C61_print_closed",
    "C61_returns_maybe",
    "C61_returns_either",
    "C61_returns_any",
    "C61_any_must_eat",
    "C61_returns_separated",
    "C61_returns_left_assoc",
    "C61_returns_right_assoc",
    "C61_returns_punctuated",
    "C61_returns_group",
    "C61_returns_struct",
    "C61_returns_enum",
    "C61_returns_recursive",
    "C61_token_tree",
    "C61_token_stream",
    "C61_print_exactly",
    "C61_example_call",
    "C61_example_call_returns",
    "C61_example_recursive_prints",
    "C61_example_recursive_returns",
    "C61_example_recursive_reads",
    "C61_example_call_reads",
    "C61_any_must_fail",
    "C61_any_token_stream_never_ends"
   ],
   "note": "An implementation is impl (Open.v); written/program describe the programs that C61_any_program_implements covers (no state outside the stream, a fork is advanced to only on its own stream). The values of the fields of one derived type share a type V, which for given field types is their sum."
  },
  {
   "property": "C62",
   "status": "proved",
   "theorems": [
    "C62_parsed_is_spelled",
    "C62_what_is_spelled_is_read",
    "C62_unambiguous",
    "C62_exactly_what_is_spelled",
    "C62_order_does_not_matter",
    "C62_more_alternatives_accept_more",
    "C62_texts",
    "C62_unchecked_refuted",
    "C62_ambiguous_refuted",
    "C62_order_refuted"
   ],
   "note": "Language (spells) is an inductive relation of its own in Lang.v; only literal leaves refer to the literal parsers (C25 to C29 say what those do). C62_parsed_is_spelled holds for every grammar; the converse needs ll1 and tame tokens (no integer -0, no infinite float), and spacing_free or spaced operators; C62_unchecked_refuted, C62_ambiguous_refuted and C62_order_refuted show what happens without."
  },
  {
   "property": "C63",
   "status": "proved",
   "theorems": [
    "C63_valid_beginning",
    "C63_accepted_beginning",
    "C63_texts",
    "C63_early_refuted",
    "C63_hidden_refuted",
    "C63_empty_enum_refuted"
   ],
   "note": "The place of an error is found (PropPrefix.v), the documents beginning alike begins_like (Prefix.v). The hypothesis inhabited (every type has a value; operators contain no quote) is checked by computation; C63_early_refuted, C63_hidden_refuted and C63_empty_enum_refuted mark the limits."
  },
  {
   "property": "C64",
   "status": "proved",
   "theorems": [
    "C64_values_have_their_types",
    "C64_equal_trees_same_calls",
    "C64_no_collisions",
    "C64_same_hash_same_tree",
    "C64_hash_map",
    "C64_holds_one",
    "C64_lookup_by_value",
    "C64_lookup_by_slice",
    "C64_btree_map",
    "C64_no_duplicate_keys",
    "C64_subnormal_refuted"
   ],
   "note": "Hashing follows the types (hv, HashCalls.v); HashMap is not in /repo, its model is the small table at the head of PropKeys.v. For subnormal doubles ordered-float's hash drops a bit: C64_subnormal_refuted (such keys work, they just collide)."
  },
  {
   "property": "C65",
   "status": "proved",
   "theorems": [
    "C65_text_tells_trees_apart",
    "C65_both_forms_tell_the_same",
    "C65_one_line",
    "C65_wrappers_are_invisible",
    "C65_obtainable_trees",
    "C65_obtainable_text_tells",
    "C65_either_side_refuted",
    "C65_nesting_refuted",
    "C65_equal_trees_refuted"
   ],
   "note": "dbg (Debug.v) says what each impl hands to core::fmt, show what the builders write. Left open (record shown, with the conditions sane): offsets of spans, names of syn's token types, digits of floats. C65_obtainable_trees: every tree made or parsed through the API meets the conditions on values."
  },
  {
   "property": "C66",
   "status": "proved",
   "theorems": [
    "C66_tree_linear",
    "C66_parsed_linear",
    "C66_text_linear",
    "C66_tokens_linear",
    "C66_nothing_repeated_refuted",
    "C66_left_recursion_refuted",
    "C66_depth_linear",
    "C66_flat_text_deep_tree"
   ],
   "note": "Nodes are those of the values of Grammar.v (a leaf, struct, variant, list, group, operator application each one; Box none), not bytes of memory; texts inside identifiers and literals are not counted (they are slices of the input)."
  },
  {
   "property": "C67",
   "status": "proved",
   "theorems": [
    "C67_end_of_input",
    "C67_printed_reads_before",
    "C67_one_after_another",
    "C67_spelled_reads_before",
    "C67_accepted_reads_before",
    "C67_documents_one_after_another",
    "C67_unchecked_refuted"
   ],
   "note": "The check ll1_before is that of C10 with the beginnings F of what may follow in place of the end of the input (C67_end_of_input: by computation the same for [HEnd]); its tables are not trusted. Spellings are those of C62, so -0 (C09) and floats out of range are excluded by tame, and spacing_free as in C62; streams with invisible groups are not covered by the theorems about documents (those about printed values cover them after the value)."
  },
  {
   "property": "C68",
   "status": "proved",
   "theorems": [
    "C68_joined_tokens",
    "C68_joined_lexes",
    "C68_joined_texts",
    "C68_punctuated_tokens",
    "C68_separated_tokens",
    "C68_written_lexes",
    "C68_written_texts",
    "C68_to_string",
    "C68_unchecked_refuted",
    "C68_errors_do_not_stay_refuted"
   ],
   "note": "Texts are those with a layout derivation (laid, C58); texts like `1.foo`, whose tokens touch where laid does not allow it, are not covered by C68_joined_texts (C68_joined_tokens covers their tokens). many gives the Punctuated the parser builds: NotEof (printing nothing) between items, none after the last."
  }
 ]
}