{
 "claims": [
  {
   "property": "C01",
   "status": "proved",
   "theorems": [
    "C01_longest_match",
    "C01_lookup_follows_the_rules"
   ],
   "note": "also with ^, start states, skipped and joined rules and the stack; rules as rules_wf describes them (tokens of the tokeniser, no $, ^ only in front, fewer distinct classes than ids; for characters of more than two bytes only classes that slice correctly, see C29)"
  },
  {
   "property": "C02",
   "status": "proved",
   "theorems": [
    "C02_first_rule",
    "C02_the_rules_determine_the_result"
   ],
   "note": "stated on the characters, by the grammar's meaning; rules as rules_wf describes them (tokens of the tokeniser, no $, ^ only in front, fewer distinct classes than ids; for characters of more than two bytes only classes that slice correctly, see C29)"
  },
  {
   "property": "C03",
   "status": "proved",
   "theorems": [
    "C03_unmatched",
    "C01_lookup_follows_the_rules"
   ],
   "note": "rules as rules_wf describes them (tokens of the tokeniser, no $, ^ only in front, fewer distinct classes than ids; for characters of more than two bytes only classes that slice correctly, see C29)"
  },
  {
   "property": "C04",
   "status": "proved",
   "theorems": [
    "C04_token_is_matched",
    "C04_tokens_are_justified",
    "C04_large_characters_refuted"
   ],
   "note": "rules as rules_wf describes them (tokens of the tokeniser, no $, ^ only in front, fewer distinct classes than ids; for characters of more than two bytes only classes that slice correctly, see C29)"
  },
  {
   "property": "C05",
   "status": "proved",
   "theorems": [
    "C05_lookup_terminates",
    "C05_lookup_progress",
    "C05_lexing_loop_ends",
    "C05_built_lookup_returns",
    "C05_built_lookup_moves",
    "C05_built_loop_ends",
    "C05_any_rules_lookup_returns",
    "C05_any_rules_lookup_moves",
    "C05_any_rules_loop_ends",
    "C05_dollar_alone_refuted",
    "C05_empty_skip_refuted",
    "C05_no_advance_refuted"
   ],
   "note": "every well formed table without end of line cycles, and every machine built from rules in which $ is the last token (as the tokeniser emits it), none matching the empty text; the rule $ alone passes the check of build and does not move (refuted)"
  },
  {
   "property": "C06",
   "status": "proved",
   "theorems": [
    "C06_tokens_tile",
    "C06_gaps_are_skipped",
    "C06_joined_text_lost_refuted"
   ],
   "note": "every well formed table; rules without an id (which join the following text) are excluded as in the property"
  },
  {
   "property": "C07",
   "status": "proved",
   "theorems": [
    "C07_end_of_input"
   ],
   "note": ""
  },
  {
   "property": "C08",
   "status": "proved",
   "theorems": [
    "C08_lookup_safe",
    "C08_built_lookup_is_defined",
    "C08_any_rules_lookup_is_defined"
   ],
   "note": "every well formed table; every machine built from any rules, ^ and $ anywhere, is well formed"
  },
  {
   "property": "C09",
   "status": "proved",
   "theorems": [
    "C09_insert_ranges_union",
    "C09_insert_class_union"
   ],
   "note": "string_token::insert, both overloads"
  },
  {
   "property": "C10",
   "status": "proved",
   "theorems": [
    "C10_negate_complement",
    "C10_negate_involutive"
   ],
   "note": "string_token::negate"
  },
  {
   "property": "C11",
   "status": "proved",
   "theorems": [
    "C11_intersect_exact",
    "C11_remove_exact"
   ],
   "note": "string_token::intersect/remove/adjust, including termination"
  },
  {
   "property": "C12",
   "status": "proved",
   "theorems": [
    "C12_equal_iff_same_characters",
    "C12_built_normal_form"
   ],
   "note": "equality and ordering of classes"
  },
  {
   "property": "C13",
   "status": "proved",
   "theorems": [
    "C13_alphabet"
   ],
   "note": "partition_charsets, build_set_mapping and fill_lookup on one byte classes (wider characters are sliced into bytes first, C28/C29)"
  },
  {
   "property": "C14",
   "status": "proved",
   "theorems": [
    "C14_positions_accept_the_words"
   ],
   "note": "the tree building members of the parser; the follow sets are read from the store"
  },
  {
   "property": "C15",
   "status": "proved",
   "theorems": [
    "C15_exactly",
    "C15_at_least",
    "C15_between",
    "C15_star_plus_opt"
   ],
   "note": ""
  },
  {
   "property": "C16",
   "status": "proved",
   "theorems": [
    "C16_parse",
    "C16_unambiguous",
    "C16_internal_error_refuted"
   ],
   "note": "for the tokens and the balanced parentheses that rules.hpp passes on; the grammar is the one the precedence table implements, at most one duplication per atom: the comment in parser.hpp allows several (C16_double_repeat_refuted); unbalanced input is not refused by parse itself (C16_unbalanced_refuted)"
  },
  {
   "property": "C17",
   "status": "proved",
   "theorems": [
    "C17_all_or_nothing",
    "C17_build_ends",
    "C17_accepted_rules_parse",
    "C17_syntax_errors"
   ],
   "note": "also: build ends, and why it throws; rules as rules_wf describes them (tokens of the tokeniser, no $, ^ only in front, fewer distinct classes than ids; for characters of more than two bytes only classes that slice correctly, see C29)"
  },
  {
   "property": "C18",
   "status": "proved",
   "theorems": [
    "C18_zero_len_only_if",
    "C18_zero_len_if"
   ],
   "note": "rules as rules_wf describes them (tokens of the tokeniser, no $, ^ only in front, fewer distinct classes than ids; for characters of more than two bytes only classes that slice correctly, see C29)"
  },
  {
   "property": "C19",
   "status": "proved",
   "theorems": [
    "C19_suppressed_only_if",
    "C19_suppressed_if"
   ],
   "note": "fewer rules than ids; rules as rules_wf describes them (tokens of the tokeniser, no $, ^ only in front, fewer distinct classes than ids; for characters of more than two bytes only classes that slice correctly, see C29)"
  },
  {
   "property": "C20",
   "status": "proved",
   "theorems": [
    "C20_minimise_preserves_lookup",
    "C20_built_machines",
    "C20_nonzero_dead_column_refuted"
   ],
   "note": "mclean (zero jam row and dead column) holds of built machines; C20_nonzero_dead_column_refuted: not for arbitrary loaded tables"
  },
  {
   "property": "C21",
   "status": "proved",
   "theorems": [
    "C21_conversion_is_exact",
    "C21_same_words",
    "C21_built_machines",
    "C21_wide_machine_refuted"
   ],
   "note": "for tables with a zero dead column (mclean), which built machines have; characters are the bytes the table reads; C21_push_kind_refuted: states that do not accept are marked as pushing"
  },
  {
   "property": "C22",
   "status": "partial",
   "theorems": [
    "C22_minimise_partial",
    "C22_same_words_partial",
    "C22_start_state",
    "C22_converted_machines",
    "C22_what_is_lost",
    "C22_when_all_is_kept"
   ],
   "note": "acceptance, words, user id, next state, bol and eol are kept; false for ids and push/pop: C22_ids_lost_refuted, C22_push_pop_lost_refuted. What is lost is stated exactly: all of it when two states are equal, nothing otherwise (C22_what_is_lost, C22_when_all_is_kept)"
  },
  {
   "property": "C23",
   "status": "proved",
   "theorems": [
    "C23_load_inverts_save",
    "C23_saved_lines"
   ],
   "note": "iostream formatting is in the trusted base; one byte id_types are outside the property and refuted separately (C23_one_byte_ids_refuted)"
  },
  {
   "property": "C24",
   "status": "proved",
   "theorems": [
    "C24_utf8_in_decodes",
    "C24_utf8_in_total",
    "C24_lax_decoding_refuted"
   ],
   "note": ""
  },
  {
   "property": "C25",
   "status": "proved",
   "theorems": [
    "C25_utf8_out_encodes",
    "C25_utf8_out_in_round_trip"
   ],
   "note": ""
  },
  {
   "property": "C26",
   "status": "proved",
   "theorems": [
    "C26_utf16_in_decodes",
    "C26_utf16_out_encodes",
    "C26_utf16_out_in_round_trip",
    "C26_utf16_in_total"
   ],
   "note": ""
  },
  {
   "property": "C27",
   "status": "proved",
   "theorems": [
    "C27_utf8_minus_undoes_increment",
    "C27_encodings_are_well_formed",
    "C27_utf16_minus",
    "C27_utf8_moves_by_characters",
    "C27_utf8_starts_at_the_first",
    "C27_utf16_moves_by_characters",
    "C27_utf16_starts_at_the_first"
   ],
   "note": ""
  },
  {
   "property": "C28",
   "status": "proved",
   "theorems": [
    "C28_slice16_exact"
   ],
   "note": ""
  },
  {
   "property": "C29",
   "status": "partial",
   "theorems": [
    "C29_slice24_all",
    "C29_right_ranges",
    "C29_slice24_numbers_partial",
    "C29_slice24_exact_partial",
    "C29_tame_ranges",
    "C29_tame_are_right"
   ],
   "note": "C29_slice24_all says what is accepted for every class, C29_right_ranges for which ranges that is right; false in general: C29_slice24_misses_refuted, C29_slice24_overaccepts_refuted (parser.hpp:561 uses the middle byte where the high byte is meant), C29_numbers_refuted; exact when each range touches at most two consecutive planes, and for the characters of Unicode when its middle bytes agree with its high bytes, as for . and negated ASCII classes"
  },
  {
   "property": "C30",
   "status": "partial",
   "theorems": [
    "C30_anchored_rules",
    "C30_plain_rules",
    "C30_mixed_rules",
    "C30_words_say",
    "C30_bol_flag",
    "C30_empty_match_refuted",
    "C30_repeated_anchor_undefined_refuted"
   ],
   "note": "for rules all of whose words begin with ^ and for rules without ^; the claim is false for ^a|b (C30_alternatives_refuted), which is ^a at the beginning of a line and b elsewhere (C30_mixed_rules)"
  },
  {
   "property": "C31",
   "status": "proved",
   "theorems": [
    "C31_dollar_only_at_line_ends",
    "C31_dollar_at_the_end",
    "C31_dollar_exact",
    "C31_other_rules_change_refuted",
    "C31_two_dollars_undefined_refuted",
    "C31_dot_dollar_undefined_refuted",
    "C31_suppression_refuted",
    "C31_priority_refuted",
    "C31_wide_clash_refuted",
    "C31_moved_pointer_refuted",
    "C31_kept_counter_refuted",
    "C31_one_break_repaired_refuted"
   ],
   "note": "the first part for all rules; the second under line_rules (EolLexSpec.v); the refutations show what happens outside it"
  },
  {
   "property": "C32",
   "status": "proved",
   "theorems": [
    "C32_next_state",
    "C32_states_exist",
    "C32_push_adds",
    "C32_push_in_adds",
    "C32_unknown_state",
    "C32_targets_exist",
    "C32_empty_match_stays_refuted"
   ],
   "note": "lookup and build; rules as rules_wf describes them (tokens of the tokeniser, no $, ^ only in front, fewer distinct classes than ids; for characters of more than two bytes only classes that slice correctly, see C29); which rules push adds to which start states and with which next state, for any object"
  },
  {
   "property": "C33",
   "status": "proved",
   "theorems": [
    "C33_pieces_push_or_pop_one",
    "C33_lookup_is_pieces",
    "C33_pop_returns_to_matching_push",
    "C33_lookup_follows_the_stack"
   ],
   "note": "every well formed table"
  },
  {
   "property": "C34",
   "status": "proved",
   "theorems": [
    "C34_tokens_unique",
    "C34_iterator_visits_tokens",
    "C34_iterator_ends",
    "C34_with_joining",
    "C34_equal_iterators",
    "C34_equal_iterators_agree",
    "C34_places_differ",
    "C34_stack_refuted"
   ],
   "note": "when no text is left to be joined at the end of the input: C34_again_refuted otherwise"
  },
  {
   "property": "C35",
   "status": "proved",
   "theorems": [
    "C35_replace",
    "C35_gaps_are_skipped",
    "C35_replace_returns",
    "C35_empty_map_copies"
   ],
   "note": "inserting output iterators; C35_again_refuted, C35_output_iterator_refuted and C35_unmatched_refuted show where the statement fails"
  },
  {
   "property": "C36",
   "status": "proved",
   "theorems": [
    "C36_escaped",
    "C36_quoted",
    "C36_any_case"
   ],
   "note": ""
  },
  {
   "property": "C37",
   "status": "proved",
   "theorems": [
    "C37_octal",
    "C37_hexadecimal",
    "C37_control",
    "C37_escape",
    "C37_or_rejected"
   ],
   "note": "C37_all_values_refuted: hexadecimal values from 2^64 wrap"
  },
  {
   "property": "C38",
   "status": "proved",
   "theorems": [
    "C38_counts"
   ],
   "note": "C38_any_numbers_refuted and C38_sound_accepted_refuted: numbers from 2^64 wrap"
  },
  {
   "property": "C39",
   "status": "proved",
   "theorems": [
    "C39_range",
    "C39_class",
    "C39_escaped_class",
    "C39_closed_under_case"
   ],
   "note": "closure for 8 bit characters; C39_wide_refuted, C39_print_refuted and C39_letters_refuted for wide ones"
  },
  {
   "property": "C40",
   "status": "partial",
   "theorems": [
    "C40_macro_is_its_text_in_parentheses_partial",
    "C40_at_the_edges",
    "C40_unknown_macro",
    "C40_redefined_macro",
    "C51_macros_to_tokens",
    "C51_macros_succeed"
   ],
   "note": "at token level, for every macro vector and place except a macro beginning with ^ at the beginning of the rule or ending with $ at its end: C40_edge_refuted shows those are not grouped, C40_at_the_edges says what is inserted there; ^ and $ of a macro used elsewhere are literal characters (macro_text)"
  },
  {
   "property": "C41",
   "status": "proved",
   "theorems": [
    "C41_stripping_keeps_the_meaning"
   ],
   "note": ""
  },
  {
   "property": "C42",
   "status": "partial",
   "theorems": [
    "C42_reversed_rule_partial",
    "C42_twice_partial",
    "C42_mirror_of_a_text"
   ],
   "note": "for rules in which no repeat follows ^ or $ directly: false otherwise, C42_repeated_anchor_refuted; the feature bits are not exchanged (C47_reverse_refuted)"
  },
  {
   "property": "C43",
   "status": "proved",
   "theorems": [
    "C43_tables_stay_aligned",
    "C43_indexes_are_stable",
    "C43_names_and_indexes",
    "C43_failed_push",
    "C43_refused_ids",
    "C43_refused_state_is_added"
   ],
   "note": "any sequence of calls, failing or not; names and indexes correspond as long as the id type can number the states"
  },
  {
   "property": "C44",
   "status": "partial",
   "theorems": [
    "C44_stream_iterators_partial",
    "C44_only_the_overlap_partial",
    "C44_reads_everything_partial"
   ],
   "note": "all streams, sizes, increments and interleavings of construction, copying, assignment, destruction, dereferencing, advancing and comparison of any number of iterators over one stream, with memcpy on overlapping ranges read as memmove; C44_overlap_refuted: with memcpy as specified it is undefined; C44_assign_to_master_refuted, C44_assign_from_master_refuted, C44_dangling_client_refuted, C44_empty_stream_refuted, C44_late_master_refuted, C44_zero_sizes_refuted"
  },
  {
   "property": "C45",
   "status": "proved",
   "theorems": [
    "C45_flip_reverses_and_is_involutive"
   ],
   "note": ""
  },
  {
   "property": "C46",
   "status": "partial",
   "theorems": [
    "C46_pruning_narrows_partial",
    "C46_zeros_refuted"
   ],
   "note": "when no | follows an abstemious repeat that may be absent (ab+?|c is covered); false otherwise: C46_or_refuted (xa*?|c becomes xc); C46_parentheses_refuted: what counts as last depends on parentheses"
  },
  {
   "property": "C47",
   "status": "proved",
   "theorems": [
    "C47_rules_are_announced",
    "C47_nothing_more",
    "C47_machine_features"
   ],
   "note": "outside the stated quantifier: C47_split_refuted, C47_reverse_refuted"
  },
  {
   "property": "C48",
   "status": "proved",
   "theorems": [
    "C48_split_keeps_the_language"
   ],
   "note": ""
  },
  {
   "property": "C49",
   "status": "proved",
   "theorems": [
    "C49_tokenised_rule",
    "C49_vectors_parse",
    "C49_calls"
   ],
   "note": "counts of zero written 0 (zero_plain); the vectors are sentences of the grammar when no repeat follows another; C49_recursive_macro_refuted: a macro used in its own text"
  },
  {
   "property": "C50",
   "status": "proved",
   "theorems": [
    "C50_objects_build",
    "C50_lookup_follows_the_object",
    "C50_setting"
   ],
   "note": "hypotheses proper_unsplit and simple of RulesSpec/RulesBuild"
  },
  {
   "property": "C51",
   "status": "proved",
   "theorems": [
    "C51_text_to_tokens",
    "C51_macros_to_tokens",
    "C51_macros_succeed",
    "C51_one_meaning",
    "C51_text_to_lexer",
    "C51_lexer_is_determined",
    "C51_few_sets",
    "C51_anchor_beside_blank_refuted"
   ],
   "note": "C51_quotes_group_refuted: operators behind quotes bind to the last character"
  },
  {
   "property": "C52",
   "status": "proved",
   "theorems": [
    "C52_generated_follows_lookup",
    "C52_built_generated",
    "C52_object_generated",
    "C52_compiles",
    "C52_numbers_read_back",
    "C52_names_distinct",
    "C52_names_in_table",
    "C52_names_agree",
    "C52_carriage_return_refuted",
    "C52_last_char_refuted",
    "C52_pointers_eol_refuted",
    "C52_pointers_bol_refuted",
    "C52_pop_refuted",
    "C52_single_recursive_refuted",
    "C52_names_refuted"
   ],
   "note": "under the conditions of the quantifier; the refutations show what happens outside them"
  },
  {
   "property": "C53",
   "status": "proved",
   "theorems": [
    "C53_unused_flags",
    "C53_built",
    "C53_built_lines"
   ],
   "note": "results_.bol is compared where both flag sets have bol"
  },
  {
   "property": "C54",
   "status": "proved",
   "theorems": [
    "C54_lookup_with_abstemious_rules",
    "C54_token_taken",
    "C54_nonempty"
   ],
   "note": "rules without $; abstemious rules must not match nothing (lazy_nonempty)"
  },
  {
   "property": "C55",
   "status": "proved",
   "theorems": [
    "C55_lookup_stops",
    "C55_loop_words",
    "C55_shortest_token",
    "C55_stops_where_others_end",
    "C55_other_rules_refuted",
    "C55_any_repeat_refuted"
   ],
   "note": "8 bit characters, rules without $; the refutations show what happens outside"
  },
  {
   "property": "C56",
   "status": "proved",
   "theorems": [
    "C56_class_reads_back",
    "C56_class_text_unique",
    "C56_dump_unique",
    "C56_built_machines",
    "C56_end_states_shown",
    "C56_moves_shown",
    "C56_line_ends_shown",
    "C56_dump_defined",
    "C56_range_end_refuted",
    "C56_minus_refuted",
    "C56_bracket_refuted",
    "C56_number_refuted",
    "C56_char32_refuted",
    "C56_empty_class_refuted"
   ],
   "note": "for classes that need none of the escaping that debug.hpp gets wrong; the refutations show what happens outside"
  },
  {
   "property": "C57",
   "status": "proved",
   "theorems": [
    "C57_nodes",
    "C57_edges",
    "C57_edges_meet_nodes",
    "C57_labels_read",
    "C57_pop_refuted",
    "C57_line_ends_refuted",
    "C57_start_refuted",
    "C57_markup_refuted"
   ],
   "note": "dot.hpp for char; the refutations show what is not drawn"
  },
  {
   "property": "C58",
   "status": "proved",
   "theorems": [
    "C58_marks_words",
    "C58_goes_on_match",
    "C58_lookup_kept",
    "C58_token_kept"
   ],
   "note": "rules without $, abstemious rules that match some character"
  },
  {
   "property": "C59",
   "status": "proved",
   "theorems": [
    "C59_states_to_lexer",
    "C59_is_determined",
    "C59_pushes_succeed",
    "C59_macros_succeed"
   ],
   "note": "texts and macros as in C51; zero length matches off"
  },
  {
   "property": "C60",
   "status": "proved",
   "theorems": [
    "C60_clear",
    "C60_clear_state"
   ],
   "note": "the locale is not modelled"
  },
  {
   "property": "C61",
   "status": "proved",
   "theorems": [
    "C61_set_flags",
    "C61_flags_only_refuse",
    "C61_same_machine",
    "C61_after_set_flags"
   ],
   "note": ""
  },
  {
   "property": "C62",
   "status": "proved",
   "theorems": [
    "C62_pushes_succeed",
    "C62_lexer_with_comments",
    "C62_determined"
   ],
   "note": "8 bit characters, as C55."
  },
  {
   "property": "C63",
   "status": "proved",
   "theorems": [
    "C63_texts_to_all_tokens",
    "C63_comments_to_all_tokens",
    "C63_one_list",
    "C63_one_list_comments",
    "C63_nothing_lost"
   ],
   "note": "Comments for 8 bit characters, as C62."
  },
  {
   "property": "C64",
   "status": "proved",
   "theorems": [
    "C64_pushes_succeed",
    "C64_lexer_with_dollar",
    "C64_few_sets",
    "C64_determined",
    "C64_all_tokens",
    "C64_every_route"
   ],
   "note": "8 and 16 bit characters."
  },
  {
   "property": "C65",
   "status": "proved",
   "theorems": [
    "C65_contents",
    "C65_foreign",
    "C65_released",
    "C65_left_behind"
   ],
   "note": "The leaks: C65_wide_refuted, C65_empty_refuted, C65_zero_refuted."
  },
  {
   "property": "C66",
   "status": "proved",
   "theorems": [
    "C66_states_to_all_tokens",
    "C66_one_list",
    "C66_what_is_kept"
   ],
   "note": ""
  },
  {
   "property": "C67",
   "status": "proved",
   "theorems": [
    "C67_any_iterator",
    "C67_any_iteration",
    "C67_positions",
    "C67_flipped",
    "C67_utf8",
    "C67_utf16",
    "C67_units_of_a_token",
    "C67_texts_to_utf",
    "C67_states_to_utf",
    "C67_malformed_utf8",
    "C67_malformed_utf16"
   ],
   "note": ""
  },
  {
   "property": "C68",
   "status": "proved",
   "theorems": [
    "C68_stream",
    "C68_texts_to_stream",
    "C68_states_to_stream",
    "C68_any_program",
    "C68_comments_to_stream",
    "C68_lines_to_stream"
   ],
   "note": "memcpy on overlapping ranges is read as memmove; where it is undefined the same comes out or the behaviour is undefined, which C68_overlap_refuted shows to happen; C68_empty_stream_refuted: an empty stream gives a token"
  },
  {
   "property": "C69",
   "status": "proved",
   "theorems": [
    "C69_one_state",
    "C69_start_states",
    "C69_texts_build",
    "C69_states_build",
    "C69_comments_outcome",
    "C69_comments_lexer"
   ],
   "note": "the converse of the never-match check is for characters of one or two bytes; for lexers with comments the refusal of a rule that cannot be matched is only said to need allow_suppressed_rules off"
  },
  {
   "property": "C70",
   "status": "proved",
   "theorems": [
    "C70_texts_saved",
    "C70_states_saved",
    "C70_built_fits",
    "C70_minimised_fits",
    "C70_types_kept",
    "C70_comments_saved",
    "C70_all_built_fits",
    "C70_all_built_back",
    "C70_lines_saved"
   ],
   "note": "id_types of 2 to 8 bytes as in C23; vectors shorter than 2^64, which ids of at most 4 bytes imply"
  },
  {
   "property": "C71",
   "status": "proved",
   "theorems": [
    "C71_forgets",
    "C71_reset",
    "C71_cleared",
    "C71_new",
    "C71_clear"
   ],
   "note": ""
  }
 ]
}