{
 "claims": [
  {
   "property": "C01",
   "status": "proved",
   "theorems": [
    "C01_buffered_source_is_cursor"
   ],
   "note": ""
  },
  {
   "property": "C02",
   "status": "proved",
   "theorems": [
    "C02_range_source_is_cursor"
   ],
   "note": ""
  },
  {
   "property": "C03",
   "status": "proved",
   "theorems": [
    "C03_buffers_held"
   ],
   "note": ""
  },
  {
   "property": "C04",
   "status": "proved",
   "theorems": [
    "C04_outcome_independent_of_cutting",
    "C04_position_independent_of_cutting"
   ],
   "note": "Every pattern and every complete schedule; errors and divergence included."
  },
  {
   "property": "C05",
   "status": "proved",
   "theorems": [
    "C05_early_answer_is_final"
   ],
   "note": ""
  },
  {
   "property": "C06",
   "status": "proved",
   "theorems": [
    "C06_no_partial_after_final",
    "C06_parse_is_never_partial"
   ],
   "note": ""
  },
  {
   "property": "C07",
   "status": "proved",
   "theorems": [
    "C07_partial_means_starved"
   ],
   "note": ""
  },
  {
   "property": "C08",
   "status": "proved",
   "theorems": [
    "C08_no_source_misuse"
   ],
   "note": ""
  },
  {
   "property": "C09",
   "status": "proved",
   "theorems": [
    "C09_assumptions_hold"
   ],
   "note": ""
  },
  {
   "property": "C10",
   "status": "partial",
   "theorems": [
    "C10_no_mark_left_partial",
    "C10_refuted",
    "C10_session_refuted"
   ],
   "note": "False as stated: an Optional whose operand matches never cancels its mark. Proved for patterns without Optional."
  },
  {
   "property": "C11",
   "status": "partial",
   "theorems": [
    "C11_parse_follows_grammar_partial",
    "C11_skipping_parse_follows_grammar_partial",
    "C11_refuted"
   ],
   "note": "False as stated (Optional leaves a mark behind). Proved for the patterns of inclass: no Optional where something around it holds a mark, no symbol(map<char,..>), no empty symbol key, no Int with one digit at most, numbers over char in bases 2-35, MIN <= MAX; a skipper begins with single characters (char_(..), lit(..) of a character, discard, lexeme and alternatives of such), behind which it may have alternatives of any length made of texts, sequences, repetitions and differences, as for comments (skippers that begin with one of these take a mark when created and go wrong, C35_refuted); an apply_skipper inside a pattern is around something that ends with a part that consumes, is not the definition of a Recur and, where a failure has to give the input back, is not around something that by itself never reads when it fails (C64); below another skipper it does not begin with a part that takes a mark at once. "
  },
  {
   "property": "C12",
   "status": "partial",
   "theorems": [
    "C12_alternatives_from_same_place_partial",
    "C12_alternatives_in_order_partial",
    "C12_refuted"
   ],
   "note": "False as stated. Proved for the patterns of inclass: no Optional where something around it holds a mark, no symbol(map<char,..>), no empty symbol key, no Int with one digit at most, numbers over char in bases 2-35, MIN <= MAX; a skipper begins with single characters (char_(..), lit(..) of a character, discard, lexeme and alternatives of such), behind which it may have alternatives of any length made of texts, sequences, repetitions and differences, as for comments (skippers that begin with one of these take a mark when created and go wrong, C35_refuted); an apply_skipper inside a pattern is around something that ends with a part that consumes, is not the definition of a Recur and, where a failure has to give the input back, is not around something that by itself never reads when it fails (C64); below another skipper it does not begin with a part that takes a mark at once. "
  },
  {
   "property": "C13",
   "status": "proved",
   "theorems": [
    "C13_sequence_runs_parts_in_turn",
    "C13_sequence_is_its_parts"
   ],
   "note": "All patterns, both directions."
  },
  {
   "property": "C14",
   "status": "partial",
   "theorems": [
    "C14_repetition_greedy_and_bounded_partial",
    "C14_star_never_fails",
    "C14_repetition_is_its_elements_partial",
    "C14_skipping_repetition_partial",
    "C14_minimum_refuted",
    "C14_position_refuted"
   ],
   "note": "False as stated. Proved for the patterns of inclass: no Optional where something around it holds a mark, no symbol(map<char,..>), no empty symbol key, no Int with one digit at most, numbers over char in bases 2-35, MIN <= MAX; a skipper begins with single characters (char_(..), lit(..) of a character, discard, lexeme and alternatives of such), behind which it may have alternatives of any length made of texts, sequences, repetitions and differences, as for comments (skippers that begin with one of these take a mark when created and go wrong, C35_refuted); an apply_skipper inside a pattern is around something that ends with a part that consumes, is not the definition of a Recur and, where a failure has to give the input back, is not around something that by itself never reads when it fails (C64); below another skipper it does not begin with a part that takes a mark at once. "
  },
  {
   "property": "C15",
   "status": "partial",
   "theorems": [
    "C15_not_is_lookahead_partial",
    "C15_difference_partial",
    "C15_not_is_its_operand_partial",
    "C15_refuted"
   ],
   "note": "False as stated. Proved for the patterns of inclass: no Optional where something around it holds a mark, no symbol(map<char,..>), no empty symbol key, no Int with one digit at most, numbers over char in bases 2-35, MIN <= MAX; a skipper begins with single characters (char_(..), lit(..) of a character, discard, lexeme and alternatives of such), behind which it may have alternatives of any length made of texts, sequences, repetitions and differences, as for comments (skippers that begin with one of these take a mark when created and go wrong, C35_refuted); an apply_skipper inside a pattern is around something that ends with a part that consumes, is not the definition of a Recur and, where a failure has to give the input back, is not around something that by itself never reads when it fails (C64); below another skipper it does not begin with a part that takes a mark at once. "
  },
  {
   "property": "C16",
   "status": "partial",
   "theorems": [
    "C16_list_gives_back_trailing_separator_partial",
    "C16_list_never_fails",
    "C16_list_is_its_elements_partial",
    "C16_refuted"
   ],
   "note": "Never failing is proved for all patterns; the position is false as stated. Proved for the patterns of inclass: no Optional where something around it holds a mark, no symbol(map<char,..>), no empty symbol key, no Int with one digit at most, numbers over char in bases 2-35, MIN <= MAX; a skipper begins with single characters (char_(..), lit(..) of a character, discard, lexeme and alternatives of such), behind which it may have alternatives of any length made of texts, sequences, repetitions and differences, as for comments (skippers that begin with one of these take a mark when created and go wrong, C35_refuted); an apply_skipper inside a pattern is around something that ends with a part that consumes, is not the definition of a Recur and, where a failure has to give the input back, is not around something that by itself never reads when it fails (C64); below another skipper it does not begin with a part that takes a mark at once. "
  },
  {
   "property": "C17",
   "status": "partial",
   "theorems": [
    "C17_optional_partial",
    "C17_optional_never_fails",
    "C17_optional_is_its_operand_partial",
    "C17_refuted"
   ],
   "note": "Never failing is proved for all patterns; the rest is false as stated. Proved for the patterns of inclass: no Optional where something around it holds a mark, no symbol(map<char,..>), no empty symbol key, no Int with one digit at most, numbers over char in bases 2-35, MIN <= MAX; a skipper begins with single characters (char_(..), lit(..) of a character, discard, lexeme and alternatives of such), behind which it may have alternatives of any length made of texts, sequences, repetitions and differences, as for comments (skippers that begin with one of these take a mark when created and go wrong, C35_refuted); an apply_skipper inside a pattern is around something that ends with a part that consumes, is not the definition of a Recur and, where a failure has to give the input back, is not around something that by itself never reads when it fails (C64); below another skipper it does not begin with a part that takes a mark at once. "
  },
  {
   "property": "C18",
   "status": "partial",
   "theorems": [
    "C18_alternative_gives_back_what_it_read_partial",
    "C18_optional_refuted",
    "C18_int_refuted"
   ],
   "note": "False as stated. Proved for the patterns of inclass: no Optional where something around it holds a mark, no symbol(map<char,..>), no empty symbol key, no Int with one digit at most, numbers over char in bases 2-35, MIN <= MAX; a skipper begins with single characters (char_(..), lit(..) of a character, discard, lexeme and alternatives of such), behind which it may have alternatives of any length made of texts, sequences, repetitions and differences, as for comments (skippers that begin with one of these take a mark when created and go wrong, C35_refuted); an apply_skipper inside a pattern is around something that ends with a part that consumes, is not the definition of a Recur and, where a failure has to give the input back, is not around something that by itself never reads when it fails (C64); below another skipper it does not begin with a part that takes a mark at once. "
  },
  {
   "property": "C35",
   "status": "partial",
   "theorems": [
    "C35_text_in_front_is_skipped_partial",
    "C35_nothing_to_skip_partial",
    "C35_parts_skip_partial",
    "C35_skipper_skips_what_it_matches_partial",
    "C35_every_part_skips_partial",
    "C35_leaf_starts_behind_skipped_text_partial",
    "C35_skipper_is_a_prefix_partial",
    "C11_skipping_parse_follows_grammar_partial",
    "C35_refuted"
   ],
   "note": "What is recognised: skippers of blanks and comments as described below. Values, place and calls (C35_every_part_skips, C35_leaf_...; exact): all skippers that leave the place alone when they fail. False for others. Proved for the patterns of inclass: no Optional where something around it holds a mark, no symbol(map<char,..>), no empty symbol key, no Int with one digit at most, numbers over char in bases 2-35, MIN <= MAX; a skipper begins with single characters (char_(..), lit(..) of a character, discard, lexeme and alternatives of such), behind which it may have alternatives of any length made of texts, sequences, repetitions and differences, as for comments (skippers that begin with one of these take a mark when created and go wrong, C35_refuted); an apply_skipper inside a pattern is around something that ends with a part that consumes, is not the definition of a Recur and, where a failure has to give the input back, is not around something that by itself never reads when it fails (C64); below another skipper it does not begin with a part that takes a mark at once. "
  },
  {
   "property": "C36",
   "status": "partial",
   "theorems": [
    "C36_lexeme_switches_skipper_off_partial",
    "C36_lexeme_reads_without_skipper_partial",
    "C36_refuted"
   ],
   "note": "False where the operand takes a mark when it is created. Proved for the patterns of inclass: no Optional where something around it holds a mark, no symbol(map<char,..>), no empty symbol key, no Int with one digit at most, numbers over char in bases 2-35, MIN <= MAX; a skipper begins with single characters (char_(..), lit(..) of a character, discard, lexeme and alternatives of such), behind which it may have alternatives of any length made of texts, sequences, repetitions and differences, as for comments (skippers that begin with one of these take a mark when created and go wrong, C35_refuted); an apply_skipper inside a pattern is around something that ends with a part that consumes, is not the definition of a Recur and, where a failure has to give the input back, is not around something that by itself never reads when it fails (C64); below another skipper it does not begin with a part that takes a mark at once. "
  },
  {
   "property": "C21",
   "status": "proved",
   "theorems": [
    "C21_answer_does_not_depend_on_destination"
   ],
   "note": "All patterns and destinations."
  },
  {
   "property": "C30",
   "status": "partial",
   "theorems": [
    "C30_parts_go_to_slots_partial",
    "C30_parts_share_one_object_partial",
    "C30_refuted"
   ],
   "note": "Exact (iff) for all sequences whose actions do not use p.bound_dst; false otherwise."
  },
  {
   "property": "C31",
   "status": "proved",
   "theorems": [
    "C31_grouping_of_sequence",
    "C31_grouping_of_alternative",
    "C31_all_operands_in_one_pattern"
   ],
   "note": "All ways to parenthesise, any number of operands."
  },
  {
   "property": "C32",
   "status": "partial",
   "theorems": [
    "C32_discard_keeps_destination_partial",
    "C32_validation_writes_nothing",
    "C32_refuted"
   ],
   "note": "Validation: all patterns. discard: false when an action below uses p.bound_dst, exact (iff) otherwise."
  },
  {
   "property": "C34",
   "status": "partial",
   "theorems": [
    "C34_action_once_per_match_partial",
    "C34_construct_partial",
    "C34_sessions_store_and_call_the_same",
    "C34_action_once_in_pieces_partial",
    "C34_refuted"
   ],
   "note": "Exact (iff) for operands whose own actions do not use p.bound_dst; the outer action may use it. False of operands that do, see the refutation."
  },
  {
   "property": "C37",
   "status": "partial",
   "theorems": [
    "C37_recur_is_its_definition_partial",
    "C37_recur_in_skipper_partial",
    "C37_refuted"
   ],
   "note": "False when the definition is itself apply_skipper(..)."
  },
  {
   "property": "C22",
   "status": "partial",
   "theorems": [
    "C22_digits_have_their_rank_partial",
    "C22_refuted"
   ],
   "note": "Exact for tokens of type char, all bases. False for wider tokens, which are truncated to char."
  },
  {
   "property": "C23",
   "status": "partial",
   "theorems": [
    "C23_uint_is_the_number_written_partial",
    "C23_minimum_refuted"
   ],
   "note": "Exact (iff) for every base 2-35, width and input over char with MAX = 0 or MIN <= MAX. False when 0 < MAX < MIN."
  },
  {
   "property": "C24",
   "status": "partial",
   "theorems": [
    "C24_int_is_the_number_written_partial",
    "C24_refuted"
   ],
   "note": "Exact (iff) including when it overflows. False for the smallest value of signed types of 32 bits and more."
  },
  {
   "property": "C25",
   "status": "partial",
   "theorems": [
    "C25_rendering_then_parsing_partial",
    "C25_refuted"
   ],
   "note": "Every value of every integral type but the smallest one of signed types of 32 bits and more, for which it is false."
  },
  {
   "property": "C26",
   "status": "partial",
   "theorems": [
    "C26_longest_key_partial",
    "C26_no_key_partial",
    "C26_failing_stores_nothing_partial",
    "C26_refuted"
   ],
   "note": "Every map without the empty key; false with it."
  },
  {
   "property": "C27",
   "status": "partial",
   "theorems": [
    "C27_character_symbols_partial",
    "C27_refuted"
   ],
   "note": "Exact; the character is not consumed, so that part of the statement is false."
  },
  {
   "property": "C28",
   "status": "proved",
   "theorems": [
    "C28_literals"
   ],
   "note": "Exact, position on failure included."
  },
  {
   "property": "C29",
   "status": "proved",
   "theorems": [
    "C29_character_sets",
    "C29_set_of_string"
   ],
   "note": "Every set expression over one character type, of any signedness and width."
  },
  {
   "property": "C19",
   "status": "partial",
   "theorems": [
    "C19_failing_element_stores_nothing_partial",
    "C19_repetition_partial",
    "C19_list_partial",
    "C19_optional_partial",
    "C19_refuted"
   ],
   "note": "False as stated (!char_ is not buffered). All patterns whose marks are properly nested (no Optional below something that holds a mark), operands that are buffered, that store one value in one go, or that store nothing when they fail; no p.bound_dst."
  },
  {
   "property": "C20",
   "status": "partial",
   "theorems": [
    "C20_failed_alternatives_leave_no_trace_partial",
    "C20_careful_alternatives_partial",
    "C20_refuted"
   ],
   "note": "False as stated (collections). All patterns whose marks are properly nested (no Optional below something that holds a mark), into scalar objects that every alternative fills, or with alternatives that store nothing when they fail."
  },
  {
   "property": "C33",
   "status": "partial",
   "theorems": [
    "C33_not_writes_nothing_partial",
    "C15_not_is_its_operand_partial",
    "C33_refuted"
   ],
   "note": "False as stated: Not stores exactly what its operand stores (iff). All patterns whose marks are properly nested (no Optional below something that holds a mark), operands that store nothing."
  },
  {
   "property": "C40",
   "status": "partial",
   "theorems": [
    "C40_repetition_appends_elements_partial",
    "C40_list_appends_elements_partial",
    "C40_optional_appends_element_partial",
    "C40_refuted"
   ],
   "note": "Exact (iff). All patterns whose marks are properly nested (no Optional below something that holds a mark), operands that store one value in one go; no p.bound_dst, see the refutation."
  },
  {
   "property": "C39",
   "status": "partial",
   "theorems": [
    "C39_list_roundtrip_partial",
    "C39_list_in_pieces_partial",
    "C39_refuted"
   ],
   "note": "Every element type, list, spacing, trailing text and cutting; false for the smallest value of signed types of 32 bits and more only."
  },
  {
   "property": "C43",
   "status": "partial",
   "theorems": [
    "C43_value_of_expression_partial",
    "C43_value_in_pieces_partial",
    "C43_refuted"
   ],
   "note": "Every expression without overflow or division by zero, every spacing and cutting, any text behind it; false if the smallest int is written out."
  },
  {
   "property": "C44",
   "status": "partial",
   "theorems": [
    "C44_actions_fold_left_partial",
    "C44_refuted"
   ],
   "note": "Exact (iff). All patterns whose marks are properly nested, operands that do not use p.bound_dst themselves (see the refutation), q giving back what it has read when it fails."
  },
  {
   "property": "C38",
   "status": "proved",
   "theorems": [
    "C38_parse_ends",
    "C38_sessions_end",
    "C38_guard_needed"
   ],
   "note": "All patterns, skippers and recursive definitions that the check accepts; without the guard *pass and left recursion are shown never to end."
  },
  {
   "property": "C42",
   "status": "proved",
   "theorems": [
    "C42_parse_keeps_to_the_types",
    "C42_sessions_keep_to_the_types"
   ],
   "note": "All patterns (recursive definitions, actions, construct, bind_dst included), destinations, inputs and cuttings the check accepts; the check is the specification's reading of what compiles, and a misfit is shown to be refused and to go wrong."
  },
  {
   "property": "C41",
   "status": "partial",
   "theorems": [
    "C41_parse_never_reads_the_indeterminate_partial",
    "C41_sessions_never_read_the_indeterminate_partial",
    "C41_refuted"
   ],
   "note": "All patterns in which a syntactic check finds that every scalar buffer is filled before it is read; false without it (a repetition of lit >> lit into a vector of int copies an uninitialised buffer)."
  },
  {
   "property": "C45",
   "status": "proved",
   "theorems": [
    "C45_parse_always_answers",
    "C45_sessions_always_answer"
   ],
   "note": "All patterns that pass the three checks, with numbers read into types whose arithmetic wraps around."
  },
  {
   "property": "C46",
   "status": "proved",
   "theorems": [
    "C46_parse_appends",
    "C46_sessions_append"
   ],
   "note": "All patterns, as an equation between outcomes (errors included); callbacks given p.bound_dst must be indifferent to what the collection starts with, and one that is not is shown to break it."
  },
  {
   "property": "C47",
   "status": "proved",
   "theorems": [
    "C47_parse_only_writes",
    "C47_sessions_only_write"
   ],
   "note": "All patterns without p.bound_dst callbacks; for integers those that pass the check of C41."
  },
  {
   "property": "C48",
   "status": "partial",
   "theorems": [
    "C48_stream_keeps_the_item_under_way_partial",
    "C48_list_keeps_what_is_behind_the_last_element_partial",
    "C48_skipping_stream_keeps_the_item_under_way_partial",
    "C48_skipping_list_keeps_what_is_behind_the_last_element_partial",
    "C48_sequence_keeps_the_part_under_way_partial",
    "C48_skipping_sequence_keeps_the_part_under_way_partial",
    "C48_optional_refuted"
   ],
   "note": "All items without Optional, in repetitions and lists that are the whole pattern and in repetitions that are a part of a sequence that fills no tuple, on their own or under a skipper that reads one character (any skippers within the item); with an Optional in the item every buffer is held, see the refutation. Other skippers around the repetition, list or sequence are not covered, nor streams deeper inside."
  },
  {
   "property": "C49",
   "status": "proved",
   "theorems": [
    "C49_fields_of_digits",
    "C49_every_text_has_fields",
    "C49_fields_in_pieces"
   ],
   "note": "Every text is shown to be of the form the theorem speaks of."
  },
  {
   "property": "C50",
   "status": "proved",
   "theorems": [
    "C50_lexeme_is_a_word",
    "C50_without_lexeme_words_run_together",
    "C50_player"
   ],
   "note": "All character sets, words, blanks and prior contents."
  },
  {
   "property": "C51",
   "status": "proved",
   "theorems": [
    "C51_characters_through_a_function"
   ],
   "note": "All character types, sets and functions; the callback's parameter type is any integral type."
  },
  {
   "property": "C52",
   "status": "proved",
   "theorems": [
    "C52_nested_lists_accepted",
    "C52_spaced_nested_lists_accepted",
    "C52_nested_lists_in_pieces"
   ],
   "note": "Exact: yes on nested lists and no on everything else, always with an answer."
  },
  {
   "property": "C53",
   "status": "partial",
   "theorems": [
    "C53_rectangle_of_two_partial",
    "C53_rectangle_of_four_partial",
    "C53_pair_partial",
    "C53_refuted"
   ],
   "note": "All ints but the least one, for which it is false."
  },
  {
   "property": "C54",
   "status": "partial",
   "theorems": [
    "C54_validation_goes_well_partial",
    "C54_validation_answers_partial",
    "C54_validation_in_pieces_answers_partial",
    "C54_refuted"
   ],
   "note": "All patterns without actions and as<..>() (those are C42, C45); as<int, int>() does not compile with Nil, see the refutation."
  },
  {
   "property": "C55",
   "status": "partial",
   "theorems": [
    "C55_rewritten_patterns_recognise_the_same_partial",
    "C55_also_below_a_skipper_partial",
    "C55_refuted"
   ],
   "note": "For the patterns of C11; -p is not p | pass where something around holds a mark, see the refutation."
  },
  {
   "property": "C56",
   "status": "proved",
   "theorems": [
    "C56_parse_ignores_bounds_beyond_the_text",
    "C56_sessions_ignore_bounds_beyond_the_text",
    "C56_reached_bounds_matter"
   ],
   "note": "All patterns whose loops consume, Recur included; a bound that is reached is shown to matter."
  },
  {
   "property": "C57",
   "status": "partial",
   "theorems": [
    "C57_texts_are_read_partial",
    "C57_texts_are_read_below_a_skipper_partial",
    "C57_what_is_read_is_a_text_partial",
    "C57_what_is_read_below_a_skipper_partial",
    "C57_grammar_is_decided_partial",
    "C57_grammar_is_decided_below_a_skipper_partial",
    "C57_texts_with_comments_are_read_partial",
    "C57_what_is_read_with_comments_is_a_text_partial",
    "C57_what_is_read_with_inner_skippers_is_a_text_partial",
    "C57_grammar_with_comments_is_decided_partial",
    "C57_json",
    "C57_next_character_needed",
    "C57_refuted"
   ],
   "note": "For the patterns of C11, below skippers of single characters and, with places instead of words, below skippers of any kind of C35 such as comments; p - q and !q only with a single character q; repeat<3, 2> is satisfied with two elements, see the refutation; the condition on the next character is shown to be needed."
  },
  {
   "property": "C58",
   "status": "partial",
   "theorems": [
    "C58_values_of_a_grammar_partial",
    "C58_values_below_a_skipper_partial",
    "C58_values_in_pieces_partial",
    "C58_values_in_pieces_below_a_skipper_partial",
    "C58_one_value_partial",
    "C58_distinct_keys_needed",
    "C58_refuted"
   ],
   "note": "False as stated (an Optional leaves a mark behind, see the refutation). For the patterns of C11, without callbacks that are given the bound destination, empty sequences and symbol tables with a key twice (the last is shown to be needed)."
  },
  {
   "property": "C59",
   "status": "partial",
   "theorems": [
    "C59_written_values_are_read_partial",
    "C59_written_values_are_read_below_a_skipper_partial",
    "C59_written_values_in_pieces_partial",
    "C59_written_values_in_pieces_below_a_skipper_partial",
    "C59_a_text_has_one_value_partial",
    "C59_values_with_comments_are_read_partial",
    "C59_values_with_comments_are_read_in_pieces_partial",
    "C59_a_text_with_comments_has_one_value_partial",
    "C59_json_with_comments",
    "C59_json_with_comments_is_unambiguous",
    "C59_json_with_comments_only",
    "C59_json",
    "C59_json_values_differ",
    "C59_json_only",
    "C59_refuted"
   ],
   "note": "For the patterns of C58, below skippers of single characters and below skippers of any kind of C35 such as comments, in which, by a computable check, failed attempts leave no trace (shown to be needed by C59_refuted). The JSON readers, without and with comments, are proved without restriction, for integers of type int but the least; texts with other integers may overflow, which the standard leaves undefined."
  },
  {
   "property": "C60",
   "status": "proved",
   "theorems": [
    "C60_only_the_text_counts",
    "C60_as_from_one_buffer",
    "C60_asking_again_changes_nothing",
    "C60_calls_so_far_are_the_first",
    "C60_calls_so_far_are_the_first_of_parse",
    "C60_elements_so_far_are_the_first",
    "C60_elements_so_far_are_the_first_of_parse"
   ],
   "note": "All patterns and environments; errors and runs without an end included."
  },
  {
   "property": "C61",
   "status": "partial",
   "theorems": [
    "C61_rewritten_patterns_store_the_same_partial",
    "C61_in_pieces_partial",
    "C61_below_a_skipper_partial",
    "C61_in_pieces_below_a_skipper_partial",
    "C61_bound_rewritten_patterns_store_the_same_partial",
    "C61_bound_in_pieces_partial",
    "C61_bound_below_a_skipper_partial",
    "C61_bound_in_pieces_below_a_skipper_partial",
    "C61_bind_the_whole_partial",
    "C61_refuted",
    "C61_bind_dst_refuted"
   ],
   "note": "For the patterns of C68 (callbacks that are given the bound destination included; there, bind_dst() can only be dropped around the whole pattern or another bind_dst()) and the laws of SpecValueLaws, each with its condition (the parts share one object, the operand stores one value in one go, the prefix stores nothing); false without them, see the refutations: (char_ >> 'a') | (char_ >> 'b') stores its first character twice, and bind_dst() inside changes what a callback is given."
  },
  {
   "property": "C62",
   "status": "proved",
   "theorems": [
    "C62_parentheses_make_no_difference",
    "C62_a_group_is_not_an_element_refuted"
   ],
   "note": "All expressions that compile (C31 is the case of one operator); the second theorem shows that a group is not one element of the destination (bind_dst() is needed)."
  },
  {
   "property": "C63",
   "status": "partial",
   "theorems": [
    "C63_expressions_mean_what_they_say_partial",
    "C63_below_a_skipper_partial",
    "C63_in_pieces_partial",
    "C63_in_pieces_below_a_skipper_partial",
    "C63_refuted"
   ],
   "note": "False as stated (an Optional leaves a mark behind, see the refutation). For the patterns of C11."
  },
  {
   "property": "C64",
   "status": "partial",
   "theorems": [
    "C64_stops_behind_what_was_read_partial",
    "C64_the_inner_skipper_counts_partial",
    "C64_part_by_part_partial",
    "C64_in_pieces_partial",
    "C64_failing_alternative_refuted",
    "C64_repetition_refuted",
    "C64_lookahead_refuted"
   ],
   "note": "For the patterns of C11, p ending with a part that consumes. False as stated: a failing alternative has eaten the text to skip in front of it, a repetition at the end of p eats the text to skip behind it, and a lookahead at the front of p goes back in front of the text the surrounding skipper skipped. C37_refuted is the case of a Recur."
  },
  {
   "property": "C65",
   "status": "partial",
   "theorems": [
    "C65_expressions_store_what_they_say_partial",
    "C65_below_a_skipper_partial",
    "C65_in_pieces_partial",
    "C65_in_pieces_below_a_skipper_partial",
    "C65_expressions_work_as_they_say_partial",
    "C65_work_below_a_skipper_partial",
    "C65_work_in_pieces_partial",
    "C65_work_in_pieces_below_a_skipper_partial",
    "C65_refuted"
   ],
   "note": "False as stated (an Optional leaves a mark behind, see the refutation). For the patterns of C58, and for those of C68 (callbacks that are given the bound destination included)."
  },
  {
   "property": "C66",
   "status": "proved",
   "theorems": [
    "C66_one_mark_per_match_of_an_optional"
   ],
   "note": "All patterns; C10 is the case without an Optional."
  },
  {
   "property": "C67",
   "status": "proved",
   "theorems": [
    "C67_marks_pending_are_bounded_by_the_pattern",
    "C67_a_pattern_that_never_goes_back_holds_nothing",
    "C67_optional_refuted"
   ],
   "note": "All patterns whose recursion does not go through itself; the last theorem shows that the term for Optionals is needed."
  },
  {
   "property": "C68",
   "status": "partial",
   "theorems": [
    "C68_bound_values_of_a_grammar_partial",
    "C68_bound_values_below_a_skipper_partial",
    "C68_bound_values_in_pieces_partial",
    "C68_bound_values_in_pieces_below_a_skipper_partial",
    "C68_one_value_partial",
    "C68_agrees_with_C58_partial",
    "C68_refuted"
   ],
   "note": "False as stated (an Optional leaves a mark behind, see the refutation). For the patterns of C11, without empty sequences and symbol tables with a key twice. C58 is the case without callbacks that are given the bound destination."
  },
  {
   "property": "C69",
   "status": "proved",
   "theorems": [
    "C69_counting_only_counts",
    "C69_steps_by_nesting",
    "C69_steps_by_order",
    "C69_linear_refuted",
    "C69_recursion_refuted"
   ],
   "note": "Counts the increments of the iterator. The two refuted ones show that the exponent and the exclusion of recursion are needed."
  },
  {
   "property": "C70",
   "status": "proved",
   "theorems": [
    "C70_counting_only_counts",
    "C70_resuming_rereads_nothing",
    "C70_steps_so_far",
    "C70_steps_by_order"
   ],
   "note": "Counts the increments of the data source. The third and fourth theorems are about sessions that go on to an answer."
  },
  {
   "property": "C71",
   "status": "proved",
   "theorems": [
    "C71_parsers_do_not_disturb_each_other",
    "C71_the_program_runs_if_each_parser_does",
    "C71_order_of_service",
    "C71_shared_object_refuted"
   ],
   "note": "Programs of make_parser, add_buffer, consume, parse() and assignments to other objects. The last theorem shows that the condition on the destinations is needed."
  },
  {
   "property": "C72",
   "status": "partial",
   "theorems": [
    "C72_a_copy_goes_on_partial",
    "C72_a_copy_can_be_fed_refuted",
    "C72_the_original_is_left_alone_refuted",
    "C72_empty_buffers_for_the_copy",
    "C72_the_copy_is_told_the_end_refuted",
    "C72_asking_both_refuted"
   ],
   "note": "False of the code: the context of the copy refers to the data source of the original, and the copy's own data source holds an iterator of the original's list. What holds: fed through the original, either of the two goes on as if no copy had been made, as long as the other is not asked."
  },
  {
   "property": "C73",
   "status": "proved",
   "theorems": [
    "C73_waits_exactly_while_open"
   ],
   "note": "All primitive patterns, numbers with bases 2 to 35; characters in the range of char; sessions that return."
  },
  {
   "property": "C74",
   "status": "partial",
   "theorems": [
    "C74_waits_exactly_while_a_part_is_open_partial",
    "C74_an_early_answer_holds_whatever_follows_partial",
    "C74_refuted"
   ],
   "note": "False of all patterns: a rollback point an optional operand leaves behind makes the next alternative start elsewhere. Proved without skipper for the class of C11; sessions that return."
  },
  {
   "property": "C75",
   "status": "partial",
   "theorems": [
    "C75_waits_exactly_while_a_part_is_open_partial",
    "C75_an_early_answer_holds_whatever_follows_partial",
    "C75_refuted"
   ],
   "note": "False of all patterns, as C74. Proved for the class of C11 below one skipper around the whole pattern that reads single characters; no further apply_skipper inside; sessions that return."
  },
  {
   "property": "C76",
   "status": "partial",
   "theorems": [
    "C76_waits_exactly_while_a_part_is_open_partial",
    "C76_below_a_skipper_partial",
    "C76_refuted"
   ],
   "note": "False of all patterns, as C74. Proved for the class of C11 with apply_skipper of single characters and lexeme anywhere (in that class apply_skipper is around something that ends with something that is read); sessions that return."
  },
  {
   "property": "C77",
   "status": "partial",
   "theorems": [
    "C77_a_moved_parser_goes_on_partial",
    "C77_a_new_parser_partial",
    "C77_moved_while_holding_never_answers_partial",
    "C77_a_moved_parser_can_be_fed_refuted",
    "C77_what_was_fed_is_moved_refuted",
    "C77_in_the_middle_refuted",
    "C77_moved_while_holding_with_optional_refuted",
    "C77_the_original_may_go_refuted"
   ],
   "note": "False of the code: the context of the moved parser refers to the data source of the object it was moved from, whose buffers and rollback points are gone. What holds: if no buffer is held when the parser is moved, for example before it is used, and all data is given to the object moved from, which is kept, it goes on as if it had not been moved; and for patterns without Optional a parser moved while it holds a buffer never answers."
  }
 ]
}