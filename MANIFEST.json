{
 "claims": [
  {
   "property": "C01",
   "status": "proved",
   "theorems": [
    "C01_stream_delivers_text",
    "C01_observers_do_not_move",
    "C01_peek_predicts_next",
    "C01_eof_is_final",
    "C01_next_takes_one"
   ],
   "note": "All call sequences on a string stream."
  },
  {
   "property": "C02",
   "status": "proved",
   "theorems": [
    "C02_skip_takes_whitespace",
    "C02_white_space"
   ],
   "note": "Any state of a plain or wrapped stream."
  },
  {
   "property": "C03",
   "status": "proved",
   "theorems": [
    "C03_match_is_prefix_test"
   ],
   "note": "Any state of a plain or wrapped stream."
  },
  {
   "property": "C04",
   "status": "proved",
   "theorems": [
    "C04_position_is_true",
    "C04_position_is_harmless"
   ],
   "note": "All call sequences; Position leaves every answer but those of PositionLookup unchanged (see C05 for those)."
  },
  {
   "property": "C05",
   "status": "partial",
   "theorems": [
    "C05_lookup_refuted",
    "C05_lookup_partial",
    "C05_lookup_wrong",
    "C05_lookup_nil"
   ],
   "note": "False as stated: an index inside the first line is reported on line 2 with a negative column once the newline is recorded. The exact set of wrong answers is characterised."
  },
  {
   "property": "C06",
   "status": "proved",
   "theorems": [
    "C06_prepend_rewinds",
    "C06_prepend_position"
   ],
   "note": "Any stream, any nesting."
  },
  {
   "property": "C07",
   "status": "proved",
   "theorems": [
    "C07_concurrent_next_delivers_text",
    "C07_linearizable",
    "C07_program_order",
    "C07_no_deadlock"
   ],
   "note": "Every schedule, any number of goroutines."
  },
  {
   "property": "C08",
   "status": "partial",
   "theorems": [
    "C08_concurrent_position_refuted",
    "C08_concurrent_readers_partial"
   ],
   "note": "False as stated: two Position calls racing on a newline corrupt the line table. Without Position every mixture of calls is linearizable."
  },
  {
   "property": "C09",
   "status": "proved",
   "theorems": [
    "C09_char_terminal",
    "C09_chars_terminal",
    "C09_string_terminal"
   ],
   "note": "For non-empty literals; charAt/literalAt are stated on the remaining text alone."
  },
  {
   "property": "C10",
   "status": "partial",
   "theorems": [
    "C10_range_stays_in_range_refuted",
    "C10_range_partial",
    "C10_range_exact_partial"
   ],
   "note": "False as stated: while leading white space is skipped, a white rune above the range is matched. Proved: only white space can be matched from outside, and a range is exact on texts without such white space."
  },
  {
   "property": "C11",
   "status": "proved",
   "theorems": [
    "C11_text_never_panics",
    "C11_history_never_panics",
    "C11_eval_never_panics",
    "C11_evalRule_never_panics",
    "C11_evalEmbed_never_panics",
    "C11_evalRaw_never_panics",
    "C11_evalTop_never_panics"
   ],
   "note": "Rules are those the definition parser can produce (wfRule), texts are runes >= 0, and the drivers are quantified over every map iteration order."
  },
  {
   "property": "C12",
   "status": "proved",
   "theorems": [
    "C12_trees_are_derivations",
    "C12_node_or_error"
   ],
   "note": "For rules with the arities the definition parser guarantees (wfRule, C38)."
  },
  {
   "property": "C13",
   "status": "proved",
   "theorems": [
    "C13_read_accounting"
   ],
   "note": ""
  },
  {
   "property": "C14",
   "status": "partial",
   "theorems": [
    "C14_read_exact_refuted",
    "C14_read_exact_partial"
   ],
   "note": "False as stated: concatenation and repetition count look-ahead twice. Exact whenever none of the look-ahead uses listed in SpecEval.v (SUnsafe) occurs; an ambiguous choice reports nothing unused."
  },
  {
   "property": "C15",
   "status": "partial",
   "theorems": [
    "C15_refinement_refuted",
    "C15_refinement_partial",
    "C15_termination_partial",
    "C15_semantics_deterministic"
   ],
   "note": "False as stated: {\"+\"} ['z'] ')' ')' accepts \")\". Whenever none of the look-ahead uses listed in SpecEval.v occurs, eval gives the outcome of the textbook relation Ev, and does so whenever Ev has one."
  },
  {
   "property": "C16",
   "status": "partial",
   "theorems": [
    "C16_greediest_refuted",
    "C16_greediest_partial"
   ],
   "note": "False when an alternative misreports what it read (C14); proved for choices whose alternatives report honestly."
  },
  {
   "property": "C17",
   "status": "partial",
   "theorems": [
    "C17_unordered_refuted",
    "C17_unordered_partial"
   ],
   "note": "False when two shorter matches tie before a longer one; proved outside that case for honest alternatives."
  },
  {
   "property": "C18",
   "status": "partial",
   "theorems": [
    "C18_ambiguity_refuted",
    "C18_ambiguity_partial"
   ],
   "note": "False: an option swallows the ambiguity. The choice itself always reports it."
  },
  {
   "property": "C19",
   "status": "partial",
   "theorems": [
    "C19_block_content_partial",
    "C19_block_content_refuted"
   ],
   "note": "Proved for every text, every three runes (escape optional, close virtual or not): acceptance, end and failure exactly as specified by upToClose; content equal when every escape precedes a close. Refuted in general: an escape in front of an ordinary rune is kept twice."
  },
  {
   "property": "C20",
   "status": "partial",
   "theorems": [
    "C20_excludes_partial",
    "C20_excludes_refuted"
   ],
   "note": "Refuted: two excludes that tie are not seen. Proved for every block and text outside the look-ahead cases listed in SpecEval.v: no exclude matches between open and close."
  },
  {
   "property": "C21",
   "status": "partial",
   "theorems": [
    "C21_termination_refuted",
    "C21_class_refuted",
    "C21_circles_refuted",
    "C21_escape_refuted",
    "C21_termination_partial",
    "C21_bounded_termination"
   ],
   "note": "Refuted by left recursion (r = r 'a'), and also without recursion: { a | b | ababx } on abab is given the same text back for ever. Two further circles come from runes counted twice by a failing alternative and put back twice: white space, in a grammar without blocks whose alternatives begin with different runes, and escapes, on a text without white space. Proved: every grammar of the decidable class noCircles has an outcome on every text, which evaluation reaches unless it runs into one of the look-ahead cases (the second refutation shows that this is needed); unconditional for bounded grammars, with fuel independent of the text."
  },
  {
   "property": "C22",
   "status": "proved",
   "theorems": [
    "C22_stickiness"
   ],
   "note": ""
  },
  {
   "property": "C23",
   "status": "proved",
   "theorems": [
    "C23_reference_toggles"
   ],
   "note": ""
  },
  {
   "property": "C24",
   "status": "partial",
   "theorems": [
    "C24_partition_refuted",
    "C24_returns_refuted",
    "C24_shape",
    "C24_partition_partial",
    "C24_returns_partial",
    "C24_returns_class_partial"
   ],
   "note": "False as stated: a tie at the top of the rule drops text (r = a | a on ab), and a nullable rule never returns. The shape part (no empty, no adjacent text nodes) holds always; the partition holds where the rule neither ties nor meets the look-ahead cases; termination where every evaluation is defined and uses text."
  },
  {
   "property": "C25",
   "status": "partial",
   "theorems": [
    "C25_whole_text_refuted",
    "C25_whole_text_partial",
    "C25_answers_partial",
    "C25_root_trees"
   ],
   "note": "False as stated (r = abcd | a | b on abcx). Holds for at most two roots (or roots that look evenly ahead) when each round looks at least as far as the round before; then in both directions."
  },
  {
   "property": "C26",
   "status": "partial",
   "theorems": [
    "C26_deterministic_refuted",
    "C26_deterministic_partial",
    "C26_one_root"
   ],
   "note": "False as stated for three roots (a, a, ab on ab). Holds unconditionally for one root, and under the conditions of C25 for more."
  },
  {
   "property": "C27",
   "status": "proved",
   "theorems": [
    "C27_exhausted_stream",
    "C27_no_roots",
    "C27_undefined_rule",
    "C27_success_has_nodes"
   ],
   "note": ""
  },
  {
   "property": "C28",
   "status": "proved",
   "theorems": [
    "C28_remove_virtual",
    "C28_ast_remove_virtual"
   ],
   "note": "Document order with depths before and after; every tree."
  },
  {
   "property": "C29",
   "status": "proved",
   "theorems": [
    "C29_remove_nondata",
    "C29_ast_remove_nondata",
    "C29_commute",
    "C29_ast_commute"
   ],
   "note": ""
  },
  {
   "property": "C30",
   "status": "proved",
   "theorems": [
    "C30_merge",
    "C30_merge_unique",
    "C30_merge_local"
   ],
   "note": "The relation merged describes the result completely (it is functional)."
  },
  {
   "property": "C31",
   "status": "partial",
   "theorems": [
    "C31_text_preserved_refuted",
    "C31_ink_preserved_partial",
    "C31_text_preserved_partial"
   ],
   "note": "False: r = \"x\" ['z'] 'y' on xy gives \"xy\" before and \"x y\" after. Proved: non-white text always kept; the text itself when no sticky node is empty."
  },
  {
   "property": "C32",
   "status": "partial",
   "theorems": [
    "C32_named_kept_refuted",
    "C32_redundant_partial",
    "C32_named_kept_partial",
    "C32_ast_redundant_partial",
    "C32_evaluated_proper"
   ],
   "note": "False in one point: a named node with empty text below an unnamed one is dropped. Everything else proved, and named nodes are kept when they have a text."
  },
  {
   "property": "C33",
   "status": "proved",
   "theorems": [
    "C33_text_only_separates",
    "C33_ast_text",
    "C33_no_ink_lost"
   ],
   "note": ""
  },
  {
   "property": "C34",
   "status": "partial",
   "theorems": [
    "C34_tokenized_refuted",
    "C34_tokenized_partial"
   ],
   "note": "False: the Tokenized mark is ignored by MergeStickyNodes. Kept apart only next to a non-sticky node."
  },
  {
   "property": "C35",
   "status": "partial",
   "theorems": [
    "C35_virtual_text_refuted",
    "C35_virtual_text_partial"
   ],
   "note": "False: merging runs first, so a virtual first part of a token takes the rest with it and a virtual later part stays. Proved (all levels) for trees in which sticky nodes contain no virtual node."
  },
  {
   "property": "C36",
   "status": "proved",
   "theorems": [
    "C36_steps_shrink",
    "C36_simplify_shrinks",
    "C36_node_steps_shrink"
   ],
   "note": ""
  },
  {
   "property": "C37",
   "status": "proved",
   "theorems": [
    "C37_parseRule_verdict",
    "C37_addRule_verdict",
    "C37_grammar_verdict"
   ],
   "note": "Every list of runes; the parser model carries explicit fuel and the theorems say the fuel chosen from the length never runs out."
  },
  {
   "property": "C38",
   "status": "proved",
   "theorems": [
    "C38_parseRule_well_formed",
    "C38_addRule_well_formed",
    "C38_spelling"
   ],
   "note": "C38_spelling relates every accepted definition to the notation of SpecParse.v."
  },
  {
   "property": "C39",
   "status": "proved",
   "theorems": [
    "C39_closed",
    "C39_undefined_fails",
    "C39_never_undefined"
   ],
   "note": ""
  },
  {
   "property": "C40",
   "status": "proved",
   "theorems": [
    "C40_one_line_per_name",
    "C40_unique_in_history",
    "C40_invalid_rejected",
    "C40_duplicate_rejected",
    "C40_invalid_definition_rejected",
    "C40_duplicate_definition_rejected",
    "C40_definitions_stay"
   ],
   "note": ""
  },
  {
   "property": "C41",
   "status": "partial",
   "theorems": [
    "C41_roots_refuted",
    "C41_roots_partial",
    "C41_one_validation",
    "C41_no_root_missing_partial",
    "C41_grammar_text",
    "C41_roots_are_rules"
   ],
   "note": "False as stated: roots are never withdrawn. Proved exactly for grammar texts and for one final validation; for any history the exact set of roots is characterised when no definition failed."
  },
  {
   "property": "C42",
   "status": "partial",
   "theorems": [
    "C42_unchanged_refuted",
    "C42_unchanged_partial",
    "C42_other_errors",
    "C42_failed_validation"
   ],
   "note": "False as stated: the references of a rejected definition stay behind, so a later validation can fail or lose a root. Everything else is unchanged."
  },
  {
   "property": "C43",
   "status": "proved",
   "theorems": [
    "C43_records"
   ],
   "note": "Also says the records are exactly the definitions of the text, read as they stand there."
  },
  {
   "property": "C44",
   "status": "partial",
   "theorems": [
    "C44_round_trip_refuted",
    "C44_round_trip_partial"
   ],
   "note": "False as stated (ten misprints shown); proved for the class of rules in SpecPrint.v."
  },
  {
   "property": "C45",
   "status": "partial",
   "theorems": [
    "C45_read_to_the_end_refuted",
    "C45_no_rune_is_dropped_refuted",
    "C45_read_to_the_end_partial",
    "C45_one_line"
   ],
   "note": "False as stated: a closing rune on a line after a comment ends the definition silently, and annotations in front of nothing are dropped. Proved for one-line definitions, and exactly where text can be lost otherwise."
  },
  {
   "property": "C46",
   "status": "partial",
   "theorems": [
    "C46_string_escape_refuted",
    "C46_escape_partial",
    "C46_char_escape_partial",
    "C46_chars_escape_partial",
    "C46_string_escape_partial",
    "C46_value",
    "C46_one_value",
    "C46_rejected",
    "C46_rejected_in_literal"
   ],
   "note": "False in one point: D800-DFFF in a double-quoted string is replaced by U+FFFD (Go conversion of runes to a string). Proved elsewhere."
  },
  {
   "property": "C47",
   "status": "proved",
   "theorems": [
    "C47_bounds",
    "C47_one_meaning",
    "C47_too_large",
    "C47_wrong_order",
    "C47_nothing_else"
   ],
   "note": ""
  },
  {
   "property": "C48",
   "status": "partial",
   "theorems": [
    "C48_nonempty_refuted",
    "C48_ends_partial"
   ],
   "note": "False as stated: the order of the ends is not checked. Proved: the ends are the two runes written."
  },
  {
   "property": "C49",
   "status": "proved",
   "theorems": [
    "C49_text_only"
   ],
   "note": ""
  },
  {
   "property": "C50",
   "status": "proved",
   "theorems": [
    "C50_accepted",
    "C50_error_line",
    "C50_undefined"
   ],
   "note": ""
  },
  {
   "property": "C51",
   "status": "proved",
   "theorems": [
    "C51_later_definitions"
   ],
   "note": ""
  },
  {
   "property": "C52",
   "status": "partial",
   "theorems": [
    "C52_textbook_refuted",
    "C52_never_unsafe_partial",
    "C52_exact_partial",
    "C52_returns_partial",
    "C52_embed_partial",
    "C52_class_checked_partial"
   ],
   "note": "False for LL(1) in general: r = {\"+\"} [z] ) ) accepts \")\". Proved for the LL(1) grammars in which no two neighbours that may look ahead or match nothing stand in front of a third element, on texts whose white space is <= 32; membership in the class is checked by a proved decision procedure."
  },
  {
   "property": "C53",
   "status": "partial",
   "theorems": [
    "C53_language_refuted",
    "C53_semantics_language",
    "C53_language_decided_partial",
    "C53_language_sound_partial"
   ],
   "note": "False for LL(1) in general (same cause as C52). The textbook semantics finds exactly the language in all LL(1) grammars; EvalRule decides it in the strict class of C52; with white space, nothing outside the language is accepted."
  },
  {
   "property": "C54",
   "status": "partial",
   "theorems": [
    "C54_range_refuted",
    "C54_first_line_refuted",
    "C54_leaves_in_place_partial"
   ],
   "note": "False as stated: a range carries the position of the rune before its part, a literal beginning with white space that of the rune after the white space, and a rune inside the first line may get line 2 (C05). Proved for all other leaves where look-ahead is harmless (C14)."
  },
  {
   "property": "C55",
   "status": "proved",
   "theorems": [
    "C55_text_of_leaf",
    "C55_text_of_eof",
    "C55_text_of_childless",
    "C55_text_separators"
   ],
   "note": ""
  },
  {
   "property": "C56",
   "status": "proved",
   "theorems": [
    "C56_levels_exact",
    "C56_levels_unique",
    "C56_reduced_exact",
    "C56_reduced_unique",
    "C56_outlines_determine",
    "C56_eval",
    "C56_eval_errors"
   ],
   "note": ""
  },
  {
   "property": "C57",
   "status": "proved",
   "theorems": [
    "C57_counts",
    "C57_node_counts",
    "C57_nodesOf"
   ],
   "note": ""
  },
  {
   "property": "C58",
   "status": "partial",
   "theorems": [
    "C58_evalRule_refuted",
    "C58_evalRule_partial",
    "C58_evalRule_answers_partial"
   ],
   "note": "False where look-ahead is misplaced (C14, C15); proved otherwise."
  },
  {
   "property": "C59",
   "status": "proved",
   "theorems": [
    "C59_lines",
    "C59_every_node",
    "C59_faithful",
    "C59_default",
    "C59_ast_lines",
    "C59_ast_number",
    "C59_ast_faithful",
    "C59_eval_drawable",
    "C59_history_drawable",
    "C59_evalRule_drawable",
    "C59_inner_texts_refuted"
   ],
   "note": "The refutation is about the option PrintNonleafNodeText only: with it a text can imitate a child."
  },
  {
   "property": "C60",
   "status": "partial",
   "theorems": [
    "C60_listing",
    "C60_history_listing",
    "C60_rules",
    "C60_rules_any_order",
    "C60_determined_refuted",
    "C60_marks_refuted"
   ],
   "note": "Everything is proved except that the output is a function of the grammar: the relation part walks over a map, so its lines come in any order; and a refused definition can cost a later rule of the same name its [T]. With and without details."
  },
  {
   "property": "C61",
   "status": "partial",
   "theorems": [
    "C61_run",
    "C61_answers_unique",
    "C61_trees",
    "C61_refused",
    "C61_data_level_refuted",
    "C61_data_level_partial"
   ],
   "note": "Everything is proved except the last sentence: the tool removes redundant nodes before virtual ones and so can show virtual text that Eval at the data-only level drops; the two agree where nothing inside the merged tree is virtual or non-data. The file system is a function from names to contents."
  },
  {
   "property": "C62",
   "status": "partial",
   "theorems": [
    "C62_rule_alone",
    "C62_rule_alone_refuted",
    "C62_rules_as_lines",
    "C62_rules_as_lines_partial",
    "C62_rules_as_lines_refuted"
   ],
   "note": "Both parts are false. Exactly proved: -rule alone reports that the file without a name cannot be read; with a file, the rules are the same but a root of the file stays a root although a -rule refers to it."
  },
  {
   "property": "C63",
   "status": "partial",
   "theorems": [
    "C63_failure_names_a_part",
    "C63_cause_is_kept_refuted"
   ],
   "note": "Everything is proved except that the cause is kept: a choice that fails at the first rune of the text drops the errors of its alternatives."
  },
  {
   "property": "C64",
   "status": "partial",
   "theorems": [
    "C64_text_is_a_chain",
    "C64_end_of_chain",
    "C64_description",
    "C64_wording",
    "C64_one_wording",
    "C64_no_cause_refuted",
    "C64_choice_says_or_refuted"
   ],
   "note": "Proved for every error that has a cause; where a choice kept none the message ends in the placeholder that fmt writes for a nil error. The wording is given by relations of its own (SpecMessage.v). A choice is described with \"and\", like a concatenation."
  },
  {
   "property": "C65",
   "status": "partial",
   "theorems": [
    "C65_errors_in_place_partial",
    "C65_message_says_where_partial",
    "C65_missing_is_missing_refuted"
   ],
   "note": "Missing: the uses of look-ahead that SpecEval.v calls unsafe, positions in the first line that the line table gets wrong (C05), literals of white space only (they can stand where they are reported missing), and an ErrIdx of 0 for undefined references and ambiguities."
  },
  {
   "property": "C66",
   "status": "partial",
   "theorems": [
    "C66_one_error_per_root",
    "C66_two_results",
    "C66_wording",
    "C66_why_partial",
    "C66_answers_partial",
    "C66_one_text_refuted",
    "C66_ambiguity_is_longest_refuted"
   ],
   "note": "The contents of the errors are proved for every grammar; why the text is refused, in both directions, under the conditions of C25. False: an early tie is reported although a third root matches more, and the text of the error depends on the order of the maps."
  },
  {
   "property": "C67",
   "status": "partial",
   "theorems": [
    "C67_outline",
    "C67_below",
    "C67_order_refuted",
    "C67_marks_refuted",
    "C67_depth_refuted"
   ],
   "note": "The layout is proved exactly (the spec puts the extra margin of a block into the piece). False: blocks stand one margin further in than other parts of their depth, a choice by order looks like a choice by length, and the marks of composite parts are not shown."
  },
  {
   "property": "C68",
   "status": "proved",
   "theorems": [
    "C68_faithful",
    "C68_layout",
    "C68_results",
    "C68_merge",
    "C68_error_shown_refuted"
   ],
   "note": "The refutation concerns an error next to a tree (repetitions and options leave one): it is not printed."
  },
  {
   "property": "C69",
   "status": "partial",
   "theorems": [
    "C69_reason_partial",
    "C69_one_reason",
    "C69_no_match",
    "C69_cause_lost_partial",
    "C63_cause_is_kept_refuted"
   ],
   "note": "Proved wherever the bookkeeping of look-ahead is sound (SpecEval.v). That the innermost cause is kept is false (C63); it is lost only at index 0 of the text or next to undefined references and ambiguities."
  },
  {
   "property": "C70",
   "status": "proved",
   "theorems": [
    "C70_same_acceptance",
    "C70_same_refusal",
    "C70_refusal",
    "C70_error_fits",
    "C70_missing",
    "C70_one_place",
    "C70_shown_rune_is_next_refuted"
   ],
   "note": "What fits is the relation about in SpecRefuse.v; an error about something missing also names a rune with which the text would go on (C70_missing). The refutation is about a stronger reading: behind a repetition count that is already too large the error can show a later rune."
  },
  {
   "property": "C71",
   "status": "partial",
   "theorems": [
    "C71_complaint",
    "C71_error_iff_text",
    "C71_any_undefined",
    "C71_parse_rule",
    "C71_add_rule",
    "C71_parse_rule_text",
    "C71_add_rule_text",
    "C71_body",
    "C71_name",
    "C71_one_wording",
    "C71_wording_determines_partial",
    "C71_wording_determines_refuted"
   ],
   "note": "Everything is proved except the last sentence: the end of the text is shown as U+FFFD, so it reads like that rune; otherwise the wording determines the error. The text is a list, because the map order decides which undefined name is shown."
  },
  {
   "property": "C72",
   "status": "partial",
   "theorems": [
    "C72_values_partial",
    "C72_eval_partial",
    "C72_returns_partial",
    "C72_sound_partial",
    "C72_one_value",
    "C72_one_row",
    "C72_tree_tells",
    "C72_spellable",
    "C72_print",
    "C72_print_read",
    "C72_rule_partial",
    "C72_rule_returns_partial",
    "C72_trailing_refuted",
    "C72_print_refuted",
    "C72_data_refuted",
    "C72_escape_refuted"
   ],
   "note": "Proved for every text without backslashes, at the levels 0 (all) and 1: accepted are rows of values, each with its tree. False: white space (a newline) at the end is refused, several values in a row are printed without a separator (1 2 gives 12), at level 2 an empty string in an array leaves no trace, and an escape other than that of the quote gets its backslash doubled. Strings with escapes are outside the exact description."
  },
  {
   "property": "C73",
   "status": "partial",
   "theorems": [
    "C73_returns_partial",
    "C73_eval_partial",
    "C73_rounds_partial",
    "C73_idles",
    "C73_class_partial",
    "C73_returns_refuted",
    "C73_uses_refuted"
   ],
   "note": "False: a root rule that matches no text makes EvalRaw loop (nothing guards against it), and with three root rules text that was read is put back twice, so that even rules that always use text can go round. Proved: for careful rules, at most two root rules (or rules that look equally far), EvalRaw returns exactly when the rounds do not come back to the same text in the same mode, and then within two rounds for a rune."
  },
  {
   "property": "C74",
   "status": "proved",
   "theorems": [
    "C74_eval",
    "C74_rule",
    "C74_embed",
    "C74_top",
    "C74_stored",
    "C74_injective_refuted"
   ],
   "note": "The refutation shows that the renaming must keep different names different."
  },
  {
   "property": "C75",
   "status": "proved",
   "theorems": [
    "C75_eval",
    "C75_rule",
    "C75_embed",
    "C75_raw",
    "C75_stored",
    "C75_level_refuted"
   ],
   "note": "The refutation is a remark: at level 0 Eval keeps a root that is marked non-data unreduced, so the claim does not extend to the reductions."
  },
  {
   "property": "C76",
   "status": "partial",
   "theorems": [
    "C76_eval_partial",
    "C76_raw_partial",
    "C76_back",
    "C76_option_refuted",
    "C76_tie_refuted"
   ],
   "note": "False for parentheses around an option (an option that is not taken keeps the advice about white space, the same option in parentheses does not) and around a choice that can be ambiguous directly in an option, a repetition or as the close of a block (the choice loses what it read, the group gives it back). Proved in both directions for all other rewritings at any number of places."
  },
  {
   "property": "C77",
   "status": "partial",
   "theorems": [
    "C77_match_partial",
    "C77_rule_partial",
    "C77_raw_partial",
    "C77_wide_refuted"
   ],
   "note": "False for white space above a range: the range takes it. Proved for white space below all ranges that stands in no literal, runs of which may be exchanged for other runs (contents of blocks included, where the content differs in the same way), except directly behind an escape; escapes of blocks must be one rune. For EvalRaw under the conditions of C25 on both texts."
  },
  {
   "property": "C78",
   "status": "proved",
   "theorems": [
    "C78_looks",
    "C78_append"
   ],
   "note": "No condition on grammar, rule or text. The line table of the stream is the same too."
  },
  {
   "property": "C79",
   "status": "partial",
   "theorems": [
    "C79_reported_partial",
    "C79_reported_refuted"
   ],
   "note": "False where CharsRead is not what was read (C14), for instance when two excludes of a block tie: their runes are not reported. Proved for all careful evaluations."
  },
  {
   "property": "C80",
   "status": "proved",
   "theorems": [
    "C80_grammar",
    "C80_calls",
    "C80_rule",
    "C80_code_points",
    "C80_decode",
    "C80_decoded",
    "C80_bytes_back",
    "C80_runes_back",
    "C80_written",
    "C80_first_byte"
   ],
   "note": "Texts of messages about strings that are not UTF-8 are not modelled."
  },
  {
   "property": "C81",
   "status": "proved",
   "theorems": [
    "C81_accepted",
    "C81_when",
    "C81_rules",
    "C81_answers",
    "C81_same_rules"
   ],
   "note": ""
  },
  {
   "property": "C82",
   "status": "partial",
   "theorems": [
    "C82_read_partial",
    "C82_not_utf8_refuted"
   ],
   "note": "False for strings that are not UTF-8, each bad byte of which is read as U+FFFD; and where CharsRead is not what was read (C14). Proved for UTF-8 and careful evaluations."
  },
  {
   "property": "C83",
   "status": "partial",
   "theorems": [
    "C83_reread_partial",
    "C83_reread_refuted"
   ],
   "note": "False: a sticky terminal at the head of a group that is not sticky gets a space in front which it does not skip; the escapes of a block are not in its text. Proved for matches whose text had white space wherever Text puts a separator and nowhere else, in grammars whose terminals take no white space, for careful evaluations."
  },
  {
   "property": "C84",
   "status": "proved",
   "theorems": [
    "C84_eval",
    "C84_rule",
    "C84_embed",
    "C84_raw"
   ],
   "note": "The line table, slices of pointers and the runes in rules are not slices of a heap."
  },
  {
   "property": "C85",
   "status": "proved",
   "theorems": [
    "C85_own",
    "C85_simplify",
    "C85_text",
    "C85_eval"
   ],
   "note": "Nodes are values, not pointers: each is in one place of one tree."
  },
  {
   "property": "C86",
   "status": "partial",
   "theorems": [
    "C86_meant_refuted",
    "C86_lines_refuted",
    "C86_space_refuted",
    "C86_sums_partial",
    "C86_returns_partial",
    "C86_whole_partial",
    "C86_usual",
    "C86_once_partial"
   ],
   "note": "False: a number such as .5 is refused behind white space, digits on different lines in front of a dot become one number (1 newline 2.5 is read as 12.5), U+00A0 is read as a digit. Proved, for samples without white space beyond the blank, with numbers as they are read; and every text with a digit or sign in front of each dot is read as it is meant."
  },
  {
   "property": "C87",
   "status": "partial",
   "theorems": [
    "C87_space_refuted",
    "C87_raw_partial",
    "C87_returns_partial",
    "C87_once_partial",
    "C87_rule_partial",
    "C87_rule_returns_partial",
    "C87_written_partial",
    "C87_rows_refuted",
    "C87_end_refuted"
   ],
   "note": "False in general: U+00A0 is read as a digit, a row that starts with a minus is joined to the row above (A and -5 below it are A-5), and a text that ends with white space (a newline at the end of the file) is refused. Proved for all texts in which no white space is beyond the blank: EvalRaw and EvalRule answer exactly the reading described (Pages, which is unique), they return, and rows that start with a letter or a parenthesis are read as written."
  },
  {
   "property": "C88",
   "status": "partial",
   "theorems": [
    "C88_escape_refuted",
    "C88_eval_partial",
    "C88_returns_partial",
    "C88_once",
    "C88_rule_partial",
    "C88_rule_returns_partial",
    "C88_file_partial",
    "C88_empty_refuted",
    "C88_space_refuted"
   ],
   "note": "False in general: a backslash before an ordinary rune is doubled in the value (a=b\\\\c gives b and two backslashes and c). Proved for all texts without backslashes, at the levels 1 and 2. Also refuted: that an empty value is read as empty (the next line becomes the value), and that white space in front of the separator is not part of the key."
  },
  {
   "property": "C89",
   "status": "partial",
   "theorems": [
    "C89_parts_refuted",
    "C89_whole_partial",
    "C89_eval_partial",
    "C89_value_partial",
    "C89_lost",
    "C89_texts"
   ],
   "note": "False: parts of arrays and objects behind the first one are lost when no text is left in them (the second part of [1,[],2]). Proved for values without empty strings, arrays and objects; and for every text without backslashes the trees are given exactly: all texts are kept in order, and two values get the same tree just if they differ in such lost parts."
  },
  {
   "property": "C90",
   "status": "partial",
   "theorems": [
    "C90_gap_refuted",
    "C90_embed_partial",
    "C90_returns_partial",
    "C90_finds_partial",
    "C90_one_way"
   ],
   "note": "False: EvalEmbed asks for values without leading white space, yet a number takes the white space in front of it, because the empty word it starts with matches without it (the words of [a 1] are [a]). Proved for texts without backslashes once numbers may do so: exactly the values standing in the text are found, from left to right, each with the tree of its value, all else is kept as words, there is an answer for every text, and no text can be cut up in two ways."
  },
  {
   "property": "C91",
   "status": "partial",
   "theorems": [
    "C91_empty_refuted",
    "C91_none_refuted",
    "C91_eval_partial",
    "C91_embed_partial"
   ],
   "note": "False: behind an empty word, or behind a repetition without iterations, white space is skipped although NOT_SKIP was asked for (both witnesses take the space in front of [ a]). Proved for rules that start with something that takes text, up to options in front, as long as the look-ahead cases of SpecEval.v do not occur; then EvalEmbed keeps all white space in front of matches as text."
  },
  {
   "property": "C92",
   "status": "partial",
   "theorems": [
    "C92_repetition_refuted",
    "C92_word_refuted",
    "C92_eval_partial",
    "C92_embed_partial"
   ],
   "note": "False: a repetition skips white space in front of all its iterations or of none (a repetition of the rune a on [a a]), and a word that itself starts with white space looks at more runes when it does not skip. Proved for rules that start with neither, up to Positions and errors, as long as the look-ahead cases of SpecEval.v do not occur; all rules of the JSON grammar are of this kind."
  },
  {
   "property": "C93",
   "status": "partial",
   "theorems": [
    "C93_blanks_refuted",
    "C93_embed_partial"
   ],
   "note": "False: an attempt that fails after counting a blank twice puts it back twice, and the sample has a rune more from then on (the text behind the match in [xy a c] is [ a  c] with two blanks). Proved as long as the look-ahead cases of SpecEval.v do not occur; ties are allowed."
  },
  {
   "property": "C94",
   "status": "proved",
   "theorems": [
    "C94_eval",
    "C94_rule",
    "C94_embed",
    "C94_raw",
    "C94_top",
    "C94_cli",
    "C94_more",
    "C94_embed_more",
    "C94_cli_more"
   ],
   "note": "An answer found within any bounds is the only one, for every evaluation function and for the command line. Whether there are bounds with an answer is C21 and C73."
  },
  {
   "property": "C95",
   "status": "proved",
   "theorems": [
    "C95_again",
    "C95_eval",
    "C95_settled"
   ],
   "note": "For all trees, not only those of evaluations. Raising the level afterwards is not the same as evaluating at the higher level (C95_upwards): marks on unnamed inner nodes are lost when these are reduced."
  },
  {
   "property": "C96",
   "status": "partial",
   "theorems": [
    "C96_text_refuted",
    "C96_tree_refuted",
    "C96_level",
    "C96_raise_partial",
    "C96_eval_partial",
    "C96_same_text"
   ],
   "note": "False as stated: a mark on an unnamed inner node goes with the node, so that the text it should hide stays (C96_text_refuted); with named marks the unnamed nodes left can differ in type and position (C96_tree_refuted). Proved: when all that the higher level drops has a name, both ways keep the same named nodes with text, nested alike, with the same texts in the leaves; each single level keeps these but for what it drops (C96_level). For evaluations this holds when only named rules and references of the grammar carry marks (C96_eval_partial)."
  },
  {
   "property": "C97",
   "status": "proved",
   "theorems": [
    "C97_virtual",
    "C97_nondata"
   ],
   "note": "For the answers as a whole, failures included. The marks are looked for in the rules of the grammar, not in the tree."
  }
 ]
}