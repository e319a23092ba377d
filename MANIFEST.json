{
 "claims": [
  {
   "property": "C01",
   "status": "proved",
   "theorems": [
    "C01_chunking",
    "C01_parsefrags"
   ],
   "note": "Proved for the literal coroutine model, all pieces lists with safe cuts; also for parsefrags."
  },
  {
   "property": "C02",
   "status": "proved",
   "theorems": [
    "C02_cut_in_value",
    "C02_uncut_value",
    "C02_any_chunking_refuted"
   ],
   "note": "Finding. Always an error for plain values; silently different events for some documents."
  },
  {
   "property": "C03",
   "status": "proved",
   "theorems": [
    "C03_empty_pieces"
   ],
   "note": ""
  },
  {
   "property": "C04",
   "status": "proved",
   "theorems": [
    "C04_well_nested"
   ],
   "note": "Any sequence of sends, final or not."
  },
  {
   "property": "C05",
   "status": "proved",
   "theorems": [
    "C05_streaming",
    "C05_history"
   ],
   "note": "Both for longer text in one piece and for further sends."
  },
  {
   "property": "C06",
   "status": "proved",
   "theorems": [
    "C06_parses_documents"
   ],
   "note": "strict_doc of Grammar.v; no white space after the equals sign (see C78)."
  },
  {
   "property": "C07",
   "status": "proved",
   "theorems": [
    "C07_complete_iff_lenient",
    "C07_unambiguous"
   ],
   "note": "Equivalence with the lenient grammar."
  },
  {
   "property": "C08",
   "status": "proved",
   "theorems": [
    "C08_reference_in_text",
    "C08_reference_in_value",
    "C08_wrong_reference_in_text",
    "C08_wrong_reference_in_value",
    "C08_reference_cases"
   ],
   "note": ""
  },
  {
   "property": "C09",
   "status": "proved",
   "theorems": [
    "C09_hangs_iff_junk_first"
   ],
   "note": "Finding: characterises exactly the inputs on which the call never returns."
  },
  {
   "property": "C10",
   "status": "proved",
   "theorems": [
    "C10_one_shot",
    "C10_converse_refuted"
   ],
   "note": "The converse is refuted."
  },
  {
   "property": "C11",
   "status": "proved",
   "theorems": [
    "C11_truncated_suspends",
    "C11_closing_is_silent",
    "C11_final_hangs"
   ],
   "note": "Finding. The endless loop is proved for every truncation point outside attribute values that is not right after the end of a tag or an equals sign."
  },
  {
   "property": "C12",
   "status": "proved",
   "theorems": [
    "C12_mismatched_end",
    "C12_surplus_end"
   ],
   "note": ""
  },
  {
   "property": "C13",
   "status": "proved",
   "theorems": [
    "C13_after_document"
   ],
   "note": ""
  },
  {
   "property": "C14",
   "status": "proved",
   "theorems": [
    "C14_legal"
   ],
   "note": ""
  },
  {
   "property": "C15",
   "status": "proved",
   "theorems": [
    "C15_dropped_in_text",
    "C15_dropped_in_value",
    "C15_dropped_characters"
   ],
   "note": "Finding."
  },
  {
   "property": "C16",
   "status": "proved",
   "theorems": [
    "C16_bad_reference_stalls",
    "C11_closing_is_silent"
   ],
   "note": "Finding."
  },
  {
   "property": "C17",
   "status": "proved",
   "theorems": [
    "C17_unique_keys",
    "C17_last_wins"
   ],
   "note": "Finding."
  },
  {
   "property": "C18",
   "status": "proved",
   "theorems": [
    "C18_coalesced"
   ],
   "note": ""
  },
  {
   "property": "C19",
   "status": "proved",
   "theorems": [
    "C19_spurious_first_item"
   ],
   "note": "Finding."
  },
  {
   "property": "C20",
   "status": "proved",
   "theorems": [
    "C20_tree_of_document",
    "C20_tree_unique"
   ],
   "note": "Any builder state, any garbage collection schedule."
  },
  {
   "property": "C21",
   "status": "proved",
   "theorems": [
    "C21_reuse",
    "C21_returns",
    "C21_frame"
   ],
   "note": "Also truncated documents; a frame property for existing objects."
  },
  {
   "property": "C22",
   "status": "proved",
   "theorems": [
    "C22_second_parse",
    "C22_root_kept",
    "C22_graft",
    "C22_reuse_refuted"
   ],
   "note": "Finding."
  },
  {
   "property": "C23",
   "status": "proved",
   "theorems": [
    "C23_gc_independent",
    "C23_tree_so_far",
    "C23_current_parent",
    "C23_every_prefix"
   ],
   "note": "Collections may happen before, between and after all statements of the handler."
  },
  {
   "property": "C24",
   "status": "proved",
   "theorems": [
    "C24_round_trip",
    "C24_exact",
    "C24_normal"
   ],
   "note": ""
  },
  {
   "property": "C25",
   "status": "proved",
   "theorems": [
    "C25_break_lost",
    "C25_incomplete"
   ],
   "note": "Finding."
  },
  {
   "property": "C26",
   "status": "proved",
   "theorems": [
    "C26_injective",
    "C26_not_normalised_refuted"
   ],
   "note": ""
  },
  {
   "property": "C27",
   "status": "proved",
   "theorems": [
    "C27_value"
   ],
   "note": ""
  },
  {
   "property": "C28",
   "status": "proved",
   "theorems": [
    "C28_insert_element",
    "C28_insert_text",
    "C28_append",
    "C28_positions"
   ],
   "note": ""
  },
  {
   "property": "C29",
   "status": "proved",
   "theorems": [
    "C29_remove_child",
    "C29_not_a_child",
    "C29_insert_remove"
   ],
   "note": ""
  },
  {
   "property": "C30",
   "status": "proved",
   "theorems": [
    "C30_wrong_text_removed",
    "C30_links_refuted",
    "C30_str"
   ],
   "note": "Finding."
  },
  {
   "property": "C31",
   "status": "proved",
   "theorems": [
    "C31_copy"
   ],
   "note": "Finding."
  },
  {
   "property": "C32",
   "status": "proved",
   "theorems": [
    "C32_editing",
    "C32_from_any",
    "C32_no_parent"
   ],
   "note": "Operations include parsing further documents with the same heap."
  },
  {
   "property": "C33",
   "status": "proved",
   "theorems": [
    "C33_two_parents",
    "C33_cycle",
    "C33_refuted"
   ],
   "note": "Finding: universally quantified, with witness."
  },
  {
   "property": "C34",
   "status": "proved",
   "theorems": [
    "C34_text",
    "C34_value"
   ],
   "note": ""
  },
  {
   "property": "C35",
   "status": "proved",
   "theorems": [
    "C35_writer_is_encode"
   ],
   "note": ""
  },
  {
   "property": "C36",
   "status": "proved",
   "theorems": [
    "C36_calls_parse"
   ],
   "note": "Attribute values without tab, newline, carriage return (see C25)."
  },
  {
   "property": "C37",
   "status": "proved",
   "theorems": [
    "C37_declared_once",
    "C37_no_prefixes"
   ],
   "note": "Calls without empty=True, which the namespacer does not accept."
  },
  {
   "property": "C38",
   "status": "proved",
   "theorems": [
    "C38_only_white",
    "C38_depth",
    "C38_parse",
    "C38_layout",
    "C38_siblings"
   ],
   "note": "Also: the indented output parses to the same markup and visible characters. Finding: siblings are not aligned (C38_siblings)."
  },
  {
   "property": "C39",
   "status": "proved",
   "theorems": [
    "C39_exact",
    "C39_parse",
    "C39_runs"
   ],
   "note": "After any number of complete documents, and for any interleaving of garbage collection and of what the sinks keep."
  },
  {
   "property": "C40",
   "status": "proved",
   "theorems": [
    "C40_last",
    "C40_sound",
    "C40_deep_refuted",
    "C40_trailing"
   ],
   "note": "Findings: matches missed with nested candidates, TypeError for a trailing \"**\"."
  },
  {
   "property": "C41",
   "status": "proved",
   "theorems": [
    "C41_never",
    "C41_refuted"
   ],
   "note": "Finding."
  },
  {
   "property": "C42",
   "status": "proved",
   "theorems": [
    "C42_memory"
   ],
   "note": ""
  },
  {
   "property": "C43",
   "status": "proved",
   "theorems": [
    "C43_select",
    "C43_select_deep",
    "C43_root_refuted"
   ],
   "note": "The root must not match the stage after a leading \"**\" (refuted otherwise)."
  },
  {
   "property": "C44",
   "status": "proved",
   "theorems": [
    "C44_descendants"
   ],
   "note": ""
  },
  {
   "property": "C45",
   "status": "proved",
   "theorems": [
    "C45_source",
    "C45_elements",
    "C45_name",
    "C45_name_pattern",
    "C45_value",
    "C45_attribute",
    "C45_attribute_value"
   ],
   "note": "select_value also yields text nodes of a source element. The regular expression of select_name_pattern is an arbitrary predicate."
  },
  {
   "property": "C46",
   "status": "proved",
   "theorems": [
    "C46_element",
    "C46_text",
    "C46_text_refuted"
   ],
   "note": "Finding for text nodes."
  },
  {
   "property": "C47",
   "status": "proved",
   "theorems": [
    "C47_exact",
    "C47_deep",
    "C47_sound",
    "C47_any_descendant_refuted",
    "C47_deep_refuted",
    "C47_alternatives",
    "C47_trailing"
   ],
   "note": "Findings: not every descendant, missed matches with an inner \"**\", error for alternatives, nothing for a trailing \"**\"."
  },
  {
   "property": "C48",
   "status": "proved",
   "theorems": [
    "C48_only_space",
    "C48_unspaced_function",
    "C48_texts",
    "C48_nbsp_refuted"
   ],
   "note": "White space as Python defines it; with the MicroXML definition it is refuted (no-break space)."
  },
  {
   "property": "C49",
   "status": "proved",
   "theorems": [
    "C49_not_idempotent",
    "C49_third_time",
    "C49_indent_ignored"
   ],
   "note": "Finding; the third application changes nothing more."
  },
  {
   "property": "C50",
   "status": "proved",
   "theorems": [
    "C50_child"
   ],
   "note": ""
  },
  {
   "property": "C51",
   "status": "proved",
   "theorems": [
    "C51_descendant",
    "C51_or_self",
    "C51_or_root",
    "C51_star_refuted"
   ],
   "note": ""
  },
  {
   "property": "C52",
   "status": "proved",
   "theorems": [
    "C52_following",
    "C52_preceding",
    "C52_text_refuted"
   ],
   "note": ""
  },
  {
   "property": "C53",
   "status": "proved",
   "theorems": [
    "C53_ancestor",
    "C53_parent",
    "C53_parent_root",
    "C53_abbrev"
   ],
   "note": ""
  },
  {
   "property": "C54",
   "status": "proved",
   "theorems": [
    "C54_preceding",
    "C54_following",
    "C54_following_refuted",
    "C54_ancestor_or_self",
    "C54_ancestor_or_self_top"
   ],
   "note": "Findings, with what following does select."
  },
  {
   "property": "C55",
   "status": "proved",
   "theorems": [
    "C55_grouped",
    "C55_once",
    "C55_any",
    "C55_order_refuted"
   ],
   "note": ""
  },
  {
   "property": "C56",
   "status": "proved",
   "theorems": [
    "C56_step",
    "C56_below",
    "C56_other"
   ],
   "note": "Finding."
  },
  {
   "property": "C57",
   "status": "proved",
   "theorems": [
    "C57_predicates",
    "C57_unusable"
   ],
   "note": "C57_unusable is about the first predicate and the first item."
  },
  {
   "property": "C58",
   "status": "proved",
   "theorems": [
    "C58_union",
    "C58_fails"
   ],
   "note": "Finding. Within one query of a root: earlier queries leave document order numbers on nodes, which is not modelled."
  },
  {
   "property": "C59",
   "status": "proved",
   "theorems": [
    "C59_equality",
    "C59_empty",
    "C59_node"
   ],
   "note": ""
  },
  {
   "property": "C60",
   "status": "proved",
   "theorems": [
    "C60_boolean",
    "C60_not",
    "C60_short",
    "C60_second",
    "C60_empty"
   ],
   "note": "not() of an empty sequence is true as well. Finding: boolean(NaN) is true."
  },
  {
   "property": "C61",
   "status": "proved",
   "theorems": [
    "C61_count",
    "C61_sequence",
    "C61_sequence_fails",
    "C61_for_each"
   ],
   "note": ""
  },
  {
   "property": "C62",
   "status": "proved",
   "theorems": [
    "C62_concat",
    "C62_starts_with",
    "C62_contains",
    "C62_before",
    "C62_after",
    "C62_substring",
    "C62_substring_zero",
    "C62_substring_any",
    "C62_substring_computed"
   ],
   "note": "Findings included."
  },
  {
   "property": "C63",
   "status": "proved",
   "theorems": [
    "C63_root",
    "C63_unique",
    "C63_text",
    "C63_kept",
    "C63_again",
    "C63_self",
    "C63_identity_refuted",
    "C63_stable_refuted"
   ],
   "note": "For elements; text nodes raise (finding). The root object itself is not unique (finding)."
  },
  {
   "property": "C64",
   "status": "proved",
   "theorems": [
    "C64_stale"
   ],
   "note": "Finding, for every history and every document element."
  },
  {
   "property": "C65",
   "status": "proved",
   "theorems": [
    "C65_in_document",
    "C65_again"
   ],
   "note": ""
  },
  {
   "property": "C66",
   "status": "proved",
   "theorems": [
    "C66_path",
    "C66_falsy"
   ],
   "note": "Finding."
  },
  {
   "property": "C67",
   "status": "proved",
   "theorems": [
    "C67_minus"
   ],
   "note": "Finding."
  },
  {
   "property": "C68",
   "status": "proved",
   "theorems": [
    "C68_literal",
    "C68_refuted",
    "C68_changes_refuted"
   ],
   "note": "Finding."
  },
  {
   "property": "C70",
   "status": "proved",
   "theorems": [
    "C70_events",
    "C70_content",
    "C70_prefix",
    "C70_tree"
   ],
   "note": "expat itself is not modelled: all sequences of calls that report a document. Every reported piece of text is a text node of its own."
  },
  {
   "property": "C71",
   "status": "proved",
   "theorems": [
    "C71_spaced",
    "C71_words",
    "C71_distinct",
    "C71_one",
    "C71_attributes",
    "C71_refuted"
   ],
   "note": "Finding."
  },
  {
   "property": "C72",
   "status": "proved",
   "theorems": [
    "C72_append",
    "C72_insert_before",
    "C72_insert_before_equal",
    "C72_insert_before_missing",
    "C72_insert_text",
    "C72_insert_text_end",
    "C72_child_nodes",
    "C72_clone",
    "C72_clone_linked",
    "C72_has_content",
    "C72_text_reference_refuted",
    "C72_empty_reference"
   ],
   "note": "html5lib itself is not modelled: the methods that it calls. Findings included: a text node as reference, an empty text node as reference."
  },
  {
   "property": "C73",
   "status": "proved",
   "theorems": [
    "C73_text",
    "C73_bytes",
    "C73_decoder"
   ],
   "note": "Python's decoders are modelled by their result; C73_decoder says that for UTF-8. C73_bytes covers text that is not UTF-8."
  },
  {
   "property": "C74",
   "status": "proved",
   "theorems": [
    "C74_lines",
    "C74_no_cr",
    "C74_unchanged",
    "C74_twice",
    "C74_run"
   ],
   "note": ""
  },
  {
   "property": "C75",
   "status": "proved",
   "theorems": [
    "C75_match",
    "C75_match_ok",
    "C75_results",
    "C75_results_fail",
    "C75_limit",
    "C75_find",
    "C75_path",
    "C75_path_names",
    "C75_slashed"
   ],
   "note": "The command line, reading the sources and --partition are not modelled. Findings included."
  },
  {
   "property": "C76",
   "status": "proved",
   "theorems": [
    "C76_char_classes",
    "C76_values",
    "C76_small",
    "C76_namechar",
    "C76_namechar_refuted"
   ],
   "note": "Finding for the name class."
  },
  {
   "property": "C77",
   "status": "proved",
   "theorems": [
    "C77_rejected_markup"
   ],
   "note": "Finding."
  },
  {
   "property": "C78",
   "status": "proved",
   "theorems": [
    "C78_space_after_equals"
   ],
   "note": "Finding."
  },
  {
   "property": "C79",
   "status": "proved",
   "theorems": [
    "C79_indentation",
    "C79_returns"
   ],
   "note": ""
  },
  {
   "property": "C80",
   "status": "proved",
   "theorems": [
    "C80_empty_rejected",
    "C80_prefix_rejected",
    "C80_declaration_rejected"
   ],
   "note": "Finding."
  },
  {
   "property": "C81",
   "status": "proved",
   "theorems": [
    "C81_layout"
   ],
   "note": ""
  },
  {
   "property": "C82",
   "status": "proved",
   "theorems": [
    "C82_rejected",
    "C82_misread",
    "C82_tuple",
    "C82_list"
   ],
   "note": "Finding."
  },
  {
   "property": "C83",
   "status": "proved",
   "theorems": [
    "C83_truncated_refuted"
   ],
   "note": "Finding."
  },
  {
   "property": "C84",
   "status": "proved",
   "theorems": [
    "C84_ends",
    "C84_fuel",
    "C84_prefix"
   ],
   "note": ""
  },
  {
   "property": "C85",
   "status": "proved",
   "theorems": [
    "C85_attributes",
    "C85_elsewhere",
    "C85_type_tests",
    "C85_value"
   ],
   "note": "Findings included."
  },
  {
   "property": "C86",
   "status": "proved",
   "theorems": [
    "C86_strings",
    "C86_numbers",
    "C86_mixed",
    "C86_differ",
    "C86_differ_element",
    "C86_differ_attributes",
    "C86_differ_itself"
   ],
   "note": "Findings included."
  },
  {
   "property": "C87",
   "status": "proved",
   "theorems": [
    "C87_context",
    "C87_relative",
    "C87_root",
    "C87_elsewhere"
   ],
   "note": ""
  },
  {
   "property": "C88",
   "status": "proved",
   "theorems": [
    "C88_name",
    "C88_name_of",
    "C88_string",
    "C88_string_of",
    "C88_number",
    "C88_length",
    "C88_unknown",
    "C88_arity",
    "C88_not_implemented",
    "C88_constants"
   ],
   "note": "The conversion of strings to floats is a parameter of the model."
  },
  {
   "property": "C89",
   "status": "proved",
   "theorems": [
    "C89_remove",
    "C89_remove_missing",
    "C89_parent_stays",
    "C89_move"
   ],
   "note": "Finding included."
  },
  {
   "property": "C90",
   "status": "proved",
   "theorems": [
    "C90_attributes"
   ],
   "note": ""
  },
  {
   "property": "C91",
   "status": "proved",
   "theorems": [
    "C91_name_plain",
    "C91_name_colon",
    "C91_unnamed",
    "C91_tuple",
    "C91_clone",
    "C91_clone_refuted"
   ],
   "note": "Findings included."
  },
  {
   "property": "C92",
   "status": "proved",
   "theorems": [
    "C92_first_element",
    "C92_no_element",
    "C92_lax",
    "C92_lax_linked",
    "C92_lax_empty"
   ],
   "note": "Finding included."
  },
  {
   "property": "C93",
   "status": "proved",
   "theorems": [
    "C93_node",
    "C93_text",
    "C93_attribute",
    "C93_root"
   ],
   "note": "Findings included."
  },
  {
   "property": "C94",
   "status": "proved",
   "theorems": [
    "C94_utf8",
    "C94_utf16",
    "C94_utf32",
    "C94_signature",
    "C94_no_mark_refuted",
    "C94_nul_refuted"
   ],
   "note": "Findings included."
  },
  {
   "property": "C95",
   "status": "proved",
   "theorems": [
    "C95_run",
    "C95_one_reading",
    "C95_lossless",
    "C95_lexeme"
   ],
   "note": "PLY is modelled: rule order, greedy matching with backtracking, error skipping. Line numbers are not."
  },
  {
   "property": "C96",
   "status": "proved",
   "theorems": [
    "C96_document",
    "C96_one_document"
   ],
   "note": "Texts with U+1680 are excluded, see C97."
  },
  {
   "property": "C97",
   "status": "proved",
   "theorems": [
    "C97_empty_tag",
    "C97_comment",
    "C97_mark",
    "C97_value_space",
    "C97_decimal",
    "C97_letters",
    "C97_no_name_refuted"
   ],
   "note": "Findings."
  },
  {
   "property": "C98",
   "status": "proved",
   "theorems": [
    "C98_state",
    "C98_left_over_refuted",
    "C98_second"
   ],
   "note": "Findings included."
  },
  {
   "property": "C99",
   "status": "proved",
   "theorems": [
    "C99_parse",
    "C99_one_reading",
    "C99_error",
    "C99_broken"
   ],
   "note": "PLY's LALR(1) tables are computed in the model from the productions and precedences of parserules.py, and shown to read the grammar of XGramSpec."
  },
  {
   "property": "C100",
   "status": "proved",
   "theorems": [
    "C100_predicate",
    "C100_step",
    "C100_operators",
    "C100_minus"
   ],
   "note": ""
  },
  {
   "property": "C101",
   "status": "proved",
   "theorems": [
    "C101_lexer",
    "C101_total",
    "C101_one_scan",
    "C101_one_token",
    "C101_spaced",
    "C101_blanks"
   ],
   "note": "Which characters beyond U+00FF are digits, and the value of a decimal fraction, are parameters."
  },
  {
   "property": "C102",
   "status": "proved",
   "theorems": [
    "C102_parse",
    "C102_total",
    "C102_syntax_error",
    "C102_bad_start"
   ],
   "note": ""
  },
  {
   "property": "C103",
   "status": "proved",
   "theorems": [
    "C103_no_times",
    "C103_times_refuted",
    "C103_capitals",
    "C103_root",
    "C103_axis",
    "C103_lone_type",
    "C103_lone_text",
    "C103_last_predicate_refuted"
   ],
   "note": "Findings."
  },
  {
   "property": "C104",
   "status": "proved",
   "theorems": [
    "C104_round_trip",
    "C104_strings",
    "C104_minus",
    "C104_slashes",
    "C104_round_trip_refuted"
   ],
   "note": "Findings included."
  },
  {
   "property": "C105",
   "status": "proved",
   "theorems": [
    "C105_text",
    "C105_parsed",
    "C105_fails",
    "C105_neither",
    "C105_lone",
    "C105_lone_text",
    "C105_document_element",
    "C105_qquery",
    "C105_qquery_parsed",
    "C105_qquery_lone",
    "C105_qquery_empty",
    "C105_for_each"
   ],
   "note": "Findings included."
  },
  {
   "property": "C106",
   "status": "proved",
   "theorems": [
    "C106_query",
    "C106_path",
    "C106_anywhere",
    "C106_count",
    "C106_stream"
   ],
   "note": ""
  },
  {
   "property": "C107",
   "status": "proved",
   "theorems": [
    "C107_sources",
    "C107_one",
    "C107_refuted"
   ],
   "note": "Finding. Sources that expat rejects or that have no element are not modelled."
  },
  {
   "property": "C108",
   "status": "proved",
   "theorems": [
    "C108_parts",
    "C108_star",
    "C108_deep"
   ],
   "note": ""
  },
  {
   "property": "C109",
   "status": "proved",
   "theorems": [
    "C109_commands",
    "C109_syntax",
    "C109_path",
    "C109_anywhere",
    "C109_match",
    "C109_find"
   ],
   "note": "Opening files and URLs is not modelled; --html and --lax are C116. Finding: --match never prints the document element."
  },
  {
   "property": "C110",
   "status": "proved",
   "theorems": [
    "C110_selects",
    "C110_order",
    "C110_once",
    "C110_document",
    "C110_query",
    "C110_attribute",
    "C110_twice_refuted",
    "C110_order_refuted"
   ],
   "note": "Positions, and texts of first items, are of paths in order. Not part of this form: number() and floats, lookup, for-each, comparisons of two paths or of a path by != or <, substring with computed positions, unions with texts, attributes or the root node, string() of what may be a text node (it stays that node). The findings are C110_twice_refuted and C110_order_refuted."
  },
  {
   "property": "C111",
   "status": "proved",
   "theorems": [
    "C111_order",
    "C111_root",
    "C111_fresh",
    "C111_strict",
    "C111_new",
    "C111_other",
    "C111_loose",
    "C111_moved_refuted",
    "C111_inserted_refuted",
    "C111_history_refuted",
    "C111_root_refuted"
   ],
   "note": "The operands are represented by what they select and by the unions they evaluate. Findings included."
  },
  {
   "property": "C112",
   "status": "proved",
   "theorems": [
    "C112_loose",
    "C112_idle",
    "C112_collected",
    "C112_collect_refuted"
   ],
   "note": "One pattern; sinks that raise are in C125. Finding: C112_collected, C112_collect_refuted."
  },
  {
   "property": "C113",
   "status": "proved",
   "theorems": [
    "C113_exact",
    "C113_deep",
    "C113_recut",
    "C113_prefix",
    "C113_runs"
   ],
   "note": "expat is not modelled: its calls are the input."
  },
  {
   "property": "C114",
   "status": "proved",
   "theorems": [
    "C114_exact",
    "C114_deep"
   ],
   "note": ""
  },
  {
   "property": "C115",
   "status": "proved",
   "theorems": [
    "C115_forest",
    "C115_start",
    "C115_child",
    "C115_document",
    "C115_lax"
   ],
   "note": "html5lib is not modelled: its calls are the input. That it inserts only elements that are in no list of children is assumed (html5lib removes a node before it inserts it elsewhere)."
  },
  {
   "property": "C116",
   "status": "proved",
   "theorems": [
    "C116_html",
    "C116_lax",
    "C116_empty",
    "C116_partition",
    "C116_commands"
   ],
   "note": "Findings included."
  },
  {
   "property": "C117",
   "status": "proved",
   "theorems": [
    "C117_default",
    "C117_own",
    "C117_replaced",
    "C117_names",
    "C117_no_calls",
    "C117_extended",
    "C117_added_refuted"
   ],
   "note": "A function of the caller is any function of its argument expressions, what they yield, and the context item. Finding: C117_replaced, C117_added_refuted."
  },
  {
   "property": "C118",
   "status": "proved",
   "theorems": [
    "C118_builder",
    "C118_one",
    "C118_tree",
    "C118_either",
    "C118_own",
    "C118_parses",
    "C118_builds",
    "C118_apart_refuted"
   ],
   "note": "The events of the parser and of the expat handler carry dictionaries of their own (parser.py 229, xml.py 28). Elements that exist before are taken to have dictionaries of their own. Finding: C118_apart_refuted."
  },
  {
   "property": "C119",
   "status": "proved",
   "theorems": [
    "C119_tree",
    "C119_calls",
    "C119_text",
    "C119_raw",
    "C119_namespacer",
    "C119_namespacer_never",
    "C119_prefixes_lost",
    "C119_empty"
   ],
   "note": "A handler is any function from its state and the arguments of write to a new state, what it writes to the file, and possibly an exception. Findings included."
  },
  {
   "property": "C120",
   "status": "proved",
   "theorems": [
    "C120_ns_expat",
    "C120_plain",
    "C120_html5iter",
    "C120_fragment",
    "C120_coax",
    "C120_coax_silent",
    "C120_tags",
    "C120_tags_set",
    "C120_unparse"
   ],
   "note": "Findings. The names of module html5 and the attributes of its elements are listed in the model."
  },
  {
   "property": "C121",
   "status": "proved",
   "theorems": [
    "C121_exact",
    "C121_last",
    "C121_parse",
    "C121_runs",
    "C121_raises",
    "C121_names",
    "C121_names_back",
    "C121_argument",
    "C121_sequence",
    "C121_rejected"
   ],
   "note": "A function depends on the event only. Finding: C121_rejected."
  },
  {
   "property": "C122",
   "status": "proved",
   "theorems": [
    "C122_exact",
    "C122_sound",
    "C122_total"
   ],
   "note": "C122_exact is for patterns without \"**\"; C122_sound and C122_total are for all patterns. Finding."
  },
  {
   "property": "C123",
   "status": "proved",
   "theorems": [
    "C123_exact",
    "C123_last",
    "C123_sound",
    "C123_names",
    "C123_agree",
    "C123_stream"
   ],
   "note": "A function depends on the node only, which is given by its position. Finding: C123_names."
  },
  {
   "property": "C124",
   "status": "proved",
   "theorems": [
    "C124_values_self",
    "C124_values_other",
    "C124_values_rest",
    "C124_attr_self",
    "C124_attr_up",
    "C124_attr_other",
    "C124_text_up",
    "C124_root"
   ],
   "note": "Findings."
  },
  {
   "property": "C125",
   "status": "proved",
   "theorems": [
    "C125_until",
    "C125_after",
    "C125_again_refuted",
    "C125_where"
   ],
   "note": "One pattern, except in C125_where. In the Example the object sent afterwards is a child of the element at which the sink raised. Finding: C125_after, C125_again_refuted."
  },
  {
   "property": "C126",
   "status": "proved",
   "theorems": [
    "C126_children",
    "C126_attribute",
    "C126_value",
    "C126_below",
    "C126_pattern",
    "C126_stream",
    "C126_select"
   ],
   "note": "Documents as in C110: attributes of an element have different names, no empty texts (true of parsed documents). Patterns without ** and without tuples (see C47, C39-C41 for these)."
  },
  {
   "property": "C127",
   "status": "proved",
   "theorems": [
    "C127_cases",
    "C127_quiet",
    "C127_raises",
    "C127_leaves",
    "C127_document",
    "C127_whole",
    "C127_start"
   ],
   "note": "The handler is a function of the events it has been sent; [session] is a client that goes on sending after exceptions."
  },
  {
   "property": "C128",
   "status": "proved",
   "theorems": [
    "C128_events",
    "C128_succeeds",
    "C128_fails",
    "C128_noted",
    "C128_nested",
    "C128_unqualified",
    "C128_blank"
   ],
   "note": "The object as initialised in lines 54-64; the constructor itself fails before that (C120). C128_unqualified, C128_nested and C128_blank are findings."
  },
  {
   "property": "C129",
   "status": "proved",
   "theorems": [
    "C129_matches",
    "C129_plain",
    "C129_last",
    "C129_first",
    "C129_stream",
    "C129_parse",
    "C129_xml",
    "C129_timely",
    "C129_select",
    "C129_functions",
    "C129_several",
    "C129_select_functions",
    "C129_agree",
    "C129_edits",
    "C129_until",
    "C129_collects"
   ],
   "note": "Patterns ending in ** raise or never match (C40, C47)."
  },
  {
   "property": "C130",
   "status": "proved",
   "theorems": [
    "C130_microxml",
    "C130_xml",
    "C130_every_cut"
   ],
   "note": "A finding: a truncated document is not noticed."
  },
  {
   "property": "C131",
   "status": "proved",
   "theorems": [
    "C131_steps",
    "C131_paths",
    "C131_live",
    "C131_unique",
    "C131_edits",
    "C131_moved"
   ],
   "note": "Removes the simplification that nodes are positions, for location paths."
  },
  {
   "property": "C132",
   "status": "proved",
   "theorems": [
    "C132_tree",
    "C132_objects",
    "C132_links",
    "C132_clean",
    "C132_replaced_refuted"
   ],
   "note": "make_pretty over node objects; C48, C49 and C81 speak about the trees."
  },
  {
   "property": "C133",
   "status": "proved",
   "theorems": [
    "C133_expressions",
    "C133_trees",
    "C133_values",
    "C133_edits",
    "C133_root_refuted",
    "C133_union_refuted"
   ],
   "note": "Removes the simplification that nodes are positions, for all expressions."
  },
  {
   "property": "C134",
   "status": "proved",
   "theorems": [
    "C134_defined",
    "C134_next",
    "C134_descendants",
    "C134_filter",
    "C134_children",
    "C134_siblings",
    "C134_start",
    "C134_insert",
    "C134_remove",
    "C134_drop",
    "C134_drop_apart",
    "C134_drop_list",
    "C134_drop_refuted",
    "C134_again",
    "C134_grow",
    "C134_elsewhere",
    "C134_texts"
   ],
   "note": "The treeutil generators as suspended computations over node objects; removes for them the simplification that the tree is not edited meanwhile."
  },
  {
   "property": "C135",
   "status": "proved",
   "theorems": [
    "C135_defined",
    "C135_next",
    "C135_start",
    "C135_behind",
    "C135_following",
    "C135_siblings",
    "C135_cut",
    "C135_grow",
    "C135_child",
    "C135_drop",
    "C135_abs_grow",
    "C135_abs_refuted"
   ],
   "note": "Predicates, unions, expressions and the axes parent, ancestor, attribute and preceding are not in this model of suspended paths; they are in C137."
  },
  {
   "property": "C136",
   "status": "proved",
   "theorems": [
    "C136_xpath",
    "C136_select",
    "C136_held",
    "C136_parsed",
    "C136_nested",
    "C136_nested_refuted"
   ],
   "note": "The expressions are those of C110 in _select and _parsed; in _xpath they are all expressions, under the conditions of C133."
  },
  {
   "property": "C137",
   "status": "proved",
   "theorems": [
    "C137_start",
    "C137_next",
    "C137_fuel",
    "C137_snapshot",
    "C137_union_cut",
    "C137_position",
    "C137_up",
    "C137_up_cut",
    "C137_attr_resized",
    "C137_attr_set",
    "C137_attr_del_refuted"
   ],
   "note": "Whole expression language as suspended generators; attribute keys replaced one for one during a loop over attributes are not represented."
  },
  {
   "property": "C138",
   "status": "proved",
   "theorems": [
    "C138_path",
    "C138_ask",
    "C138_filter",
    "C138_cut",
    "C138_attr"
   ],
   "note": "C135 carried over to LiveEval; predicates in general; removal for predicates that depend on names, attributes and texts only."
  },
  {
   "property": "C139",
   "status": "proved",
   "theorems": [
    "C139_fine",
    "C139_rejected",
    "C139_cut",
    "C139_graft",
    "C139_parts",
    "C139_star",
    "C139_deep",
    "C139_unnoticed_refuted"
   ],
   "note": "Findings C139_cut, C139_graft, C139_unnoticed_refuted. The calls expat makes before it complains are the input; for a source without any element see C140."
  },
  {
   "property": "C140",
   "status": "proved",
   "theorems": [
    "C140_same",
    "C140_find",
    "C140_relative",
    "C140_absolute",
    "C140_passed",
    "C140_silent",
    "C140_match",
    "C140_like",
    "C140_lines",
    "C140_printed_refuted"
   ],
   "note": "Findings C140_find, C140_relative, C140_absolute, C140_printed_refuted. Evaluation at None is modelled for location paths whose predicates are not looked at."
  },
  {
   "property": "C141",
   "status": "proved",
   "theorems": [
    "C141_body",
    "C141_literal",
    "C141_distinct",
    "C141_body_refuted",
    "C141_distinct_refuted",
    "C141_element",
    "C141_text",
    "C141_attribute",
    "C141_kinds"
   ],
   "note": "Findings C141_body_refuted, C141_distinct_refuted. hash() of an element is a number given by its identity."
  },
  {
   "property": "C142",
   "status": "proved",
   "theorems": [
    "C142_elements",
    "C142_root",
    "C142_asked",
    "C142_nodes",
    "C142_falsy_refuted",
    "C142_union_refuted"
   ],
   "note": "Findings C142_falsy_refuted, C142_union_refuted. Texts are not empty (C24)."
  },
  {
   "property": "C143",
   "status": "proved",
   "theorems": [
    "C143_path_groups",
    "C143_self",
    "C143_sequence",
    "C143_flat",
    "C143_not",
    "C143_de_morgan",
    "C143_predicates",
    "C143_union_swap",
    "C143_union_groups",
    "C143_groups_refuted",
    "C143_deep_refuted",
    "C143_de_morgan_refuted",
    "C143_predicates_refuted",
    "C143_twice_refuted"
   ],
   "note": "Findings C143_groups_refuted, C143_deep_refuted, C143_de_morgan_refuted, C143_predicates_refuted, C143_twice_refuted."
  },
  {
   "property": "C144",
   "status": "proved",
   "theorems": [
    "C144_line",
    "C144_parent",
    "C144_alone",
    "C144_found",
    "C144_every_text",
    "C144_quote_refuted",
    "C144_letter_refuted",
    "C144_top",
    "C144_many_refuted"
   ],
   "note": "Findings C144_quote_refuted, C144_letter_refuted, C144_top, C144_many_refuted."
  },
  {
   "property": "C145",
   "status": "proved",
   "theorems": [
    "C145_split",
    "C145_apart",
    "C145_starts_contains",
    "C145_starts_before",
    "C145_concat_groups",
    "C145_concat_parts",
    "C145_substrings",
    "C145_string_twice",
    "C145_empty_refuted",
    "C145_many_refuted"
   ],
   "note": "Findings C145_apart, C145_empty_refuted, C145_many_refuted."
  },
  {
   "property": "C146",
   "status": "proved",
   "theorems": [
    "C146_mirrored",
    "C146_opposite",
    "C146_transitive",
    "C146_antisymmetric",
    "C146_equal",
    "C146_node_refuted",
    "C146_sequence_refuted",
    "C146_nan_refuted"
   ],
   "note": "Findings C146_node_refuted, C146_sequence_refuted, C146_nan_refuted."
  }
 ]
}