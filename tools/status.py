# id -> (status, theorems, note)
S={}
def d(id,note,*ths): S[id]=('proved',list(ths),note)
def pt(id,note,*ths): S[id]=('partial',list(ths),note)
# parser
d('C01','Proved for the literal coroutine model, all pieces lists with safe cuts; also for parsefrags.','C01_chunking','C01_parsefrags')
d('C02','Finding. Always an error for plain values; silently different events for some documents.','C02_cut_in_value','C02_uncut_value','C02_any_chunking_refuted')
d('C03','','C03_empty_pieces')
d('C04','Any sequence of sends, final or not.','C04_well_nested')
d('C05','Both for longer text in one piece and for further sends.','C05_streaming','C05_history')
d('C06','strict_doc of Grammar.v; no white space after the equals sign (see C78).','C06_parses_documents')
d('C07','Equivalence with the lenient grammar.','C07_complete_iff_lenient','C07_unambiguous')
d('C08','','C08_reference_in_text','C08_reference_in_value','C08_wrong_reference_in_text','C08_wrong_reference_in_value','C08_reference_cases')
d('C09','Finding: characterises exactly the inputs on which the call never returns.','C09_hangs_iff_junk_first')
d('C10','The converse is refuted.','C10_one_shot','C10_converse_refuted')
d('C11','Finding. The endless loop is proved for every truncation point outside attribute values that is not right after the end of a tag or an equals sign.','C11_truncated_suspends','C11_closing_is_silent','C11_final_hangs')
d('C12','','C12_mismatched_end','C12_surplus_end')
d('C13','','C13_after_document')
d('C14','','C14_legal')
d('C15','Finding.','C15_dropped_in_text','C15_dropped_in_value','C15_dropped_characters')
d('C16','Finding.','C16_bad_reference_stalls','C11_closing_is_silent')
d('C17','Finding.','C17_unique_keys','C17_last_wins')
d('C18','','C18_coalesced')
d('C19','Finding.','C19_spurious_first_item')
d('C76','Finding for the name class.','C76_char_classes','C76_values','C76_small','C76_namechar','C76_namechar_refuted')
d('C77','Finding.','C77_rejected_markup')
d('C78','Finding.','C78_space_after_equals')
# tree
d('C20','Any builder state, any garbage collection schedule.','C20_tree_of_document','C20_tree_unique')
d('C21','Also truncated documents; a frame property for existing objects.','C21_reuse','C21_returns','C21_frame')
d('C22','Finding.','C22_second_parse','C22_root_kept','C22_graft','C22_reuse_refuted')
d('C23','Collections may happen before, between and after all statements of the handler.','C23_gc_independent','C23_tree_so_far','C23_current_parent','C23_every_prefix')
d('C24','','C24_round_trip','C24_exact','C24_normal')
d('C25','Finding.','C25_break_lost','C25_incomplete')
d('C26','','C26_injective','C26_not_normalised_refuted')
d('C27','','C27_value')
d('C28','','C28_insert_element','C28_insert_text','C28_append','C28_positions')
d('C29','','C29_remove_child','C29_not_a_child','C29_insert_remove')
d('C30','Finding.','C30_wrong_text_removed','C30_links_refuted','C30_str')
d('C31','Finding.','C31_copy')
d('C32','Operations include parsing further documents with the same heap.','C32_editing','C32_from_any','C32_no_parent')
d('C33','Finding: universally quantified, with witness.','C33_two_parents','C33_cycle','C33_refuted')
d('C34','','C34_text','C34_value')
d('C79','','C79_indentation','C79_returns')
# writer
d('C35','','C35_writer_is_encode')
d('C36','Attribute values without tab, newline, carriage return (see C25).','C36_calls_parse')
d('C37','Calls without empty=True, which the namespacer does not accept.','C37_declared_once','C37_no_prefixes')
d('C38','Also: the indented output parses to the same markup and visible characters. Finding: siblings are not aligned (C38_siblings).','C38_only_white','C38_depth','C38_parse','C38_layout','C38_siblings')
d('C80','Finding.','C80_empty_rejected','C80_prefix_rejected','C80_declaration_rejected')

# treeutil
d('C44','','C44_descendants')
d('C45','select_value also yields text nodes of a source element. The regular expression of select_name_pattern is an arbitrary predicate.','C45_source','C45_elements','C45_name','C45_name_pattern','C45_value','C45_attribute','C45_attribute_value')
d('C46','Finding for text nodes.','C46_element','C46_text','C46_text_refuted')
d('C47','Findings: not every descendant, missed matches with an inner "**", error for alternatives, nothing for a trailing "**".','C47_exact','C47_deep','C47_sound','C47_any_descendant_refuted','C47_deep_refuted','C47_alternatives','C47_trailing')
d('C48','White space as Python defines it; with the MicroXML definition it is refuted (no-break space).','C48_only_space','C48_unspaced_function','C48_texts','C48_nbsp_refuted')
d('C49','Finding; the third application changes nothing more.','C49_not_idempotent','C49_third_time','C49_indent_ignored')
d('C81','','C81_layout')

# treeiter
d('C39','After any number of complete documents, and for any interleaving of garbage collection and of what the sinks keep.','C39_exact','C39_parse','C39_runs')
d('C40','Findings: matches missed with nested candidates, TypeError for a trailing "**".','C40_last','C40_sound','C40_deep_refuted','C40_trailing')
d('C41','Finding.','C41_never','C41_refuted')
d('C42','','C42_memory')
d('C43','The root must not match the stage after a leading "**" (refuted otherwise).','C43_select','C43_select_deep','C43_root_refuted')
d('C82','Finding.','C82_rejected','C82_misread','C82_tuple','C82_list')
d('C83','Finding.','C83_truncated_refuted')

# uxpath
d('C50','','C50_child')
d('C51','','C51_descendant','C51_or_self','C51_or_root','C51_star_refuted')
d('C52','','C52_following','C52_preceding','C52_text_refuted')
d('C53','','C53_ancestor','C53_parent','C53_parent_root','C53_abbrev')
d('C54','Findings, with what following does select.','C54_preceding','C54_following','C54_following_refuted','C54_ancestor_or_self','C54_ancestor_or_self_top')
d('C55','','C55_grouped','C55_once','C55_any','C55_order_refuted')
d('C56','Finding.','C56_step','C56_below','C56_other')
d('C57','C57_unusable is about the first predicate and the first item.','C57_predicates','C57_unusable')
d('C58','Finding. Within one query of a root: earlier queries leave document order numbers on nodes, which is not modelled.','C58_union','C58_fails')
d('C59','','C59_equality','C59_empty','C59_node')
d('C60','not() of an empty sequence is true as well. Finding: boolean(NaN) is true.','C60_boolean','C60_not','C60_short','C60_second','C60_empty')
d('C61','','C61_count','C61_sequence','C61_sequence_fails','C61_for_each')
d('C62','Findings included.','C62_concat','C62_starts_with','C62_contains','C62_before','C62_after','C62_substring','C62_substring_zero','C62_substring_any','C62_substring_computed')
d('C63','For elements; text nodes raise (finding). The root object itself is not unique (finding).','C63_root','C63_unique','C63_text','C63_kept','C63_again','C63_self','C63_identity_refuted','C63_stable_refuted')
d('C64','Finding, for every history and every document element.','C64_stale')
d('C65','','C65_in_document','C65_again')
d('C66','Finding.','C66_path','C66_falsy')
d('C67','Finding.','C67_minus')
d('C68','Finding.','C68_literal','C68_refuted','C68_changes_refuted')
d('C84','','C84_ends','C84_fuel','C84_prefix')
d('C85','Findings included.','C85_attributes','C85_elsewhere','C85_type_tests','C85_value')
d('C86','Findings included.','C86_strings','C86_numbers','C86_mixed','C86_differ','C86_differ_element','C86_differ_attributes','C86_differ_itself')
d('C87','','C87_context','C87_relative','C87_root','C87_elsewhere')
d('C88','The conversion of strings to floats is a parameter of the model.','C88_name','C88_name_of','C88_string','C88_string_of','C88_number','C88_length','C88_unknown','C88_arity','C88_not_implemented','C88_constants')

# xml.py
d('C70','expat itself is not modelled: all sequences of calls that report a document. Every reported piece of text is a text node of its own.','C70_events','C70_content','C70_prefix','C70_tree')
d('C71','Finding.','C71_spaced','C71_words','C71_distinct','C71_one','C71_attributes','C71_refuted')

# html5.py
d('C72','html5lib itself is not modelled: the methods that it calls. Findings included: a text node as reference, an empty text node as reference.','C72_append','C72_insert_before','C72_insert_before_equal','C72_insert_before_missing','C72_insert_text','C72_insert_text_end','C72_child_nodes','C72_clone','C72_clone_linked','C72_has_content','C72_text_reference_refuted','C72_empty_reference')
d('C73','Python\'s decoders are modelled by their result; C73_decoder says that for UTF-8. C73_bytes covers text that is not UTF-8.','C73_text','C73_bytes','C73_decoder')
d('C94','Findings included.','C94_utf8','C94_utf16','C94_utf32','C94_signature','C94_no_mark_refuted','C94_nul_refuted')
d('C75','The command line, reading the sources and --partition are not modelled. Findings included.','C75_match','C75_match_ok','C75_results','C75_results_fail','C75_limit','C75_find','C75_path','C75_path_names','C75_slashed')
d('C93','Findings included.','C93_node','C93_text','C93_attribute','C93_root')
d('C74','','C74_lines','C74_no_cr','C74_unchanged','C74_twice','C74_run')
d('C95','PLY is modelled: rule order, greedy matching with backtracking, error skipping. Line numbers are not.','C95_run','C95_one_reading','C95_lossless','C95_lexeme')
d('C96','Texts with U+1680 are excluded, see C97.','C96_document','C96_one_document')
d('C97','Findings.','C97_empty_tag','C97_comment','C97_mark','C97_value_space','C97_decimal','C97_letters','C97_no_name_refuted')
d('C98','Findings included.','C98_state','C98_left_over_refuted','C98_second')
d('C89','Finding included.','C89_remove','C89_remove_missing','C89_parent_stays','C89_move')
d('C90','','C90_attributes')
d('C91','Findings included.','C91_name_plain','C91_name_colon','C91_unnamed','C91_tuple','C91_clone','C91_clone_refuted')
d('C92','Finding included.','C92_first_element','C92_no_element','C92_lax','C92_lax_linked','C92_lax_empty')
d('C99','PLY\'s LALR(1) tables are computed in the model from the productions and precedences of parserules.py, and shown to read the grammar of XGramSpec.','C99_parse','C99_one_reading','C99_error','C99_broken')
d('C100','','C100_predicate','C100_step','C100_operators','C100_minus')
d('C101','Which characters beyond U+00FF are digits, and the value of a decimal fraction, are parameters.','C101_lexer','C101_total','C101_one_scan','C101_one_token','C101_spaced','C101_blanks')
d('C102','','C102_parse','C102_total','C102_syntax_error','C102_bad_start')
d('C103','Findings.','C103_no_times','C103_times_refuted','C103_capitals','C103_root','C103_axis','C103_lone_type','C103_lone_text','C103_last_predicate_refuted')
d('C104','Findings included.','C104_round_trip','C104_strings','C104_minus','C104_slashes','C104_round_trip_refuted')
d('C105','Findings included.','C105_text','C105_parsed','C105_fails','C105_neither','C105_lone','C105_lone_text','C105_document_element','C105_qquery','C105_qquery_parsed','C105_qquery_lone','C105_qquery_empty','C105_for_each')
d('C106','','C106_query','C106_path','C106_anywhere','C106_count','C106_stream')
d('C107','Finding. Sources that expat rejects or that have no element are not modelled.','C107_sources','C107_one','C107_refuted')
d('C108','','C108_parts','C108_star','C108_deep')
d('C109','Opening files and URLs is not modelled; --html and --lax are C116. Finding: --match never prints the document element.','C109_commands','C109_syntax','C109_path','C109_anywhere','C109_match','C109_find')
d('C110','Positions, and texts of first items, are of paths in order. Not part of this form: number() and floats, lookup, for-each, comparisons of two paths or of a path by != or <, substring with computed positions, unions with texts, attributes or the root node, string() of what may be a text node (it stays that node). The findings are C110_twice_refuted and C110_order_refuted.','C110_selects','C110_order','C110_once','C110_document','C110_query','C110_attribute','C110_twice_refuted','C110_order_refuted')
d('C111','The operands are represented by what they select and by the unions they evaluate. Findings included.','C111_order','C111_root','C111_fresh','C111_strict','C111_new','C111_other','C111_loose','C111_moved_refuted','C111_inserted_refuted','C111_history_refuted','C111_root_refuted')
d('C112','One pattern; sinks that raise are in C125. Finding: C112_collected, C112_collect_refuted.','C112_loose','C112_idle','C112_collected','C112_collect_refuted')
d('C113','expat is not modelled: its calls are the input.','C113_exact','C113_deep','C113_recut','C113_prefix','C113_runs')
d('C114','','C114_exact','C114_deep')
d('C115','html5lib is not modelled: its calls are the input. That it inserts only elements that are in no list of children is assumed (html5lib removes a node before it inserts it elsewhere).','C115_forest','C115_start','C115_child','C115_document','C115_lax')
d('C116','Findings included.','C116_html','C116_lax','C116_empty','C116_partition','C116_commands')
d('C117','A function of the caller is any function of its argument expressions, what they yield, and the context item. Finding: C117_replaced, C117_added_refuted.','C117_default','C117_own','C117_replaced','C117_names','C117_no_calls','C117_extended','C117_added_refuted')
d('C118','The events of the parser and of the expat handler carry dictionaries of their own (parser.py 229, xml.py 28). Elements that exist before are taken to have dictionaries of their own. Finding: C118_apart_refuted.','C118_builder','C118_one','C118_tree','C118_either','C118_own','C118_parses','C118_builds','C118_apart_refuted')
d('C119','A handler is any function from its state and the arguments of write to a new state, what it writes to the file, and possibly an exception. Findings included.','C119_tree','C119_calls','C119_text','C119_raw','C119_namespacer','C119_namespacer_never','C119_prefixes_lost','C119_empty')
d('C120','Findings. The names of module html5 and the attributes of its elements are listed in the model.','C120_ns_expat','C120_plain','C120_html5iter','C120_fragment','C120_coax','C120_coax_silent','C120_tags','C120_tags_set','C120_unparse')
d('C121','A function depends on the event only. Finding: C121_rejected.','C121_exact','C121_last','C121_parse','C121_runs','C121_raises','C121_names','C121_names_back','C121_argument','C121_sequence','C121_rejected')
d('C122','C122_exact is for patterns without "**"; C122_sound and C122_total are for all patterns. Finding.','C122_exact','C122_sound','C122_total')
d('C123','A function depends on the node only, which is given by its position. Finding: C123_names.','C123_exact','C123_last','C123_sound','C123_names','C123_agree','C123_stream')
d('C124','Findings.','C124_values_self','C124_values_other','C124_values_rest','C124_attr_self','C124_attr_up','C124_attr_other','C124_text_up','C124_root')
d('C125','One pattern, except in C125_where. In the Example the object sent afterwards is a child of the element at which the sink raised. Finding: C125_after, C125_again_refuted.','C125_until','C125_after','C125_again_refuted','C125_where')
d('C126','Documents as in C110: attributes of an element have different names, no empty texts (true of parsed documents). Patterns without ** and without tuples (see C47, C39-C41 for these).','C126_children','C126_attribute','C126_value','C126_below','C126_pattern','C126_stream','C126_select')
d('C127','The handler is a function of the events it has been sent; [session] is a client that goes on sending after exceptions.','C127_cases','C127_quiet','C127_raises','C127_leaves','C127_document','C127_whole','C127_start')
d('C128','The object as initialised in lines 54-64; the constructor itself fails before that (C120). C128_unqualified, C128_nested and C128_blank are findings.','C128_events','C128_succeeds','C128_fails','C128_noted','C128_nested','C128_unqualified','C128_blank')
d('C129','Patterns ending in ** raise or never match (C40, C47).','C129_matches','C129_plain','C129_last','C129_first','C129_stream','C129_parse','C129_xml','C129_timely','C129_select','C129_functions','C129_several','C129_select_functions','C129_agree','C129_edits','C129_until','C129_collects')
d('C130','A finding: a truncated document is not noticed.','C130_microxml','C130_xml','C130_every_cut')
d('C131','Removes the simplification that nodes are positions, for location paths.','C131_steps','C131_paths','C131_live','C131_unique','C131_edits','C131_moved')
d('C132','make_pretty over node objects; C48, C49 and C81 speak about the trees.','C132_tree','C132_objects','C132_links','C132_clean','C132_replaced_refuted')
d('C133','Removes the simplification that nodes are positions, for all expressions.','C133_expressions','C133_trees','C133_values','C133_edits','C133_root_refuted','C133_union_refuted')
d('C134','The treeutil generators as suspended computations over node objects; removes for them the simplification that the tree is not edited meanwhile.','C134_defined','C134_next','C134_descendants','C134_filter','C134_children','C134_siblings','C134_start','C134_insert','C134_remove','C134_drop','C134_drop_apart','C134_drop_list','C134_drop_refuted','C134_again','C134_grow','C134_elsewhere','C134_texts')
d('C135','Predicates, unions, expressions and the axes parent, ancestor, attribute and preceding are not in this model of suspended paths; they are in C137.','C135_defined','C135_next','C135_start','C135_behind','C135_following','C135_siblings','C135_cut','C135_grow','C135_child','C135_drop','C135_abs_grow','C135_abs_refuted')
d('C136','The expressions are those of C110 in _select and _parsed; in _xpath they are all expressions, under the conditions of C133.','C136_xpath','C136_select','C136_held','C136_parsed','C136_nested','C136_nested_refuted')
d('C137','Whole expression language as suspended generators; attribute keys replaced one for one during a loop over attributes are not represented.','C137_start','C137_next','C137_fuel','C137_snapshot','C137_union_cut','C137_position','C137_up','C137_up_cut','C137_attr_resized','C137_attr_set','C137_attr_del_refuted')
d('C138','C135 carried over to LiveEval; predicates in general; removal for predicates that depend on names, attributes and texts only.','C138_path','C138_ask','C138_filter','C138_cut','C138_attr')
d('C139','Findings C139_cut, C139_graft, C139_unnoticed_refuted. The calls expat makes before it complains are the input; for a source without any element see C140.','C139_fine','C139_rejected','C139_cut','C139_graft','C139_parts','C139_star','C139_deep','C139_unnoticed_refuted')
d('C140','Findings C140_find, C140_relative, C140_absolute, C140_printed_refuted. Evaluation at None is modelled for location paths whose predicates are not looked at.','C140_same','C140_find','C140_relative','C140_absolute','C140_passed','C140_silent','C140_match','C140_like','C140_lines','C140_printed_refuted')
d('C141','Findings C141_body_refuted, C141_distinct_refuted. hash() of an element is a number given by its identity.','C141_body','C141_literal','C141_distinct','C141_body_refuted','C141_distinct_refuted','C141_element','C141_text','C141_attribute','C141_kinds')
d('C142','Findings C142_falsy_refuted, C142_union_refuted. Texts are not empty (C24).','C142_elements','C142_root','C142_asked','C142_nodes','C142_falsy_refuted','C142_union_refuted')
d('C143','Findings C143_groups_refuted, C143_deep_refuted, C143_de_morgan_refuted, C143_predicates_refuted, C143_twice_refuted.','C143_path_groups','C143_self','C143_sequence','C143_flat','C143_not','C143_de_morgan','C143_predicates','C143_union_swap','C143_union_groups','C143_groups_refuted','C143_deep_refuted','C143_de_morgan_refuted','C143_predicates_refuted','C143_twice_refuted')
d('C144','Findings C144_quote_refuted, C144_letter_refuted, C144_top, C144_many_refuted.','C144_line','C144_parent','C144_alone','C144_found','C144_every_text','C144_quote_refuted','C144_letter_refuted','C144_top','C144_many_refuted')
d('C145','Findings C145_apart, C145_empty_refuted, C145_many_refuted.','C145_split','C145_apart','C145_starts_contains','C145_starts_before','C145_concat_groups','C145_concat_parts','C145_substrings','C145_string_twice','C145_empty_refuted','C145_many_refuted')
d('C146','Findings C146_node_refuted, C146_sequence_refuted, C146_nan_refuted.','C146_mirrored','C146_opposite','C146_transitive','C146_antisymmetric','C146_equal','C146_node_refuted','C146_sequence_refuted','C146_nan_refuted')
