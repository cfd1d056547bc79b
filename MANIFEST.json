{
 "claims": [
  {
   "property": "C01",
   "status": "proved",
   "theorems": [
    "C01_quote_roundtrip",
    "C01_quote_ascii"
   ],
   "note": ""
  },
  {
   "property": "C02",
   "status": "proved",
   "theorems": [
    "C02_quote_self_delimiting"
   ],
   "note": ""
  },
  {
   "property": "C03",
   "status": "proved",
   "theorems": [
    "C03_print_string_preserves_value"
   ],
   "note": ""
  },
  {
   "property": "C04",
   "status": "proved",
   "theorems": [
    "C04_unquote_grammar",
    "C04_documented_escapes_decoded",
    "C04_only_documented_refuted"
   ],
   "note": "Exact grammar proved (C04_unquote_grammar) with the sign quirk made explicit; the literal reading 'only documented escapes' is refuted by \\x+1."
  },
  {
   "property": "C05",
   "status": "partial",
   "theorems": [
    "C05_format_literal_no_panic_refuted",
    "C05_format_literal_no_panic_partial"
   ],
   "note": "Refuted: a rune >= 256 after a backslash makes escapable[ch] index out of range while printing. Proved for literals without a non-ASCII byte directly after a backslash."
  },
  {
   "property": "C06",
   "status": "proved",
   "theorems": [
    "C06_parse_format",
    "C06_format_of_parsed"
   ],
   "note": ""
  },
  {
   "property": "C07",
   "status": "proved",
   "theorems": [
    "C07_shorten_same_label",
    "C07_shorten_idempotent",
    "C07_shorten_forms",
    "C07_shorten_all_inputs_refuted"
   ],
   "note": "Proved for every label with a non-empty target not starting with ':'; idempotence for all inputs; refuted without the side condition (//a::b)."
  },
  {
   "property": "C08",
   "status": "proved",
   "theorems": [
    "C08_equal_equivalence",
    "C08_equal_spellings",
    "C08_equal_distinguishes"
   ],
   "note": ""
  },
  {
   "property": "C09",
   "status": "proved",
   "theorems": [
    "C09_less_is_documented_order",
    "C09_strict_total_order",
    "C09_sorted_unique"
   ],
   "note": ""
  },
  {
   "property": "C10",
   "status": "partial",
   "theorems": [
    "C10_file",
    "C10_values_and_others_kept",
    "C10_chunkwise",
    "C10_chunks_sorted_partial",
    "C10_chunks_sorted_refuted"
   ],
   "note": ""
  },
  {
   "property": "C11",
   "status": "partial",
   "theorems": [
    "C11_sort_idempotent_partial",
    "C11_sort_idempotent_refuted"
   ],
   "note": ""
  },
  {
   "property": "C12",
   "status": "proved",
   "theorems": [
    "C12_first_occurrences"
   ],
   "note": ""
  },
  {
   "property": "C13",
   "status": "partial",
   "theorems": [
    "C13_line_comments_partial",
    "C13_line_comments_refuted"
   ],
   "note": ""
  },
  {
   "property": "C14",
   "status": "proved",
   "theorems": [
    "C14_call_arguments_sorted",
    "C14_arrangement_unique",
    "C14_idempotent"
   ],
   "note": ""
  },
  {
   "property": "C15",
   "status": "proved",
   "theorems": [
    "C15_arguments_partitioned",
    "C15_nothing_lost",
    "C15_idempotent"
   ],
   "note": ""
  },
  {
   "property": "C16",
   "status": "proved",
   "theorems": [
    "C16_loads_on_top",
    "C16_no_panic",
    "C16_idempotent"
   ],
   "note": ""
  },
  {
   "property": "C17",
   "status": "partial",
   "theorems": [
    "C17_bindings_kept",
    "C17_statements_kept",
    "C17_one_load_per_module_partial",
    "C17_one_load_per_module_refuted"
   ],
   "note": ""
  },
  {
   "property": "C18",
   "status": "partial",
   "theorems": [
    "C18_symbol_comments_kept",
    "C18_statement_comments_partial",
    "C18_statement_comments_refuted"
   ],
   "note": ""
  },
  {
   "property": "C19",
   "status": "partial",
   "theorems": [
    "C19_strict_weak_order_refuted",
    "C19_strict_weak_order_partial",
    "C19_result_unique_partial"
   ],
   "note": ""
  },
  {
   "property": "C20",
   "status": "proved",
   "theorems": [
    "C20_runs_permuted",
    "C20_disabled"
   ],
   "note": ""
  },
  {
   "property": "C21",
   "status": "partial",
   "theorems": [
    "C21_load_arguments",
    "C21_unique_local_names_refuted",
    "C21_idempotent",
    "C21_file"
   ],
   "note": ""
  },
  {
   "property": "C22",
   "status": "partial",
   "theorems": [
    "C22_octals_partial",
    "C22_value_unique",
    "C22_float_refuted"
   ],
   "note": ""
  },
  {
   "property": "C23",
   "status": "partial",
   "theorems": [
    "C23_floats_partial",
    "C23_zero_exponent_refuted"
   ],
   "note": ""
  },
  {
   "property": "C24",
   "status": "proved",
   "theorems": [
    "C24_docstrings",
    "C24_idempotent",
    "C24_value_loses_newline"
   ],
   "note": "Proved as stated (text of the docstring). C24_value_loses_newline: the literal's value may lose a line break when a line ends in backslash-blank."
  },
  {
   "property": "C25",
   "status": "proved",
   "theorems": [
    "C25_only_redundant_parens",
    "C25_same_tree_without_parens"
   ],
   "note": ""
  },
  {
   "property": "C26",
   "status": "proved",
   "theorems": [
    "C26_only_documented_changes",
    "C26_same_label",
    "C26_shorten_absolute",
    "C26_malformed_label_refuted"
   ],
   "note": "Proved for valid labels; for malformed strings such as @foo//x/:foo the rewrite changes the reference (C26 refuted theorem)."
  },
  {
   "property": "C27",
   "status": "partial",
   "theorems": [
    "C27_call_arguments_kept",
    "C27_labels_kept",
    "C27_lists_kept_partial",
    "C27_keep_sorted_wins_refuted",
    "C27_marked_operand_refuted"
   ],
   "note": ""
  },
  {
   "property": "C28",
   "status": "partial",
   "theorems": [
    "C28_interruptable_preorder",
    "C28_walk_preorder",
    "C28_children",
    "C28_type_annotations_refuted",
    "C28_edit_unfolds"
   ],
   "note": ""
  },
  {
   "property": "C29",
   "status": "proved",
   "theorems": [
    "C29_documented",
    "C29_empty_set",
    "C29_no_panic"
   ],
   "note": ""
  },
  {
   "property": "C30",
   "status": "partial",
   "theorems": [
    "C30_tree_partial",
    "C30_format_parse_partial",
    "C30_line_break_refuted",
    "C30_comment_refuted",
    "C30_comprehension_refuted"
   ],
   "note": "Proved for every parsed file, with all its comments, whose layout satisfies PrintSpec.layout: no comment directly before an operand outside brackets, no line breaks or comments inside a tuple without parentheses outside brackets, no string literal of C05's crash. Three machine-checked counterexamples show what happens otherwise: the printed text is rejected."
  },
  {
   "property": "C31",
   "status": "proved",
   "theorems": [
    "C31_code_unchanged",
    "C31_each_comment_once",
    "C31_placement",
    "C31_before_in_order",
    "C31_lexed_in_order"
   ],
   "note": ""
  },
  {
   "property": "C32",
   "status": "proved",
   "theorems": [
    "C32_terminates",
    "C32_partition",
    "C32_eof_last",
    "C32_indentation_balanced",
    "C32_lines_outside_brackets",
    "C32_line_numbers"
   ],
   "note": ""
  },
  {
   "property": "C33",
   "status": "proved",
   "theorems": [
    "C33_get",
    "C33_set_place",
    "C33_get_set",
    "C33_delete",
    "C33_delete_others",
    "C33_delete_absent"
   ],
   "note": ""
  },
  {
   "property": "C34",
   "status": "partial",
   "theorems": [
    "C34_del_rules_partial",
    "C34_implicit_name_refuted",
    "C34_by_name",
    "C34_by_kind"
   ],
   "note": ""
  },
  {
   "property": "C35",
   "status": "proved",
   "theorems": [
    "C35_add",
    "C35_present",
    "C35_idempotent",
    "C35_add_other",
    "C35_sorted_place",
    "C35_sorted",
    "C35_attribute"
   ],
   "note": ""
  },
  {
   "property": "C36",
   "status": "proved",
   "theorems": [
    "C36_delete",
    "C36_none_left",
    "C36_attribute"
   ],
   "note": ""
  },
  {
   "property": "C37",
   "status": "partial",
   "theorems": [
    "C37_replace_partial",
    "C37_otherwise_plain_only_partial",
    "C37_no_match_error_refuted",
    "C37_substitute_partial"
   ],
   "note": ""
  },
  {
   "property": "C38",
   "status": "partial",
   "theorems": [
    "C38_get",
    "C38_set",
    "C38_set_get",
    "C38_delete_partial",
    "C38_delete_refuted"
   ],
   "note": ""
  },
  {
   "property": "C39",
   "status": "proved",
   "theorems": [
    "C39_resolve",
    "C39_others",
    "C39_simplify"
   ],
   "note": ""
  },
  {
   "property": "C40",
   "status": "partial",
   "theorems": [
    "C40_move_to_existing_partial",
    "C40_rename",
    "C40_rename_fails",
    "C40_move_to_new",
    "C40_fails",
    "C40_same_attribute_refuted"
   ],
   "note": ""
  },
  {
   "property": "C41",
   "status": "partial",
   "theorems": [
    "C41_existing_load",
    "C41_new_load",
    "C41_panics",
    "C41_bindings",
    "C41_duplicates_refuted",
    "C41_load_arguments",
    "C41_second_file_refuted"
   ],
   "note": ""
  },
  {
   "property": "C42",
   "status": "partial",
   "theorems": [
    "C42_replace_partial",
    "C42_other_statements",
    "C42_two_symbols_refuted"
   ],
   "note": ""
  },
  {
   "property": "C43",
   "status": "proved",
   "theorems": [
    "C43_new",
    "C43_refused"
   ],
   "note": ""
  },
  {
   "property": "C44",
   "status": "proved",
   "theorems": [
    "C44_declaration",
    "C44_once",
    "C44_remove_empty",
    "C44_remove_empty_use_repo",
    "C44_use_repo_other_files",
    "C44_unused"
   ],
   "note": ""
  },
  {
   "property": "C45",
   "status": "proved",
   "theorems": [
    "C45_rewrite",
    "C45_unreadable",
    "C45_total",
    "C45_print_only"
   ],
   "note": ""
  },
  {
   "property": "C46",
   "status": "partial",
   "theorems": [
    "C46_each_once",
    "C46_no_deadlock",
    "C46_terminates",
    "C46_result_partial",
    "C46_exit_code_partial",
    "C46_exit_code_meaning",
    "C46_shared_arguments_refuted"
   ],
   "note": ""
  },
  {
   "property": "C47",
   "status": "partial",
   "theorems": [
    "C47_never_out_of_phase",
    "C47_in_order",
    "C47_no_deadlock",
    "C47_terminates",
    "C47_duplicates_refuted"
   ],
   "note": ""
  },
  {
   "property": "C48",
   "status": "partial",
   "theorems": [
    "C48_syntax_error",
    "C48_check_mode",
    "C48_fix_mode",
    "C48_only_fix_writes",
    "C48_printing_modes",
    "C48_diagnostics_success",
    "C48_diff_mode_success_refuted",
    "C48_exit_zero_iff_all_fine"
   ],
   "note": ""
  },
  {
   "property": "C49",
   "status": "proved",
   "theorems": [
    "C49_replacement_reproduces_new_text",
    "C49_replacement_is_minimal",
    "C49_suggestion_is_the_fix"
   ],
   "note": ""
  },
  {
   "property": "C50",
   "status": "proved",
   "theorems": [
    "C50_rollback",
    "C50_rollback_file"
   ],
   "note": ""
  },
  {
   "property": "C51",
   "status": "partial",
   "theorems": [
    "C51_split_returns_arguments",
    "C51_split_is_a_reading",
    "C51_trailing_backslash_refuted",
    "C51_pipes_are_preserved",
    "C51_nul_refuted"
   ],
   "note": ""
  },
  {
   "property": "C52",
   "status": "partial",
   "theorems": [
    "C52_merge_overrides_given_keys",
    "C52_override_replaces_all",
    "C52_merge_after_override_refuted"
   ],
   "note": ""
  },
  {
   "property": "C53",
   "status": "partial",
   "theorems": [
    "C53_proxies",
    "C53_all_proxies",
    "C53_use_repos",
    "C53_add",
    "C53_add_once",
    "C53_duplicate_request_refuted",
    "C53_remove",
    "C53_command_proxy",
    "C53_command_extension",
    "C53_command_module_only",
    "C53_command_dev_panic_refuted"
   ],
   "note": ""
  },
  {
   "property": "C54",
   "status": "partial",
   "theorems": [
    "C54_repository_labels_partial",
    "C54_identifiers_are_no_labels",
    "C54_main_repository_labels_refuted"
   ],
   "note": ""
  },
  {
   "property": "C55",
   "status": "proved",
   "theorems": [
    "C55_unreachable_exact",
    "C55_unreachable_end",
    "C55_unreachable_warning",
    "C55_unreachable_sound",
    "C55_bare_returns",
    "C55_explicit_return",
    "C55_missing_return_exact",
    "C55_missing_return_sound"
   ],
   "note": ""
  },
  {
   "property": "C56",
   "status": "proved",
   "theorems": [
    "C56_documented_type",
    "C56_every_path_has_a_deciding_name",
    "C56_case_insensitive",
    "C56_directory_is_ignored"
   ],
   "note": ""
  },
  {
   "property": "C57",
   "status": "proved",
   "theorems": [
    "C57_terminates",
    "C57_deterministic",
    "C57_success",
    "C57_failure",
    "C57_mapping",
    "C57_path"
   ],
   "note": ""
  },
  {
   "property": "C58",
   "status": "proved",
   "theorems": [
    "C58_multiplus_layout",
    "C58_collapse_layout"
   ],
   "note": ""
  },
  {
   "property": "C59",
   "status": "proved",
   "theorems": [
    "C59_warn_mode",
    "C59_suggest_mode",
    "C59_fix_mode",
    "C59_fails_iff_unknown"
   ],
   "note": "Proved for checks that only read the file, as the type of a check suggests. Not every check does: attr-cfg writes to the tree while it looks (C85_lint_only_refuted), and so warn mode can change the file that is written afterwards."
  },
  {
   "property": "C60",
   "status": "partial",
   "theorems": [
    "C60_disabled_iff_comment",
    "C60_exact_name_refuted"
   ],
   "note": ""
  },
  {
   "property": "C61",
   "status": "proved",
   "theorems": [
    "C61_line_reading",
    "C61_commands_in_order",
    "C61_error_iff_empty_argument",
    "C61_build_file_targets"
   ],
   "note": ""
  },
  {
   "property": "C62",
   "status": "proved",
   "theorems": [
    "C62_rules_exist",
    "C62_rules",
    "C62_rule_named",
    "C62_rule_at"
   ],
   "note": ""
  },
  {
   "property": "C63",
   "status": "proved",
   "theorems": [
    "C63_lists",
    "C63_one_list",
    "C63_use_repo"
   ],
   "note": ""
  },
  {
   "property": "C64",
   "status": "partial",
   "theorems": [
    "C64_sound_partial",
    "C64_complete_partial",
    "C64_augmented_refuted",
    "C64_iterable_refuted",
    "C64_lambda_default_refuted",
    "C64_parenthesized_refuted",
    "C64_fail_refuted",
    "C64_loop_target_refuted",
    "C64_lambda_parameter_refuted",
    "C64_argument_name_refuted",
    "C64_nested_function_refuted",
    "C64_parenthesized_target_refuted",
    "C64_target_order_refuted"
   ],
   "note": "Both directions proved for every function and every run, under side conditions on how the function uses that one name. Each side condition is needed: eleven machine-checked counterexamples, six of missed reads (x += 1, fail(x), first iterable, lambda default, loop target, parenthesized target) and five of false alarms. The body of a nested function is not followed."
  },
  {
   "property": "C65",
   "status": "proved",
   "theorems": [
    "C65_parser_terminates"
   ],
   "note": ""
  },
  {
   "property": "C66",
   "status": "partial",
   "theorems": [
    "C66_sound_partial",
    "C66_no_internal_error_partial",
    "C66_dangling_backslash_refuted"
   ],
   "note": "Proved for every source that does not end with a backslash; a file ending in spaces and a backslash opens an empty block and can make the parser panic inside (C66_dangling_backslash_refuted)."
  },
  {
   "property": "C67",
   "status": "proved",
   "theorems": [
    "C67_complete",
    "C67_unambiguous",
    "C67_language"
   ],
   "note": ""
  },
  {
   "property": "C68",
   "status": "partial",
   "theorems": [
    "C68_in_order_partial",
    "C68_every_comment_once_partial"
   ],
   "note": "Proved for every accepted source that does not end with a backslash: the comments of the parsed file are those of the text, each exactly once with text and offset, and comment lines outside brackets are in the order of the text."
  },
  {
   "property": "C69",
   "status": "partial",
   "theorems": [
    "C69_idempotent_refuted"
   ],
   "note": "Refuted: the comment in z = x[ y # c ] is printed without the two spaces, which a second run adds. No positive theorem."
  },
  {
   "property": "C70",
   "status": "partial",
   "theorems": [
    "C70_built_partial",
    "C70_conditional_operand_refuted",
    "C70_conditional_else_refuted",
    "C70_is_not_refuted",
    "C70_number_field_refuted",
    "C70_tuple_refuted"
   ],
   "note": "Proved for every such tree, of any depth, in the layout that C30 asks for, except: conditional expressions as operands, after else or after the first comma of a tuple without parentheses, fields of number literals, and the operators is / is not. Each exception is a machine-checked counterexample: the printed text is read as another tree or refused."
  },
  {
   "property": "C71",
   "status": "partial",
   "theorems": [
    "C71_used_names_kept_partial",
    "C71_unused_names_removed",
    "C71_union_type_refuted",
    "C71_tuple_type_refuted",
    "C71_dotted_type_refuted",
    "C71_comments_refuted",
    "C71_idempotent_refuted"
   ],
   "note": "Code uses: kept and removed exactly, for every file. Annotations: only those made of names, x[y] and x.type; union, tuple and dotted types lose their binding (three counterexamples). Comments of a removed load are lost and a second run may remove more (two counterexamples)."
  },
  {
   "property": "C72",
   "status": "partial",
   "theorems": [
    "C72_used_names_kept_partial",
    "C72_only_unused_removed",
    "C72_types_refuted",
    "C72_one_source_refuted",
    "C72_suffix_comment_refuted"
   ],
   "note": "Proved for every file in which no module is the source of two symbols under one local name. Counterexamples: names used only in annotations, two symbols of one module under one name, comments at the end of a line."
  },
  {
   "property": "C73",
   "status": "proved",
   "theorems": [
    "C73_lint_reports",
    "C73_lint_fix",
    "C73_lint_no_fix",
    "C73_lint_done"
   ],
   "note": ""
  },
  {
   "property": "C74",
   "status": "partial",
   "theorems": [
    "C74_move_partial",
    "C74_assignment_refuted"
   ],
   "note": "The form of the result is proved for every file. That the declaration keeps what it needs before it is false: it is moved over an assignment it reads (counterexample)."
  },
  {
   "property": "C75",
   "status": "partial",
   "theorems": [
    "C75_visibility_partial",
    "C75_useless_visibility_removed",
    "C75_testonly",
    "C75_exports_files_refuted"
   ],
   "note": "Both proved for every rule and file, for visibility except exports_files, whose default is public: its private visibility is removed (counterexample)."
  },
  {
   "property": "C76",
   "status": "partial",
   "theorems": [
    "C76_split_options_partial",
    "C76_one_option_each",
    "C76_quotes_refuted",
    "C76_comments_refuted"
   ],
   "note": "Proved for strings without quotes and backslashes and with no other white space than blanks. Counterexamples: a quoted blank is split (the test for quotes looks for the two characters together), a blank string is dropped with its comment."
  },
  {
   "property": "C77",
   "status": "proved",
   "theorems": [
    "C77_shorten_labels"
   ],
   "note": ""
  },
  {
   "property": "C78",
   "status": "partial",
   "theorems": [
    "C78_labels_only",
    "C78_again_partial",
    "C78_cmd_only",
    "C78_execpath_refuted",
    "C78_again_refuted"
   ],
   "note": "The form of the result holds for every text; running it again changes nothing if no label is punctuation or called location. Counterexamples: $(execpath foo) is changed, a label called location."
  },
  {
   "property": "C79",
   "status": "partial",
   "theorems": [
    "C79_merge_lists_partial",
    "C79_varref_partial",
    "C79_varref_exact",
    "C79_varref_comments_refuted",
    "C79_comments_refuted"
   ],
   "note": "Value and absence of sums proved for every expression; C79_varref_exact gives the exact replacement. Comments on the second list, and comments before varref(...), are lost (counterexamples). varref inside varref is left as a call."
  },
  {
   "property": "C80",
   "status": "partial",
   "theorems": [
    "C80_plus_equal_partial",
    "C80_star_refuted"
   ],
   "note": "The form is proved for every file; with a starred argument the result does not parse (counterexample)."
  },
  {
   "property": "C81",
   "status": "partial",
   "theorems": [
    "C81_licenses_partial",
    "C81_no_package_refuted",
    "C81_keyword_refuted"
   ],
   "note": "Proved for every file with a package(). Without one the licenses are lost, and with a keyword argument the result does not parse (both machine-checked)."
  },
  {
   "property": "C82",
   "status": "partial",
   "theorems": [
    "C82_sound",
    "C82_clean",
    "C82_first",
    "C82_complete_partial",
    "C82_terminates",
    "C82_recursion_refuted"
   ],
   "note": "Sound, exact for 'no findings', the first finding and termination for every repository and map order; complete without recursion. With recursion a macro is reported or not depending on map order (counterexample): a negative provisional answer stays in the cache."
  },
  {
   "property": "C83",
   "status": "proved",
   "theorems": [
    "C83_options",
    "C83_twice_refuted"
   ],
   "note": "C83_options is the statement in full (an equivalence, with the values chosen). A consequence the user does not expect: a category that is on already and is switched on with + is run twice and its findings are reported twice (C83_twice_refuted). Reading of -tables files is not part of the model."
  },
  {
   "property": "C84",
   "status": "proved",
   "theorems": [
    "C84_fix",
    "C84_findings"
   ],
   "note": "C84_fix and C84_findings. Dictionaries inside type annotations are not visited (C28). The order in which the findings of one file are reported is not part of the statement."
  },
  {
   "property": "C85",
   "status": "partial",
   "theorems": [
    "C85_fix",
    "C85_findings",
    "C85_lint_only_partial",
    "C85_lint_only_refuted"
   ],
   "note": "Findings and fix proved in full. The last sentence is false: the check writes to the argument list while it looks (append to a slice of it), so that after --lint=warn the file is written with the last argument doubled (C85_lint_only_refuted, from source text to printed text); proved if cfg = \"data\" is always the last argument."
  },
  {
   "property": "C86",
   "status": "partial",
   "theorems": [
    "C86_non_empty_partial",
    "C86_single_file",
    "C86_variable_refuted",
    "C86_single_file_refuted"
   ],
   "note": "The form is proved for every file and the value of allow_empty for every value that is not a variable. Counterexamples: a variable becomes True whatever its value, and single_file = x is forgotten if there is an allow_files. Assumes that no reported call is directly a positional argument of another one."
  },
  {
   "property": "C87",
   "status": "partial",
   "theorems": [
    "C87_findings",
    "C87_fix",
    "C87_again",
    "C87_meaning",
    "C87_wrapper_refuted",
    "C87_loaded_twice_refuted",
    "C87_top_level_refuted",
    "C87_false_reports_refuted"
   ],
   "note": "C87_findings, C87_fix (exact change), C87_again (nothing reported afterwards, if the module was loaded or no statement of the file is itself native.g(...)), C87_meaning (a name without any meaning in the file means the loaded one afterwards). Refuted: a macro wrapping the native rule of the same name becomes recursive; a name loaded from elsewhere is loaded twice; native.g(...) as a statement stays when the load is new (the replacement goes to the old statement list); false reports for lambda parameters, nested functions, parenthesised targets, keywords and imported names of a load."
  },
  {
   "property": "C88",
   "status": "partial",
   "theorems": [
    "C88_fix",
    "C88_findings",
    "C88_meaning",
    "C88_again",
    "C88_user_function_refuted",
    "C88_comments_refuted"
   ],
   "note": "C88_fix, C88_findings, C88_meaning, C88_again hold for every file; C88_user_function_refuted: a user function named like a builtin (e.g. def len(y = 1, x = 2)) is rewritten too, and then gets the value for another parameter; C88_comments_refuted: comments at the argument are lost."
  },
  {
   "property": "C89",
   "status": "partial",
   "theorems": [
    "C89_fix",
    "C89_fix_partial",
    "C89_findings",
    "C89_sibling_meaning",
    "C89_nested_refuted",
    "C89_keywords_refuted",
    "C89_stars_refuted",
    "C89_comments_refuted",
    "C89_output_group",
    "C89_output_group_comments_refuted"
   ],
   "note": "C89_fix (no such call directly an argument of another), C89_fix_partial (any file), C89_findings, C89_sibling_meaning, C89_output_group; refuted: C89_nested_refuted, C89_keywords_refuted, C89_stars_refuted, C89_comments_refuted, C89_output_group_comments_refuted."
  },
  {
   "property": "C90",
   "status": "partial",
   "theorems": [
    "C90_find",
    "C90_split",
    "C90_absolute",
    "C90_relative",
    "C90_repository",
    "C90_root_refuted",
    "C90_dot_refuted",
    "C90_root_dir_refuted",
    "C90_file_package_refuted",
    "C90_workspace_bazel_refuted",
    "C90_order_refuted"
   ],
   "note": "Proved for file systems and paths of any depth (paths whose parts are ordinary names; symbolic links, Windows paths and Go's os.Getwd are not modelled); the stated exceptions are each shown by a counterexample."
  },
  {
   "property": "C91",
   "status": "partial",
   "theorems": [
    "C91_set",
    "C91_set_kind",
    "C91_set_if_absent",
    "C91_rename",
    "C91_remove",
    "C91_remove_all",
    "C91_remove_if_equal",
    "C91_remove_refuted",
    "C91_remove_values",
    "C91_replace",
    "C91_replace_refuted",
    "C91_print",
    "C91_columns",
    "C91_columns_refuted",
    "C91_print_refuted"
   ],
   "note": "Proved for every command at the level of one rule; remove of values for attributes that consist of lists and selects between lists. Refuted: attributes defined twice, replace on an attribute kind, reserved names in print, ambiguous columns."
  },
  {
   "property": "C92",
   "status": "partial",
   "theorems": [
    "C92_copy_partial",
    "C92_errors",
    "C92_no_overwrite",
    "C92_inner_comment_refuted",
    "C92_comment_refuted"
   ],
   "note": "C92_copy_partial: the statements read from the printed value have the value's meaning; that the first of them is not a comment block is not proved. Refuted for comments outside of brackets."
  },
  {
   "property": "C93",
   "status": "partial",
   "theorems": [
    "C93_rule",
    "C93_value",
    "C93_value_only",
    "C93_attribute",
    "C93_attribute_shown",
    "C93_attribute_refuted"
   ],
   "note": "Refuted for attributes: comment and print_comment look at different nodes."
  },
  {
   "property": "C94",
   "status": "partial",
   "theorems": [
    "C94_manifest",
    "C94_manifest_refuted",
    "C94_params",
    "C94_label",
    "C94_unused",
    "C94_deps",
    "C94_exact",
    "C94_safe",
    "C94_all",
    "C94_safe_refuted",
    "C94_params_refuted",
    "C94_external_refuted",
    "C94_external_label_refuted"
   ],
   "note": "Whole tool, except running the build tool and the extra-action mode; zip reading and protocol buffer decoding are parameters. Full statement for the main repository; refuted in four ways as listed in the statement."
  },
  {
   "property": "C95",
   "status": "proved",
   "theorems": [
    "C95_add",
    "C95_move",
    "C95_move_refuted"
   ],
   "note": "add and move are exact (C95_add, C95_move), for the list as it is in any configuration; `move old new *` is C40. Refuted: a value taken out of one branch of a select is unconditional in the other attribute. The statement says what is not guaranteed; all of it, with the counterexamples, is proved."
  },
  {
   "property": "C96",
   "status": "proved",
   "theorems": [
    "C96_print",
    "C96_native_package",
    "C96_args_kwargs",
    "C96_constant_glob",
    "C96_duplicated",
    "C96_positional",
    "C96_native_build",
    "C96_native_fix",
    "C96_native_fix_refuted",
    "C96_native_fix_same"
   ],
   "note": "All seven lints are exact, for every file. Refuted: the fix of native-build drops the comments of the node it replaces. The statement says what is not guaranteed; all of it, with the counterexamples, is proved."
  },
  {
   "property": "C97",
   "status": "proved",
   "theorems": [
    "C97_module",
    "C97_module_empty",
    "C97_function",
    "C97_describes",
    "C97_docstring",
    "C97_header",
    "C97_return",
    "C97_panic",
    "C97_args",
    "C97_args_panic",
    "C97_column_refuted",
    "C97_line_refuted"
   ],
   "note": "All five lints are characterised against a specification of lines, sections and described arguments; panic condition included. C97_column_refuted and C97_line_refuted: the reported positions are wrong. The statement says what is not guaranteed; all of it, with the counterexamples, is proved."
  },
  {
   "property": "C98",
   "status": "proved",
   "theorems": [
    "C98_confusing_name",
    "C98_name_conventions",
    "C98_visibility",
    "C98_visibility_unknown_root",
    "C98_nested_depset",
    "C98_list_append",
    "C98_append_fix",
    "C98_deprecated",
    "C98_visibility_refuted",
    "C98_append_refuted",
    "C98_parentheses_refuted"
   ],
   "note": "Each lint is characterised exactly; the _refuted theorems show what is not guaranteed (directory boundary, comments, parentheses). The statement says what is not guaranteed; all of it, with the counterexamples, is proved."
  },
  {
   "property": "C99",
   "status": "proved",
   "theorems": [
    "C99_global_names",
    "C99_global_fix",
    "C99_package_name",
    "C99_file_type",
    "C99_output_default",
    "C99_license",
    "C99_struct_return",
    "C99_provider",
    "C99_attr_names",
    "C99_licenses",
    "C99_keyword_refuted",
    "C99_not_global_refuted",
    "C99_struct_return_refuted",
    "C99_attr_names_refuted"
   ],
   "note": "Each lint is characterised exactly, the fix node by node; the _refuted theorems show what is not guaranteed (keywords, lambda parameters, nested functions, other dictionaries). The statement says what is not guaranteed; all of it, with the counterexamples, is proved."
  },
  {
   "property": "C100",
   "status": "proved",
   "theorems": [
    "C100_parameter_refuted",
    "C100_reassigned_refuted",
    "C100_product_refuted",
    "C100_types",
    "C100_unique"
   ],
   "note": "C100_types says the detected types satisfy the rules (an inductive relation on places, without the traversal), C100_unique that the rules determine them; the _refuted theorems show where the rules are not what happens at run time. The statement says what is not guaranteed; all of it, with the counterexamples, is proved."
  },
  {
   "property": "C101",
   "status": "proved",
   "theorems": [
    "C101_dict_concatenation",
    "C101_integer_division",
    "C101_depset_union",
    "C101_default_argument",
    "C101_string_iteration",
    "C101_depset_iteration",
    "C101_depset_items",
    "C101_args_api",
    "C101_redefined"
   ],
   "note": "Findings only: the replacements that these lints offer are not modelled."
  },
  {
   "property": "C102",
   "status": "proved",
   "theorems": [
    "C102_no_effect",
    "C102_unique"
   ],
   "note": "C102_unique: the specification determines the findings."
  },
  {
   "property": "C103",
   "status": "proved",
   "theorems": [
    "C103_unused",
    "C103_iterable_refuted",
    "C103_lambda_refuted"
   ],
   "note": "C103_iterable_refuted: the first iterable of a comprehension is treated as hidden by its own variables (a used parameter is reported). C103_lambda_refuted: a lambda parameter with a default value does not hide a variable (an unused variable is not reported). Both are part of the specification of C103_unused (hides)."
  },
  {
   "property": "C104",
   "status": "partial",
   "theorems": [
    "C104_set",
    "C104_add",
    "C104_no_colon",
    "C104_remove",
    "C104_replace",
    "C104_list_add",
    "C104_remove_refuted",
    "C104_set_refuted"
   ],
   "note": "C104_set, C104_add, C104_no_colon (an argument without a colon is an error, but the arguments before it have already changed an existing dictionary in place), C104_remove (for dictionaries whose keys are strings), C104_replace, C104_list_add. C104_remove_refuted: dict_remove also drops every entry whose key is no string. C104_set_refuted: an attribute that is no dictionary is replaced."
  },
  {
   "property": "C105",
   "status": "partial",
   "theorems": [
    "C105_text_partial",
    "C105_twice_refuted",
    "C105_panic_refuted",
    "C105_url_refuted",
    "C105_comments",
    "C105_docstring"
   ],
   "note": "C105_text_partial, C105_comments and C105_docstring hold for texts in which the word occurs at most once. C105_twice_refuted: the positions of the second word are those in the old text, so 'a skylark b Skylark c' becomes 'a starlark bstarlarkk c'. C105_panic_refuted: with the Kelvin sign and the long s (which the case-insensitive expression matches) the linter panics. C105_url_refuted: the slash after the word is looked for one character too late, so 'skylark/docs' is renamed."
  },
  {
   "property": "C106",
   "status": "proved",
   "theorems": [
    "C106_set_select",
    "C106_odd"
   ],
   "note": "C106_set_select, C106_odd. The attribute types are parameters, so the theorem holds for every table."
  },
  {
   "property": "C107",
   "status": "partial",
   "theorems": [
    "C107_text",
    "C107_attribute_partial",
    "C107_all_partial",
    "C107_load"
   ],
   "note": "C107_text (the replaced text), C107_attribute_partial, C107_all_partial, C107_load. Partial: for selects that have only a dictionary (with no_match_error the branches are skipped, C37_no_match_error_refuted), and for * only when no attribute is given twice. The regular expression library is a parameter whose contract is that a match lies in the text."
  },
  {
   "property": "C108",
   "status": "partial",
   "theorems": [
    "C108_expand",
    "C108_error",
    "C108_link_refuted",
    "C108_directory_refuted"
   ],
   "note": "C108_expand (complete description of the result, with the two cases for links), C108_error. C108_link_refuted: for an argument that is a link to a directory nothing is found and there is no error. C108_directory_refuted: a link to a directory that has the name of a file is taken for a file."
  },
  {
   "property": "C109",
   "status": "proved",
   "theorems": [
    "C109_find",
    "C109_once"
   ],
   "note": "C109_find, C109_once (no file twice). Links below the root are files; what cannot be read is left out without an error."
  }
 ]
}