{
 "claims": [
  {
   "property": "C01",
   "status": "proved",
   "theorems": [
    "C01_scan_reaches_eof",
    "C01_eof_stays",
    "C01_every_scan_returns"
   ],
   "note": ""
  },
  {
   "property": "C02",
   "status": "proved",
   "theorems": [
    "C02_tiling"
   ],
   "note": ""
  },
  {
   "property": "C03",
   "status": "proved",
   "theorems": [
    "C03_literals",
    "C03_literal_at_pos"
   ],
   "note": ""
  },
  {
   "property": "C04",
   "status": "proved",
   "theorems": [
    "C04_positions"
   ],
   "note": ""
  },
  {
   "property": "C05",
   "status": "proved",
   "theorems": [
    "C05_semicolon_rule"
   ],
   "note": ""
  },
  {
   "property": "C06",
   "status": "proved",
   "theorems": [
    "C06_comments_only_added",
    "C06_same_errors",
    "C06_tokenize"
   ],
   "note": ""
  },
  {
   "property": "C07",
   "status": "proved",
   "theorems": [
    "C07_error_count",
    "C07_tokenize",
    "C07_success_iff"
   ],
   "note": ""
  },
  {
   "property": "C08",
   "status": "proved",
   "theorems": [
    "C08_tokens_apart_read_back",
    "C08_written_tokens_read_back"
   ],
   "note": "all operators, identifiers, numbers, strings, raw strings and characters; with semicolon insertion newlines are not spacing and a final semicolon is added"
  },
  {
   "property": "C09",
   "status": "proved",
   "theorems": [
    "C09_longest_operator"
   ],
   "note": ""
  },
  {
   "property": "C10",
   "status": "proved",
   "theorems": [
    "C10_init_forgets",
    "C10_tokenize_history"
   ],
   "note": ""
  },
  {
   "property": "C11",
   "status": "proved",
   "theorems": [
    "C11_end"
   ],
   "note": "exact End for every token kind except ILLEGAL; the cases where it is wrong are stated exactly"
  },
  {
   "property": "C12",
   "status": "proved",
   "theorems": [
    "C12_roundtrip_token",
    "C12_roundtrip_literal",
    "C12_crash_iff",
    "C12_distinct",
    "C12_distinct_literals"
   ],
   "note": ""
  },
  {
   "property": "C13",
   "status": "proved",
   "theorems": [
    "C13_TokenLen",
    "C13_nonnegative_refuted",
    "C13_no_panic_refuted"
   ],
   "note": "exact characterisation; the naive claims (never negative, never panics) are refuted by the two _refuted theorems"
  },
  {
   "property": "C14",
   "status": "proved",
   "theorems": [
    "C14_registered",
    "C14_unique",
    "C14_ttol",
    "C14_only_registered",
    "C14_operators_unchanged"
   ],
   "note": ""
  },
  {
   "property": "C15",
   "status": "proved",
   "theorems": [
    "C15_line_table"
   ],
   "note": "line number for offsets inside the file"
  },
  {
   "property": "C16",
   "status": "proved",
   "theorems": [
    "C16_match_within_input"
   ],
   "note": ""
  },
  {
   "property": "C17",
   "status": "proved",
   "theorems": [
    "C17_success_iff",
    "C17_failure_iff",
    "C17_abort",
    "C17_unique",
    "C17_returned_outcome"
   ],
   "note": ""
  },
  {
   "property": "C18",
   "status": "proved",
   "theorems": [
    "C18_plus",
    "C18_list",
    "C18_list0",
    "C18_optional"
   ],
   "note": "the laws need the repeated/first element to be a grammar, not a bare !"
  },
  {
   "property": "C19",
   "status": "proved",
   "theorems": [
    "C19_peek",
    "C19_not",
    "C19_peek_peek",
    "C19_not_not"
   ],
   "note": ""
  },
  {
   "property": "C20",
   "status": "proved",
   "theorems": [
    "C20_first_alternative",
    "C20_furthest_failure",
    "C20_sequence_failure"
   ],
   "note": ""
  },
  {
   "property": "C21",
   "status": "proved",
   "theorems": [
    "C21_failfast_aborts",
    "C21_only_failfast_aborts"
   ],
   "note": ""
  },
  {
   "property": "C22",
   "status": "proved",
   "theorems": [
    "C22_len_repeat0",
    "C22_len_repeat1",
    "C22_len_repeat01",
    "C22_len_list"
   ],
   "note": ""
  },
  {
   "property": "C23",
   "status": "proved",
   "theorems": [
    "C23_actions_are_the_trace",
    "C23_action_tokens",
    "C23_action_panic"
   ],
   "note": ""
  },
  {
   "property": "C24",
   "status": "proved",
   "theorems": [
    "C24_well_formed_terminates"
   ],
   "note": "termination check takes a nullable set and a rank for rule names; the certificate is checked by computation"
  },
  {
   "property": "C25",
   "status": "proved",
   "theorems": [
    "C25_empty_repetition_diverges",
    "C25_left_recursion_diverges"
   ],
   "note": ""
  },
  {
   "property": "C26",
   "status": "proved",
   "theorems": [
    "C26_no_state_left_behind",
    "C26_second_match"
   ],
   "note": ""
  },
  {
   "property": "C27",
   "status": "proved",
   "theorems": [
    "C27_transactions_balanced",
    "C27_transaction_calls"
   ],
   "note": ""
  },
  {
   "property": "C28",
   "status": "proved",
   "theorems": [
    "C28_match",
    "C28_exactly_iff",
    "C28_otherwise"
   ],
   "note": ""
  },
  {
   "property": "C29",
   "status": "proved",
   "theorems": [
    "C29_source",
    "C29_adjacent"
   ],
   "note": ""
  },
  {
   "property": "C30",
   "status": "proved",
   "theorems": [
    "C30_returned_errors",
    "C30_raised_errors",
    "C30_leftover_error",
    "C30_all_errors_printable_refuted"
   ],
   "note": "exact characterisation; the claim that no error panics is refuted by C30_all_errors_printable_refuted"
  },
  {
   "property": "C31",
   "status": "proved",
   "theorems": [
    "C31_terminates"
   ],
   "note": ""
  },
  {
   "property": "C32",
   "status": "proved",
   "theorems": [
    "C32_compiles",
    "C32_one_reading",
    "C32_denotes"
   ],
   "note": ""
  },
  {
   "property": "C33",
   "status": "proved",
   "theorems": [
    "C33_only_rules_compile",
    "C33_otherwise"
   ],
   "note": ""
  },
  {
   "property": "C34",
   "status": "proved",
   "theorems": [
    "C34_no_dangling"
   ],
   "note": ""
  },
  {
   "property": "C35",
   "status": "proved",
   "theorems": [
    "C35_compiles_iff",
    "C35_naive_refuted"
   ],
   "note": "exact characterisation; the naive claim is refuted by C35_naive_refuted"
  },
  {
   "property": "C36",
   "status": "proved",
   "theorems": [
    "C36_marks_in_order",
    "C36_mark_wraps"
   ],
   "note": "the order and number of calls for every Marker (through a log); the grammar given and replaced for the wrapping Marker, and through C32_denotes for every Marker whose result depends on the name only"
  },
  {
   "property": "C37",
   "status": "proved",
   "theorems": [
    "C37_reads_back",
    "C37_recompiles",
    "C37_list_separator_refuted",
    "C37_plus_plus_refuted",
    "C37_bang_refuted",
    "C37_eof_refuted",
    "C37_keyword_rule_refuted",
    "C37_same_matches",
    "C37_same_match_calls",
    "C37_bang_matches_refuted"
   ],
   "note": "a whole set of rules is printed and compiled again with the same scanner; equality up to norm (nesting of sequences and choices, ! in sequences, marks, object identities); the exceptions are the _refuted theorems; C37_same_matches: the recompiled rules match what the printed ones match (and no more if there is no !, which Code leaves out: C37_bang_matches_refuted)"
  },
  {
   "property": "C38",
   "status": "proved",
   "theorems": [
    "C38_EOF_refuted",
    "C38_operator_names_refuted"
   ],
   "note": "the claim is false: refuted by a grammar with EOF that matches no text at all, and by ADD being rejected"
  },
  {
   "property": "C39",
   "status": "proved",
   "theorems": [
    "C39_action",
    "C39_mute",
    "C39_unmute",
    "C39_evaluation",
    "C39_init"
   ],
   "note": ""
  },
  {
   "property": "C40",
   "status": "proved",
   "theorems": [
    "C40_number_engine",
    "C40_number",
    "C40_rat_engine",
    "C40_rat",
    "C40_cmplx_engine",
    "C40_cmplx"
   ],
   "note": "for texts of fewer than 2^53 tokens (arities travel through a float64 stack); rat: the library functions and big.Rat are parameters"
  },
  {
   "property": "C41",
   "status": "proved",
   "theorems": [
    "C41_number",
    "C41_rat",
    "C41_cmplx"
   ],
   "note": "for texts of fewer than 2^53 tokens"
  },
  {
   "property": "C42",
   "status": "proved",
   "theorems": [
    "C42_call",
    "C42_bad_result",
    "C42_count",
    "C42_short_stack",
    "C42_bad_argument",
    "C42_vcall",
    "C42_vcall_short"
   ],
   "note": "an argument of a wrong type is reported after the arguments were popped; VCall pops before it checks the count"
  },
  {
   "property": "C43",
   "status": "proved",
   "theorems": [
    "C43_parse_int"
   ],
   "note": "INT tokens of every text Tokenize accepts"
  },
  {
   "property": "C44",
   "status": "proved",
   "theorems": [
    "C44_parse_float",
    "C44_refuted"
   ],
   "note": "exact characterisation; the claim is false (C44_refuted): an octal literal beyond int64 is read as decimal"
  },
  {
   "property": "C45",
   "status": "proved",
   "theorems": [
    "C45_restored",
    "C45_restored_text",
    "C45_current"
   ],
   "note": "EvalCode of tokens and of texts; C45_current for tokens"
  },
  {
   "property": "C46",
   "status": "proved",
   "theorems": [
    "C46_surfaces",
    "C46_always_wrapped",
    "C46_once"
   ],
   "note": "panics of the matcher itself (a failed !, a nil grammar) stay as they are"
  },
  {
   "property": "C47",
   "status": "proved",
   "theorems": [
    "C47_document",
    "C47_never_broken"
   ],
   "note": "for every state an engine can be in; the order of a map's keys means nothing"
  },
  {
   "property": "C48",
   "status": "proved",
   "theorems": [
    "C48_every_element_iff",
    "C48_every_element_refuted"
   ],
   "note": "the claim is false (C48_every_element_refuted); exact condition in C48_every_element_iff"
  },
  {
   "property": "C49",
   "status": "proved",
   "theorems": [
    "C49_failed_node"
   ],
   "note": ""
  },
  {
   "property": "C50",
   "status": "proved",
   "theorems": [
    "C50_leaf",
    "C50_node",
    "C50_rejected",
    "C50_one_reading"
   ],
   "note": "exact; a type whose name ends in s is taken for an array (C50_type_in_s)"
  },
  {
   "property": "C51",
   "status": "proved",
   "theorems": [
    "C51_history",
    "C51_safe_history"
   ],
   "note": ""
  },
  {
   "property": "C52",
   "status": "proved",
   "theorems": [
    "C52_exact_in_range",
    "C52_int",
    "C52_int_sub",
    "C52_int_mul",
    "C52_int_div",
    "C52_int_div_overflow",
    "C52_div_by_zero",
    "C52_unary",
    "C52_bytes",
    "C52_mixed",
    "C52_other_types",
    "C52_other_types_unary"
   ],
   "note": "float64 operations are those of the standard library specification of IEEE 754 (SpecFloat)"
  },
  {
   "property": "C53",
   "status": "proved",
   "theorems": [
    "C53_comparison",
    "C53_transitive",
    "C53_mixed_ints",
    "C53_converted",
    "C53_byte_int_refuted",
    "C53_int_float_refuted",
    "C53_nan_refuted",
    "C53_other_types",
    "C53_types_differ",
    "C53_equal",
    "C53_uncomparable"
   ],
   "note": "also for strings and floats; the claim is false across byte/int, int/float and for NaN (_refuted theorems)"
  },
  {
   "property": "C54",
   "status": "proved",
   "theorems": [
    "C54_max_ints",
    "C54_min_ints",
    "C54_max_mixed",
    "C54_min_mixed",
    "C54_other_types",
    "C54_empty",
    "C54_nan_refuted",
    "C54_rat_max",
    "C54_rat_min"
   ],
   "note": "with a NaN among the arguments only membership holds (C54_nan_refuted); also the rational calculator"
  },
  {
   "property": "C55",
   "status": "proved",
   "theorems": [
    "C55_wrong_count",
    "C55_no_body",
    "C55_bindings",
    "C55_bindings_total",
    "C55_variadic_without_parameter",
    "C55_call",
    "C55_stack_return",
    "C55_stack_panic",
    "C55_return",
    "C55_stack_refuted",
    "C55_program_call",
    "C55_spread",
    "C55_spread_no_slice",
    "C55_kept",
    "C55_wf_return"
   ],
   "note": "for any call whose body and deferred expressions keep the stack they find (keeps), which C55_kept proves of every call of a well-formed function with well-formed arguments; the stack is as before unless a deferred expression panics (C55_stack_refuted) or the program exits"
  },
  {
   "property": "C56",
   "status": "proved",
   "theorems": [
    "C56_defer",
    "C56_exec",
    "C56_recover",
    "C56_recovered",
    "C56_not_recovered",
    "C56_direct_refuted",
    "C56_rest_skipped_refuted",
    "C56_nested_refuted",
    "C56_return_refuted"
   ],
   "note": "order, once each, all exits, recover; false when a deferred expression panics, defers or returns itself, and for recover() deferred directly (_refuted theorems)"
  },
  {
   "property": "C57",
   "status": "proved",
   "theorems": [
    "C57_read",
    "C57_read_builtin",
    "C57_private",
    "C57_assign",
    "C57_assign_new",
    "C57_assign_extern",
    "C57_op_assign",
    "C57_inc",
    "C57_op_unknown",
    "C57_call",
    "C57_unset_refuted"
   ],
   "note": "read, assign, operator assignment and call keep cached references right (coherent), so each finds the nearest definition; only unset breaks it (C57_unset_refuted)"
  },
  {
   "property": "C58",
   "status": "proved",
   "theorems": [
    "C58_if",
    "C58_switch",
    "C58_if_one_value",
    "C58_switch_one_value",
    "C58_taken",
    "C58_none_taken",
    "C58_one_value",
    "C58_wf_if",
    "C58_wf_switch"
   ],
   "note": "for any evaluator of code; the first true condition and exactly its body; one value on the stack whenever the conditions and bodies leave one, which C58_one_value proves of all well-formed code"
  },
  {
   "property": "C59",
   "status": "proved",
   "theorems": [
    "C59_for",
    "C59_for_panics",
    "C59_stack",
    "C59_other_forms",
    "C59_wf_for"
   ],
   "note": "for any evaluator of code; completes iff init and some number of rounds do, panics iff one of the parts does; the other numbers of statements are refused; the stack effect also for all well-formed code (C59_wf_for)"
  },
  {
   "property": "C60",
   "status": "proved",
   "theorems": [
    "C60_decided",
    "C60_right",
    "C60_not_boolean",
    "C60_value",
    "C60_boolean_refuted"
   ],
   "note": "short-circuit and the non-boolean left operand for any evaluator; the result need not be a boolean (C60_boolean_refuted)"
  },
  {
   "property": "C61",
   "status": "proved",
   "theorems": [
    "C61_never_replaces",
    "C61_others_unchanged",
    "C61_import_all",
    "C61_import_module",
    "C61_partial_import"
   ],
   "note": "which symbols a panicking Import has added depends on the iteration order (C61_partial_import)"
  },
  {
   "property": "C62",
   "status": "proved",
   "theorems": [
    "C62_assigns",
    "C62_mismatch",
    "C62_no_slice",
    "C62_each",
    "C62_all_or_nothing_refuted"
   ],
   "note": "in order, up to a panic; all-or-nothing holds for a wrong number of elements and for non-slices but not when an assignment itself panics (C62_all_or_nothing_refuted)"
  },
  {
   "property": "C63",
   "status": "proved",
   "theorems": [
    "C63_integers",
    "C63_floats",
    "C63_byte_refuted",
    "C63_others_unchanged",
    "C63_interface_refuted",
    "C63_several",
    "C63_none"
   ],
   "note": "exact; false for bytes and for results declared with interface types (_refuted theorems)"
  },
  {
   "property": "C64",
   "status": "proved",
   "theorems": [
    "C64_terminates",
    "C64_token_error",
    "C64_faithful",
    "C64_plus_refuted",
    "C64_late_use_refuted",
    "C64_true_refuted",
    "C64_names_refuted",
    "C64_operators_refuted",
    "C64_unassigned_refuted"
   ],
   "note": "for the sources without +, quoted operators or keywords, true, names Go cannot have and rules used before and after their definition; each of these exceptions is refuted; the program text is read by a reader for the Go it uses (GenSpec), not by Go"
  },
  {
   "property": "C65",
   "status": "proved",
   "theorems": [
    "C65_no_error_means_well_formed"
   ],
   "note": ""
  },
  {
   "property": "C66",
   "status": "proved",
   "theorems": [
    "C66_specification_determines_tokens"
   ],
   "note": ""
  },
  {
   "property": "C67",
   "status": "proved",
   "theorems": [
    "C67_tokenize_accepts_iff",
    "C67_silent_iff"
   ],
   "note": "for character tables in which U+FFFD is neither letter nor digit, as in Unicode"
  },
  {
   "property": "C68",
   "status": "proved",
   "theorems": [
    "C68_FileLine"
   ],
   "note": ""
  },
  {
   "property": "C69",
   "status": "proved",
   "theorems": [
    "C69_tokens_iff",
    "C69_tokens_fail_iff",
    "C69_text_iff",
    "C69_unknown"
   ],
   "note": ""
  },
  {
   "property": "C70",
   "status": "proved",
   "theorems": [
    "C70_excerpt"
   ],
   "note": "added after the edit nextLines 9 -> 8 broke no theorem"
  },
  {
   "property": "C71",
   "status": "proved",
   "theorems": [
    "C71_int",
    "C71_go_value_refuted",
    "C71_others"
   ],
   "note": "exact; the naive claim is refuted by C71_go_value_refuted"
  },
  {
   "property": "C72",
   "status": "proved",
   "theorems": [
    "C72_safe",
    "C72_none_left",
    "C72_panic_is_error",
    "C72_recovered",
    "C72_panics_refuted",
    "C72_run_again_refuted"
   ],
   "note": "exact (C72_safe); C72_panics_refuted and C72_run_again_refuted show where the plain claim fails"
  },
  {
   "property": "C73",
   "status": "proved",
   "theorems": [
    "C73_new",
    "C73_new_no_class",
    "C73_member",
    "C73_class_member",
    "C73_method_call",
    "C73_set",
    "C73_set_method",
    "C73_declaration",
    "C73_class"
   ],
   "note": "set of maps, slices and other Go values is the library (a parameter)"
  },
  {
   "property": "C74",
   "status": "proved",
   "theorems": [
    "C74_accepted",
    "C74_accepted_code",
    "C74_no_error",
    "C74_only_texts_refuted",
    "C74_eval",
    "C74_exec",
    "C74_unique"
   ],
   "note": "QText gives the well-formed texts and their meaning without the grammar, marks or muting; C74_accepted: the engine accepts no other texts but those with one of the two constructs of QOdd, whose meaning is not described; C74_only_texts_refuted: that exception is needed"
  },
  {
   "property": "C75",
   "status": "proved",
   "theorems": [
    "C75_value",
    "C75_total",
    "C75_unique",
    "C75_run",
    "C75_exec"
   ],
   "note": "QExpr gives trees, how they are written, values, and what a panic may change (kept); nothing is said of texts outside it"
  },
  {
   "property": "C76",
   "status": "proved",
   "theorems": [
    "C76_accepted",
    "C76_eval",
    "C76_exec",
    "C76_session",
    "C76_any_program_refuted"
   ],
   "note": "for the texts of QText and libraries that return well-formed values (wf_lib); C76_any_program_refuted shows a text outside QText that the grammar accepts and that leaves four values; C76_accepted: every other accepted program leaves one"
  },
  {
   "property": "C77",
   "status": "proved",
   "theorems": [
    "C77_reached",
    "C77_typed",
    "C77_length",
    "C77_get",
    "C77_get_string",
    "C77_set",
    "C77_set_effect",
    "C77_set_refused",
    "C77_set_pairs",
    "C77_set_odd",
    "C77_sub",
    "C77_sub_refused",
    "C77_sub_string",
    "C77_append",
    "C77_append_full",
    "C77_append_refused",
    "C77_append_kind",
    "C77_zero",
    "C77_slice",
    "C77_slice_refused",
    "C77_sliceFrom",
    "C77_sliceFrom_none",
    "C77_append_other_refuted",
    "C77_set_nil_refuted",
    "C77_literal",
    "C77_index"
   ],
   "note": "arrays, offsets, lengths and capacities as Go has them; how much an array grows is a parameter; C77_append_other_refuted and C77_set_nil_refuted show where plainer claims fail; named types and float32 are left out; C77_literal and C77_index relate them to the literals and indices of programs (Qlang)"
  },
  {
   "property": "C78",
   "status": "proved",
   "theorems": [
    "C78_typed",
    "C78_keys",
    "C78_get",
    "C78_set",
    "C78_set_refused",
    "C78_set_effect",
    "C78_delete",
    "C78_len",
    "C78_mkmap",
    "C78_mkmap_refused",
    "C78_types",
    "C78_mapFrom",
    "C78_mapFrom_refused",
    "C78_mapFrom_none",
    "C78_nan_refuted"
   ],
   "note": "equality of keys is exact (C78_keys); C78_nan_refuted; the order of iteration is not modelled (these functions do not iterate)"
  },
  {
   "property": "C79",
   "status": "proved",
   "theorems": [
    "C79_return",
    "C79_return_ends",
    "C79_main",
    "C79_main_ends",
    "C79_final"
   ],
   "note": "for any evaluator of code; os.Exit is an outcome that nothing catches"
  },
  {
   "property": "C80",
   "status": "proved",
   "theorems": [
    "C80_marks",
    "C80_compiles",
    "C80_action",
    "C80_new",
    "C80_new_ends",
    "C80_exec",
    "C80_exec_panics",
    "C80_exec_unmuted",
    "C80_evaluation",
    "C80_restored",
    "C80_current",
    "C80_int",
    "C80_int_refuted"
   ],
   "note": "function calls, other Go functions and the contents of slices and maps are parameters, instantiated with the qlang machine in the examples; C80_current is about functions that leave the current interpreter as it is; C80_int_refuted shows that marks ...Int read octal literals as decimal"
  },
  {
   "property": "C81",
   "status": "proved",
   "theorems": [
    "C81_marks",
    "C81_compiles"
   ],
   "note": ""
  },
  {
   "property": "C82",
   "status": "proved",
   "theorems": [
    "C82_infos",
    "C82_position",
    "C82_no_comment",
    "C82_crlf",
    "C82_FileLine",
    "C82_FileLine_refuted"
   ],
   "note": "the file name is the one written in the comment (trimming, cleaning and joining with the directory are left out); go/token File.Position is modelled; C82_FileLine_refuted: FileLine pairs the file's own name with the line of the directive"
  },
  {
   "property": "C83",
   "status": "proved",
   "theorems": [
    "C83_unread",
    "C83_refused",
    "C83_frame",
    "C83_json",
    "C83_template",
    "C83_unknown_format",
    "C83_main",
    "C83_separately",
    "C83_keeps_old_refuted",
    "C83_full_disk_refuted",
    "C83_separately_refuted"
   ],
   "note": "the extractor, JSON and template packages and the file system are parameters; examples run the modelled extractor. Refuted: a failure keeps the old output; a full disk is noticed for JSON; files can be converted together when one output is another input"
  },
  {
   "property": "C84",
   "status": "proved",
   "theorems": [
    "C84_found",
    "C84_panics",
    "C84_not_found",
    "C84_order",
    "C84_source",
    "C84_one_character",
    "C84_success",
    "C84_output",
    "C84_failure",
    "C84_frame",
    "C84_kept",
    "C84_order_refuted",
    "C84_declared_refuted",
    "C84_source_refuted"
   ],
   "note": "go/parser, text/template and the file system are parameters; the generator is the one of C64 in the examples. Refuted: independence of the order of iteration, a declaration without value, interpreted literals with escapes"
  },
  {
   "property": "C85",
   "status": "proved",
   "theorems": [
    "C85_number",
    "C85_rat",
    "C85_cmplx",
    "C85_cleared"
   ],
   "note": "lines as delivered by bufio.Scanner, with fewer than 2^53 tokens; the text of numbers and errors is not modelled; floating point as in C40"
  },
  {
   "property": "C86",
   "status": "proved",
   "theorems": [
    "C86_marks",
    "C86_int_literal",
    "C86_literal",
    "C86_eval",
    "C86_eval_code",
    "C86_eval_code_text",
    "C86_context",
    "C86_fileline",
    "C86_same_refuted"
   ],
   "note": "strconv.ParseFloat is a parameter that reads 0 as 0; that the generated code builds the same grammar is C64. C86_same_refuted: 010+1 and 0x10+1 have other values or none in the generated interpreter"
  },
  {
   "property": "C87",
   "status": "proved",
   "theorems": [
    "C87_history",
    "C87_source",
    "C87_source_right",
    "C87_source_kept",
    "C87_no_tokens",
    "C87_file_line",
    "C87_error",
    "C87_error_line",
    "C87_other_text_refuted",
    "C87_panic_refuted"
   ],
   "note": "lines for a last text that was tokenized without error; positions at the very end of the text are excluded from the line formula. Refuted: tokens of an earlier text show their own text and line; their errors can always be formatted"
  },
  {
   "property": "C88",
   "status": "proved",
   "theorems": [
    "C88_number",
    "C88_max",
    "C88_min",
    "C88_inf",
    "C88_holds_value",
    "C88_faithful",
    "C88_limit_refuted",
    "C88_qlang_arith",
    "C88_qlang_order"
   ],
   "note": "strconv.ParseFloat is a parameter assumed to read decimal digits up to 2^53 exactly; the other functions of package math are parameters. C88_limit_refuted: not beyond 2^53"
  },
  {
   "property": "C89",
   "status": "proved",
   "theorems": [
    "C89_gauss",
    "C89_parts",
    "C89_real_arguments",
    "C89_conj",
    "C89_parts_refuted"
   ],
   "note": "division, cmplx.Rect and the other functions of math/cmplx are parameters; strconv.ParseFloat as in C88. C89_parts_refuted: real(x) + imag(x)*1i is not x"
  },
  {
   "property": "C90",
   "status": "proved",
   "theorems": [
    "C90_exact",
    "C90_only",
    "C90_lowest",
    "C90_max",
    "C90_min",
    "C90_tokens",
    "C90_tokens_rat",
    "C90_tokens_cmplx",
    "C90_agree",
    "C90_agree_cmplx",
    "C90_octal_refuted"
   ],
   "note": "math/big is modelled by the rational numbers of the standard library, reduced after each operation; literals that are not decimal digits (hexadecimal) are read by a parameter and excluded. C90_octal_refuted: 010"
  },
  {
   "property": "C91",
   "status": "proved",
   "theorems": [
    "C91_var",
    "C91_set",
    "C91_ret",
    "C91_value",
    "C91_once",
    "C91_session",
    "C91_failed_refuted",
    "C91_stale_refuted"
   ],
   "note": "C91_session is for expressions of QExpr and single assignments, values that are no internal references, and function tables without such (plain_lib); C91_ret and C91_value for all well-formed programs. C91_failed_refuted, C91_stale_refuted: Ret after an evaluation that failed"
  },
  {
   "property": "C92",
   "status": "proved",
   "theorems": [
    "C92_one_outcome",
    "C92_exec",
    "C92_session"
   ],
   "note": "QWhile gives the statements, how they are written and what they do to a map of variables; for expressions of QExpr (no calls, members or indices), names that are not empty, and function tables without internal references (plain_lib). Programs that finish; C92_one_outcome: the bound on rounds in the specification does not matter"
  },
  {
   "property": "C93",
   "status": "proved",
   "theorems": [
    "C93_bound_exec",
    "C93_bound_safe",
    "C93_bound_eval",
    "C93_one_result",
    "C93_ends",
    "C93_ends_iff",
    "C93_forever"
   ],
   "note": "the converse of C92: if Exec ends with some bound, the specification has that outcome; if the specification has no outcome for any bound, Exec and SafeExec run out of every bound. C93_bound_*: all of the engine, functions included, is monotone in the bound of the model"
  },
  {
   "property": "C94",
   "status": "proved",
   "theorems": [
    "C94_one_outcome",
    "C94_exec",
    "C94_call",
    "C94_read",
    "C94_session"
   ],
   "note": "the specification (QFun.v) is an evaluator over a list of scopes; the theorems hold whenever it yields an outcome for some bound on rounds and call depth, and C94_one_outcome says that the bound does not matter. Its [reads] is the partial knowledge of which program a function body is: any function whose answers are right; C94_read gives one, a reader by recursive descent (QRead.v). What is left out (None in the specification): return and defer outside functions (C79, C56), calls of library functions other than panic, of methods and classes (C55, C73), panic of objects and other values (C56) and indices of what is neither a slice, a string nor an int (C77). C94_session covers host programs on a new engine, C94_exec any engine state that matches a store, C94_call one call made from anywhere"
  },
  {
   "property": "C95",
   "status": "proved",
   "theorems": [
    "C95_outcome",
    "C95_origin",
    "C95_never_panics"
   ],
   "note": "which panic values of GetValue are strings or errors is a parameter (recoverable); those of the matcher (a match error, a nil dereference, an index out of range) are errors in Go"
  }
 ]
}