{
 "claims": [
  {
   "property": "C01",
   "status": "proved",
   "theorems": [
    "C01_no_panic"
   ],
   "note": ""
  },
  {
   "property": "C02",
   "status": "proved",
   "theorems": [
    "C02_literal_node",
    "C02_char_node",
    "C02_match_string"
   ],
   "note": ""
  },
  {
   "property": "C03",
   "status": "proved",
   "theorems": [
    "C03_insensitive_node",
    "C03_match_insensitive"
   ],
   "note": ""
  },
  {
   "property": "C04",
   "status": "proved",
   "theorems": [
    "C04_range_node",
    "C04_any_node",
    "C04_property_node",
    "C04_ascii_nodes",
    "C04_match_range",
    "C04_match_char_by",
    "C04_next_char",
    "C04_match_char"
   ],
   "note": "The tables of Unicode properties are an arbitrary predicate."
  },
  {
   "property": "C05",
   "status": "proved",
   "theorems": [
    "C05_newline"
   ],
   "note": ""
  },
  {
   "property": "C06",
   "status": "proved",
   "theorems": [
    "C06_skip_node",
    "C06_skip",
    "C06_skip_back",
    "C06_skip_roundtrip"
   ],
   "note": ""
  },
  {
   "property": "C07",
   "status": "proved",
   "theorems": [
    "C07_skip_until"
   ],
   "note": "The compiled variant (no memchr feature)."
  },
  {
   "property": "C08",
   "status": "proved",
   "theorems": [
    "C08_line_col"
   ],
   "note": ""
  },
  {
   "property": "C09",
   "status": "proved",
   "theorems": [
    "C09_line_of"
   ],
   "note": ""
  },
  {
   "property": "C10",
   "status": "proved",
   "theorems": [
    "C10_position_new",
    "C10_span_new",
    "C10_span_text"
   ],
   "note": ""
  },
  {
   "property": "C11",
   "status": "proved",
   "theorems": [
    "C11_span_get"
   ],
   "note": ""
  },
  {
   "property": "C12",
   "status": "proved",
   "theorems": [
    "C12_lines",
    "C12_lines_covered",
    "C12_lines_whole",
    "C12_split_lines_spec",
    "C12_lines_only_covered_refuted"
   ],
   "note": "The documented claim (only covered lines) is false of the code (C12_lines_only_covered_refuted)."
  },
  {
   "property": "C13",
   "status": "proved",
   "theorems": [
    "C13_merge",
    "C13_merge_comm",
    "C13_merge_smallest"
   ],
   "note": ""
  },
  {
   "property": "C14",
   "status": "proved",
   "theorems": [
    "C14_check_parse",
    "C14_text_entry_points"
   ],
   "note": ""
  },
  {
   "property": "C15",
   "status": "proved",
   "theorems": [
    "C15_sound"
   ],
   "note": ""
  },
  {
   "property": "C16",
   "status": "proved",
   "theorems": [
    "C16_complete",
    "C16_unique",
    "C16_outcome_unique",
    "C16_more_fuel"
   ],
   "note": ""
  },
  {
   "property": "C17",
   "status": "proved",
   "theorems": [
    "C17_choice_succeeds",
    "C17_choice_fails"
   ],
   "note": ""
  },
  {
   "property": "C18",
   "status": "proved",
   "theorems": [
    "C18_repetition_succeeds",
    "C18_repetition_fails",
    "C18_at_least_min",
    "C18_min_above_max_refuted",
    "C18_unbounded"
   ],
   "note": "Also records that a minimum above the maximum accepts fewer than the minimum (C18_min_above_max_refuted)."
  },
  {
   "property": "C19",
   "status": "proved",
   "theorems": [
    "C19_optional",
    "C19_never_fail",
    "C19_never_failing_entry",
    "C19_never_failing_empty"
   ],
   "note": ""
  },
  {
   "property": "C20",
   "status": "proved",
   "theorems": [
    "C20_positive",
    "C20_negative",
    "C20_stack_and_position"
   ],
   "note": ""
  },
  {
   "property": "C21",
   "status": "proved",
   "theorems": [
    "C21_snapshots_balanced",
    "C21_choice_restores",
    "C21_optional_restores",
    "C21_round_restores"
   ],
   "note": "pest2's stack is external and modelled by its documented contract."
  },
  {
   "property": "C22",
   "status": "proved",
   "theorems": [
    "C22_push",
    "C22_peek",
    "C22_pop",
    "C22_drop",
    "C22_empty_stack",
    "C22_peek_all",
    "C22_pop_all"
   ],
   "note": ""
  },
  {
   "property": "C23",
   "status": "proved",
   "theorems": [
    "C23_slice",
    "C23_out_of_bound",
    "C23_top_to_bottom_refuted"
   ],
   "note": "Elements are matched bottom to top; the documented top-to-bottom order is false of the code (C23_top_to_bottom_refuted)."
  },
  {
   "property": "C24",
   "status": "proved",
   "theorems": [
    "C24_full_success",
    "C24_full_error",
    "C24_eoi_always_listed_refuted"
   ],
   "note": "The simpler claim that end-of-input is always listed is false (C24_eoi_always_listed_refuted)."
  },
  {
   "property": "C25",
   "status": "proved",
   "theorems": [
    "C25_rule_span",
    "C25_nodes_inside",
    "C25_leaf_text",
    "C25_predicate_nodes_refuted"
   ],
   "note": "Nodes kept by a positive predicate reach beyond the span (C25_predicate_nodes_refuted)."
  },
  {
   "property": "C26",
   "status": "proved",
   "theorems": [
    "C26_nested"
   ],
   "note": ""
  },
  {
   "property": "C27",
   "status": "proved",
   "theorems": [
    "C27_pairs",
    "C27_children",
    "C27_tree",
    "C27_unique",
    "C27_silent_nothing"
   ],
   "note": ""
  },
  {
   "property": "C28",
   "status": "proved",
   "theorems": [
    "C28_vec_children",
    "C28_pushed",
    "C28_agree_refuted"
   ],
   "note": "The documented agreement is false of the code for push of a non-silent rule (C28_agree_refuted)."
  },
  {
   "property": "C29",
   "status": "proved",
   "theorems": [
    "C29_partial_position",
    "C29_monotone"
   ],
   "note": ""
  },
  {
   "property": "C30",
   "status": "proved",
   "theorems": [
    "C30_partial_report",
    "C30_listed",
    "C30_attempts_determined",
    "C30_failure_names_a_rule_refuted"
   ],
   "note": "Also records that a failed parse need not name any rule (C30_failure_names_a_rule_refuted)."
  },
  {
   "property": "C31",
   "status": "proved",
   "theorems": [
    "C31_balanced"
   ],
   "note": ""
  },
  {
   "property": "C32",
   "status": "proved",
   "theorems": [
    "C32_message",
    "C32_any_tracker",
    "C32_off_boundary",
    "C32_notation_unique"
   ],
   "note": "Rule names are printed by an arbitrary function; wrapping into the external error type of the pest 2 crate is not modelled beyond its position and message."
  },
  {
   "property": "C33",
   "status": "proved",
   "theorems": [
    "C33_one_line",
    "C33_many_lines",
    "C33_cases",
    "C33_rows",
    "C33_empty_input_refuted",
    "C33_line_start_refuted",
    "C33_display",
    "C33_display_many"
   ],
   "note": "Formatters are stateless functions of their argument; unicode-width is an arbitrary function. Records that the empty input panics (C33_empty_input_refuted) and that a start at the beginning of a line is shown at the end of the line before (C33_line_start_refuted)."
  },
  {
   "property": "C34",
   "status": "proved",
   "theorems": [
    "C34_point",
    "C34_display",
    "C34_cases",
    "C34_end_refuted"
   ],
   "note": "Same simplifications as C33. Records that nothing is shown at the end of the input (C34_end_refuted)."
  },
  {
   "property": "C35",
   "status": "proved",
   "theorems": [
    "C35_visible",
    "C35_no_control",
    "C35_identity"
   ],
   "note": ""
  },
  {
   "property": "C36",
   "status": "proved",
   "theorems": [
    "C36_readable",
    "C36_rule",
    "C36_parser"
   ],
   "note": "For the grammar after the inlining of silent rules with arguments (C40). The emitted items are read by Spec_Rust.v; grammars meet the conditions of Spec_Generator.v."
  },
  {
   "property": "C37",
   "status": "proved",
   "theorems": [
    "C37_sequence",
    "C37_choice",
    "C37_operands",
    "C37_variants",
    "C37_nodes"
   ],
   "note": ""
  },
  {
   "property": "C38",
   "status": "proved",
   "theorems": [
    "C38_cycle",
    "C38_sized",
    "C38_not_inside"
   ],
   "note": "Cycles of rules (C38_cycle) and the layout of the emitted structs (C38_sized, C38_not_inside), the latter for grammars that can be read as Rust (fine)."
  },
  {
   "property": "C39",
   "status": "proved",
   "theorems": [
    "C39_needed",
    "C39_all"
   ],
   "note": "Stated with the configuration flag box_rules_only_if_needed; the attribute that sets it is called box_all_rules."
  },
  {
   "property": "C40",
   "status": "proved",
   "theorems": [
    "C40_substitution",
    "C40_replaced",
    "C40_precedence",
    "C40_removed",
    "C40_inlined",
    "C40_parser",
    "C40_none",
    "C40_ends",
    "C40_two_arguments_refuted",
    "C40_capture_refuted",
    "C40_caller_parameter_refuted",
    "C40_imported_refuted",
    "C40_unused_parameter_refuted",
    "C40_nested_call_refuted",
    "C40_recursive_refuted"
   ],
   "note": "False in general: seven _refuted theorems give grammars for which inlining changes the meaning, leaves a call over so that the generator panics, or never ends. The conditions under which it holds are the record tidy in Spec_Inline.v; termination needs an order on the silent rules."
  },
  {
   "property": "C41",
   "status": "proved",
   "theorems": [
    "C41_strings"
   ],
   "note": ""
  },
  {
   "property": "C42",
   "status": "proved",
   "theorems": [
    "C42_available",
    "C42_only",
    "C42_arities"
   ],
   "note": "The arities of the types that core defines (2 to 16) are part of the specification of Rust paths in Spec_Rust.v."
  },
  {
   "property": "C43",
   "status": "proved",
   "theorems": [
    "C43_resolves",
    "C43_unique",
    "C43_renamed_builtin_refuted"
   ],
   "note": "A built-in rule imported under another name is resolved to a type that does not exist (C43_renamed_builtin_refuted)."
  },
  {
   "property": "C44",
   "status": "proved",
   "theorems": [
    "C44_values",
    "C44_names",
    "C44_typed",
    "C44_accessor",
    "C44_shape"
   ],
   "note": "For every generated struct of a non-trivia rule of the grammar or of an imported one: one accessor per mentioned name and no other, each body has its declared type whatever stands for the parameters, and for every parse result it returns references to exactly the parts that belong to references with that name, left to right. The layers of the declared type are those that the expression asks for: an option for what may be missing (never an option in an option), a vector for a repetition, a tuple for two or more operands that mention the name. A reference to a Unicode property counts under the property's lower-case name; what is inside the arguments of push or of a rule call belongs to these, so it has no accessor."
  },
  {
   "property": "C45",
   "status": "proved",
   "theorems": [
    "C45_escaped_form",
    "C45_every_form",
    "C45_every_scalar"
   ],
   "note": ""
  },
  {
   "property": "C46",
   "status": "proved",
   "theorems": [
    "C46_exact",
    "C46_rejects",
    "C46_literal",
    "C46_plus_refuted"
   ],
   "note": "The documented claim is false of texts outside the grammar of literals (C46_plus_refuted)."
  },
  {
   "property": "C47",
   "status": "proved",
   "theorems": [
    "C47_exact",
    "C47_error",
    "C47_panic",
    "C47_every_literal_refuted"
   ],
   "note": "Panics on a bare double quote (C47_panic, C47_every_literal_refuted)."
  },
  {
   "property": "C48",
   "status": "proved",
   "theorems": [
    "C48_exact",
    "C48_unique",
    "C48_error",
    "C48_total"
   ],
   "note": ""
  },
  {
   "property": "C49",
   "status": "proved",
   "theorems": [
    "C49_exact",
    "C49_error"
   ],
   "note": ""
  },
  {
   "property": "C50",
   "status": "proved",
   "theorems": [
    "C50_exact",
    "C50_imported_refuted"
   ],
   "note": "The file system, the pest2 parser and the texts of paths are arbitrary functions; the parsed pairs are assumed to follow grammar.pest, without a bare double quote character literal or raw strings with number signs (see C47, C59). Paths are lists of components (Unix). C50_imported_refuted shows that modules inside a loaded grammar may lack dependencies."
  },
  {
   "property": "C51",
   "status": "proved",
   "theorems": [
    "C51_exact",
    "C51_acyclic",
    "C51_every_graph_refuted"
   ],
   "note": "The file system, the pest2 parser and the texts of paths are arbitrary functions; the parsed pairs are assumed to follow grammar.pest, without a bare double quote character literal or raw strings with number signs (see C47, C59). Paths are lists of components (Unix). C51_every_graph_refuted shows that the unrestricted claim is false."
  },
  {
   "property": "C52",
   "status": "proved",
   "theorems": [
    "C52_grammar",
    "C52_grammar_finite",
    "C52_grammar_left_recursive",
    "C52_terminates",
    "C52_entry_points",
    "C52_finite",
    "C52_linear",
    "C52_left_recursive",
    "C52_rounds",
    "C52_empty_body"
   ],
   "note": "Steps are nested calls and turns of loops. Left recursion is defined on the expressions of the program, with what can match the empty text given by the PEG meaning. Repetitions of empty matches end, but only after usize::MAX rounds (C52_empty_body); so the depth bound of C52_linear asks for consuming or bounded repetitions."
  },
  {
   "property": "C53",
   "status": "proved",
   "theorems": [
    "C53_position_eq",
    "C53_position_cmp",
    "C53_position_cmp_other",
    "C53_span_eq",
    "C53_other_address",
    "C53_span_other_address",
    "C53_position_span",
    "C53_order_consistent_with_equality_refuted"
   ],
   "note": "Also records that the order and equality disagree on equal texts at different addresses."
  },
  {
   "property": "C54",
   "status": "proved",
   "theorems": [
    "C54_shape",
    "C54_identity",
    "C54_compose",
    "C54_display"
   ],
   "note": ""
  },
  {
   "property": "C55",
   "status": "proved",
   "theorems": [
    "C55_anchors"
   ],
   "note": ""
  },
  {
   "property": "C56",
   "status": "proved",
   "theorems": [
    "C56_sequence"
   ],
   "note": ""
  },
  {
   "property": "C57",
   "status": "proved",
   "theorems": [
    "C57_code_points_refuted",
    "C57_byte_offsets",
    "C57_ascii_offsets"
   ],
   "note": "The documented unit is false of the code (C57_code_points_refuted)."
  },
  {
   "property": "C58",
   "status": "proved",
   "theorems": [
    "C58_choice_getters"
   ],
   "note": ""
  },
  {
   "property": "C59",
   "status": "proved",
   "theorems": [
    "C59_plain",
    "C59_pounds",
    "C59_every_raw_string_refuted"
   ],
   "note": "Raw strings with number signs are misread (C59_every_raw_string_refuted)."
  },
  {
   "property": "C60",
   "status": "proved",
   "theorems": [
    "C60_exact",
    "C60_error",
    "C60_total",
    "C60_rule_doc",
    "C60_grammar_doc"
   ],
   "note": ""
  },
  {
   "property": "C61",
   "status": "proved",
   "theorems": [
    "C61_loaded",
    "C61_error",
    "C61_panic",
    "C61_unique",
    "C61_import",
    "C61_import_total"
   ],
   "note": "The file system, the pest2 parser and the texts of paths are arbitrary functions; the parsed pairs are assumed to follow grammar.pest, without a bare double quote character literal or raw strings with number signs (see C47, C59). Paths are lists of components (Unix)."
  },
  {
   "property": "C62",
   "status": "proved",
   "theorems": [
    "C62_merge"
   ],
   "note": ""
  },
  {
   "property": "C63",
   "status": "proved",
   "theorems": [
    "C63_accepts"
   ],
   "note": ""
  },
  {
   "property": "C64",
   "status": "proved",
   "theorems": [
    "C64_enum",
    "C64_rule_value",
    "C64_conversion",
    "C64_distinct",
    "C64_eoi_refuted",
    "C64_trivia",
    "C64_types_mod",
    "C64_rules_mod_refuted"
   ],
   "note": "C64_eoi_refuted and C64_rules_mod_refuted show that the code emitted for a rule called EOI, and for a configured module name with an imported file, is not valid Rust."
  },
  {
   "property": "C65",
   "status": "proved",
   "theorems": [
    "C65_terminates",
    "C65_syntax"
   ],
   "note": "pest2 is external: its meaning of grammar.pest is modelled (Model_Pest2.v), without its error reports; see the trusted base in DESIGN.md. The rule inner_raw_str on its own panics, as it looks at an empty stack; it is never used on its own."
  },
  {
   "property": "C66",
   "status": "proved",
   "theorems": [
    "C66_placed",
    "C66_every_rule"
   ],
   "note": "pest2 is external: its meaning of grammar.pest is modelled (Model_Pest2.v), without its error reports; see the trusted base in DESIGN.md."
  },
  {
   "property": "C67",
   "status": "proved",
   "theorems": [
    "C67_tokens"
   ],
   "note": "pest2 is external: its meaning of grammar.pest is modelled (Model_Pest2.v), without its error reports; see the trusted base in DESIGN.md."
  },
  {
   "property": "C68",
   "status": "proved",
   "theorems": [
    "C68_readable",
    "C68_loaded",
    "C68_arguments_refuted",
    "C68_arguments"
   ],
   "note": "pest2 is external: its meaning of grammar.pest is modelled (Model_Pest2.v), without its error reports; see the trusted base in DESIGN.md. The file system and the texts of paths are arbitrary functions. The restrictions are needed: C47, C59 and C68_arguments_refuted."
  },
  {
   "property": "C69",
   "status": "proved",
   "theorems": [
    "C69_append_refuted",
    "C69_choice_refuted",
    "C69_name_refuted"
   ],
   "note": "pest2 is external: its meaning of grammar.pest is modelled (Model_Pest2.v), without its error reports; see the trusted base in DESIGN.md. Each theorem refutes that accepted parts make an accepted whole, by example."
  },
  {
   "property": "C70",
   "status": "proved",
   "theorems": [
    "C70_parsed",
    "C70_unambiguous",
    "C70_loaded"
   ],
   "note": "pest2 is external: its meaning of grammar.pest is modelled (Model_Pest2.v), without its error reports; see the trusted base in DESIGN.md. The notation is defined in Spec_Written.v without reference to the matcher; it leaves out the forms that C47, C59 and C69 show not to be read as documented."
  },
  {
   "property": "C71",
   "status": "proved",
   "theorems": [
    "C71_reads_back",
    "C71_distinct",
    "C71_doc",
    "C71_other_forms_refuted",
    "C71_same_display_refuted"
   ],
   "note": "Which characters the standard library's Debug leaves unescaped is an arbitrary function. The claim for all expressions is refuted by the two _refuted theorems."
  },
  {
   "property": "C72",
   "status": "proved",
   "theorems": [
    "C72_exact",
    "C72_panic",
    "C72_others",
    "C72_boxed",
    "C72_box_all_refuted",
    "C72_declared_refuted"
   ],
   "note": "Which strings are Rust identifiers is an arbitrary function. That flags do what their names say is refuted by C72_box_all_refuted and C72_declared_refuted."
  },
  {
   "property": "C73",
   "status": "proved",
   "theorems": [
    "C73_sources",
    "C73_missing",
    "C73_directory",
    "C73_beside",
    "C73_inline",
    "C73_expanded",
    "C73_accepted",
    "C73_rejected",
    "C73_other_names_refuted"
   ],
   "note": "The file system, the environment and pest2's parser are arbitrary functions; files are in the syntax of C61. The name of a grammar file must end in .pest (C73_other_names_refuted)."
  },
  {
   "property": "C74",
   "status": "proved",
   "theorems": [
    "C74_same",
    "C74_layout",
    "C74_parser"
   ],
   "note": "Composition of C40, C70 and C73 with the proof that nothing generated depends on spans. Doc comments are not part of the modelled items."
  },
  {
   "property": "C75",
   "status": "proved",
   "theorems": [
    "C75_rejected",
    "C75_exact",
    "C75_simple",
    "C75_expands"
   ],
   "note": "The grammars that are rejected although all their names are known are those of C40_unused_parameter_refuted and C40_nested_call_refuted; C75 says that there are no others of another kind."
  },
  {
   "property": "C76",
   "status": "proved",
   "theorems": [
    "C76_spelled",
    "C76_spelled_part",
    "C76_text",
    "C76_part",
    "C76_any_stack",
    "C76_grammar",
    "C76_grammar_any_stack",
    "C76_trivia_refuted",
    "C76_slice_refuted"
   ],
   "note": "That trees determine texts without the condition on trivia, or slices without the condition on the stack, is refuted (C76_trivia_refuted, C76_slice_refuted)."
  },
  {
   "property": "C77",
   "status": "proved",
   "theorems": [
    "C77_report",
    "C77_panics",
    "C77_balanced",
    "C77_offsets",
    "C77_special",
    "C77_addresses_refuted"
   ],
   "note": "That the report depends on offsets and texts only, not on where texts are stored, is refuted (C77_addresses_refuted)."
  },
  {
   "property": "C78",
   "status": "proved",
   "theorems": [
    "C78_prefix",
    "C78_full",
    "C78_pairs",
    "C78_copies",
    "C78_copies_prefix",
    "C78_grammar",
    "C78_soi_refuted"
   ],
   "note": "With soi the place matters: C78_soi_refuted."
  },
  {
   "property": "C79",
   "status": "proved",
   "theorems": [
    "C79_equal",
    "C79_equivalence",
    "C79_same_input",
    "C79_place",
    "C79_copies",
    "C79_rule_copies",
    "C79_copies_refuted",
    "C79_hash",
    "C79_hash_differs",
    "C79_hash_follows",
    "C79_hash_exists",
    "C79_position"
   ],
   "note": "That equal texts have equal trees is false: C79_copies_refuted."
  },
  {
   "property": "C80",
   "status": "proved",
   "theorems": [
    "C80_build",
    "C80_states",
    "C80_runs",
    "C80_no_panic",
    "C80_ends",
    "C80_forever",
    "C80_grammar",
    "C80_grammar_ends",
    "C80_choice_refuted",
    "C80_repetition_refuted",
    "C80_wide",
    "C80_range_refuted"
   ],
   "note": "Without these conditions it is not a parser of the expression: C80_choice_refuted, C80_repetition_refuted. Ranges with an end that is not ASCII take no character at all: C80_wide, C80_range_refuted."
  },
  {
   "property": "C81",
   "status": "proved",
   "theorems": [
    "C81_meaning",
    "C81_parser",
    "C81_accepts",
    "C81_order",
    "C81_added",
    "C81_trivia_refuted"
   ],
   "note": "Only what is matched is compared, not the trees (the structs of the programs are different types). A second rule for the same trivia changes the other rules: C81_trivia_refuted."
  },
  {
   "property": "C82",
   "status": "proved",
   "theorems": [
    "C82_one_result",
    "C82_law",
    "C82_factor",
    "C82_inside",
    "C82_grammar",
    "C82_parser",
    "C82_accepts",
    "C82_swap_refuted",
    "C82_distribute_refuted",
    "C82_repeated_refuted"
   ],
   "note": "C82_swap_refuted, C82_distribute_refuted and C82_repeated_refuted are what does not hold. The trees may differ, only what is matched is the same."
  },
  {
   "property": "C83",
   "status": "proved",
   "theorems": [
    "C83_tokens",
    "C83_names",
    "C83_operators_refuted"
   ],
   "note": "C83_operators_refuted gives the three rules for which it does not hold."
  },
  {
   "property": "C84",
   "status": "proved",
   "theorems": [
    "C84_rejected",
    "C84_package"
   ],
   "note": ""
  },
  {
   "property": "C85",
   "status": "proved",
   "theorems": [
    "C85_pairs",
    "C85_exists",
    "C85_unique",
    "C85_tree",
    "C85_each",
    "C85_typed",
    "C85_inlined",
    "C85_inlined_tree",
    "C85_silent_call_refuted"
   ],
   "note": "C85_inlined, C85_inlined_tree: with silent rules that have parameters. C85_silent_call_refuted: these do not hide what is inside. A rule is told apart by its grammar's contents and itself, so the same file imported under two names is not told apart in the trees of the specification."
  },
  {
   "property": "C86",
   "status": "proved",
   "theorems": [
    "C86_report",
    "C86_full",
    "C86_exists",
    "C86_unique",
    "C86_rejects",
    "C86_typed",
    "C86_inlined",
    "C86_inlined_rejects"
   ],
   "note": "C86_inlined, C86_inlined_rejects: with silent rules that have parameters. A rule is told apart by its grammar's contents and itself, so the same file imported under two names is not told apart in the attempts of the specification."
  },
  {
   "property": "C87",
   "status": "proved",
   "theorems": [
    "C87_package"
   ],
   "note": "For grammars that are complete, fine and tidy (DESIGN.md): names resolve and do not clash, and silent rules with parameters can be inlined. That a text that the grammar neither matches nor rejects (left recursion) makes the parser go on forever is C52."
  },
  {
   "property": "C88",
   "status": "proved",
   "theorems": [
    "C88_law",
    "C88_law_any",
    "C88_grammar",
    "C88_pairs",
    "C88_report_refuted"
   ],
   "note": "C88_report_refuted: the same laws do not keep the reports of errors. C88_grammar is from left to right; the laws and the relations are symmetric, so it holds in both directions."
  },
  {
   "property": "C89",
   "status": "proved",
   "theorems": [
    "C89_returns",
    "C89_left_recursive",
    "C89_package",
    "C89_package_left_recursive"
   ],
   "note": "The parser that does not return is a stack overflow in the running program: the model has no limit on the depth of calls."
  },
  {
   "property": "C90",
   "status": "proved",
   "theorems": [
    "C90_trees",
    "C90_tries",
    "C90_parse",
    "C90_returns",
    "C90_order",
    "C90_added"
   ],
   "note": "The order of the entries of a report may differ: they are kept in a map that is ordered by the numbers of the rules, which depend on the order of the rules in the grammar."
  },
  {
   "property": "C91",
   "status": "proved",
   "theorems": [
    "C91_distinct",
    "C91_exponential",
    "C91_polynomial_refuted"
   ],
   "note": "Attempts are those that the error tracking sees: calls of rules in which no other rule is tried. All calls of parsers are at least as many; the second part is a refutation of the expectation that parsing takes polynomial time."
  },
  {
   "property": "C92",
   "status": "proved",
   "theorems": [
    "C92_same",
    "C92_first",
    "C92_no_panic",
    "C92_empty_refuted"
   ],
   "note": "The crate memchr is represented by the documented results of memmem::find, memchr2_iter and memchr3_iter. No manifest in the workspace declares the feature, so that this variant is not compiled today."
  },
  {
   "property": "C93",
   "status": "proved",
   "theorems": [
    "C93_meaning",
    "C93_parser",
    "C93_accepts",
    "C93_exchange"
   ],
   "note": "The renamed grammar has to be accepted by the generator too; C63 and C84 say when a name is not. Names in other files are not renamed along with the file."
  },
  {
   "property": "C94",
   "status": "proved",
   "theorems": [
    "C94_trees",
    "C94_tries",
    "C94_parse",
    "C94_returns"
   ],
   "note": "The comparison of reports is that of C90: each entry of one report is matched by an entry of the other. The renamed grammar has to be accepted by the generator too."
  },
  {
   "property": "C95",
   "status": "proved",
   "theorems": [
    "C95_law",
    "C95_tries",
    "C95_parse"
   ],
   "note": "Of the laws of C82, a | a = a, &a a = a and common prefixes are left out, since they try a rule more than once, and the two that replace a wanted match by an unwanted one, since they change reports (C88_report_refuted)."
  }
 ]
}