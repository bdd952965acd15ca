{
 "C02": {
  "status": "proved",
  "note": ""
 },
 "C03": {
  "status": "proved",
  "note": ""
 },
 "C04": {
  "status": "proved",
  "note": "The tables of Unicode properties are an arbitrary predicate."
 },
 "C06": {
  "status": "proved",
  "note": ""
 },
 "C07": {
  "status": "proved",
  "note": "The compiled variant (no memchr feature)."
 },
 "C08": {
  "status": "proved",
  "note": ""
 },
 "C09": {
  "status": "proved",
  "note": ""
 },
 "C10": {
  "status": "proved",
  "note": ""
 },
 "C11": {
  "status": "proved",
  "note": ""
 },
 "C12": {
  "status": "proved",
  "note": "The documented claim (only covered lines) is false of the code (C12_lines_only_covered_refuted)."
 },
 "C13": {
  "status": "proved",
  "note": ""
 },
 "C53": {
  "status": "proved",
  "note": "Also records that the order and equality disagree on equal texts at different addresses."
 },
 "C01": {
  "status": "proved",
  "note": ""
 },
 "C05": {
  "status": "proved",
  "note": ""
 },
 "C14": {
  "status": "proved",
  "note": ""
 },
 "C15": {
  "status": "proved",
  "note": ""
 },
 "C16": {
  "status": "proved",
  "note": ""
 },
 "C17": {
  "status": "proved",
  "note": ""
 },
 "C18": {
  "status": "proved",
  "note": "Also records that a minimum above the maximum accepts fewer than the minimum (C18_min_above_max_refuted)."
 },
 "C19": {
  "status": "proved",
  "note": ""
 },
 "C20": {
  "status": "proved",
  "note": ""
 },
 "C21": {
  "status": "proved",
  "note": "pest2's stack is external and modelled by its documented contract."
 },
 "C22": {
  "status": "proved",
  "note": ""
 },
 "C24": {
  "status": "proved",
  "note": "The simpler claim that end-of-input is always listed is false (C24_eoi_always_listed_refuted)."
 },
 "C25": {
  "status": "proved",
  "note": "Nodes kept by a positive predicate reach beyond the span (C25_predicate_nodes_refuted)."
 },
 "C26": {
  "status": "proved",
  "note": ""
 },
 "C27": {
  "status": "proved",
  "note": ""
 },
 "C29": {
  "status": "proved",
  "note": ""
 },
 "C30": {
  "status": "proved",
  "note": "Also records that a failed parse need not name any rule (C30_failure_names_a_rule_refuted)."
 },
 "C31": {
  "status": "proved",
  "note": ""
 },
 "C54": {
  "status": "proved",
  "note": ""
 },
 "C55": {
  "status": "proved",
  "note": ""
 },
 "C56": {
  "status": "proved",
  "note": ""
 },
 "C58": {
  "status": "proved",
  "note": ""
 },
 "C23": {
  "status": "proved",
  "note": "Elements are matched bottom to top; the documented top-to-bottom order is false of the code (C23_top_to_bottom_refuted)."
 },
 "C28": {
  "status": "proved",
  "note": "The documented agreement is false of the code for push of a non-silent rule (C28_agree_refuted)."
 },
 "C57": {
  "status": "proved",
  "note": "The documented unit is false of the code (C57_code_points_refuted)."
 },
 "C32": {
  "status": "proved",
  "note": "Rule names are printed by an arbitrary function; wrapping into the external error type of the pest 2 crate is not modelled beyond its position and message."
 },
 "C33": {
  "status": "proved",
  "note": "Formatters are stateless functions of their argument; unicode-width is an arbitrary function. Records that the empty input panics (C33_empty_input_refuted) and that a start at the beginning of a line is shown at the end of the line before (C33_line_start_refuted)."
 },
 "C34": {
  "status": "proved",
  "note": "Same simplifications as C33. Records that nothing is shown at the end of the input (C34_end_refuted)."
 },
 "C35": {
  "status": "proved",
  "note": ""
 },
 "C45": {
  "status": "proved",
  "note": ""
 },
 "C46": {
  "status": "proved",
  "note": "The documented claim is false of texts outside the grammar of literals (C46_plus_refuted)."
 },
 "C47": {
  "status": "proved",
  "note": "Panics on a bare double quote (C47_panic, C47_every_literal_refuted)."
 },
 "C48": {
  "status": "proved",
  "note": ""
 },
 "C49": {
  "status": "proved",
  "note": ""
 },
 "C59": {
  "status": "proved",
  "note": "Raw strings with number signs are misread (C59_every_raw_string_refuted)."
 },
 "C60": {
  "status": "proved",
  "note": ""
 },
 "C50": {
  "status": "proved",
  "note": "The file system, the pest2 parser and the texts of paths are arbitrary functions; the parsed pairs are assumed to follow grammar.pest, without a bare double quote character literal or raw strings with number signs (see C47, C59). Paths are lists of components (Unix). C50_imported_refuted shows that modules inside a loaded grammar may lack dependencies."
 },
 "C51": {
  "status": "proved",
  "note": "The file system, the pest2 parser and the texts of paths are arbitrary functions; the parsed pairs are assumed to follow grammar.pest, without a bare double quote character literal or raw strings with number signs (see C47, C59). Paths are lists of components (Unix). C51_every_graph_refuted shows that the unrestricted claim is false."
 },
 "C61": {
  "status": "proved",
  "note": "The file system, the pest2 parser and the texts of paths are arbitrary functions; the parsed pairs are assumed to follow grammar.pest, without a bare double quote character literal or raw strings with number signs (see C47, C59). Paths are lists of components (Unix)."
 },
 "C62": {
  "status": "proved",
  "note": ""
 },
 "C37": {
  "status": "proved",
  "note": ""
 },
 "C38": {
  "status": "proved",
  "note": "Cycles of rules (C38_cycle) and the layout of the emitted structs (C38_sized, C38_not_inside), the latter for grammars that can be read as Rust (fine)."
 },
 "C39": {
  "status": "proved",
  "note": "Stated with the configuration flag box_rules_only_if_needed; the attribute that sets it is called box_all_rules."
 },
 "C41": {
  "status": "proved",
  "note": ""
 },
 "C42": {
  "status": "proved",
  "note": "The arities of the types that core defines (2 to 16) are part of the specification of Rust paths in Spec_Rust.v."
 },
 "C43": {
  "status": "proved",
  "note": "A built-in rule imported under another name is resolved to a type that does not exist (C43_renamed_builtin_refuted)."
 },
 "C63": {
  "status": "proved",
  "note": ""
 },
 "C36": {
  "status": "proved",
  "note": "For the grammar after the inlining of silent rules with arguments (C40). The emitted items are read by Spec_Rust.v; grammars meet the conditions of Spec_Generator.v."
 },
 "C40": {
  "status": "proved",
  "note": "False in general: seven _refuted theorems give grammars for which inlining changes the meaning, leaves a call over so that the generator panics, or never ends. The conditions under which it holds are the record tidy in Spec_Inline.v; termination needs an order on the silent rules."
 },
 "C64": {
  "status": "proved",
  "note": "C64_eoi_refuted and C64_rules_mod_refuted show that the code emitted for a rule called EOI, and for a configured module name with an imported file, is not valid Rust."
 },
 "C44": {
  "status": "proved",
  "note": "For every generated struct of a non-trivia rule of the grammar or of an imported one: one accessor per mentioned name and no other, each body has its declared type whatever stands for the parameters, and for every parse result it returns references to exactly the parts that belong to references with that name, left to right. The layers of the declared type are those that the expression asks for: an option for what may be missing (never an option in an option), a vector for a repetition, a tuple for two or more operands that mention the name. A reference to a Unicode property counts under the property's lower-case name; what is inside the arguments of push or of a rule call belongs to these, so it has no accessor."
 },
 "C52": {
  "status": "proved",
  "note": "Steps are nested calls and turns of loops. Left recursion is defined on the expressions of the program, with what can match the empty text given by the PEG meaning. Repetitions of empty matches end, but only after usize::MAX rounds (C52_empty_body); so the depth bound of C52_linear asks for consuming or bounded repetitions."
 },
 "C65": {
  "status": "proved",
  "note": "pest2 is external: its meaning of grammar.pest is modelled (Model_Pest2.v), without its error reports; see the trusted base in DESIGN.md. The rule inner_raw_str on its own panics, as it looks at an empty stack; it is never used on its own."
 },
 "C66": {
  "status": "proved",
  "note": "pest2 is external: its meaning of grammar.pest is modelled (Model_Pest2.v), without its error reports; see the trusted base in DESIGN.md."
 },
 "C67": {
  "status": "proved",
  "note": "pest2 is external: its meaning of grammar.pest is modelled (Model_Pest2.v), without its error reports; see the trusted base in DESIGN.md."
 },
 "C68": {
  "status": "proved",
  "note": "pest2 is external: its meaning of grammar.pest is modelled (Model_Pest2.v), without its error reports; see the trusted base in DESIGN.md. The file system and the texts of paths are arbitrary functions. The restrictions are needed: C47, C59 and C68_arguments_refuted."
 },
 "C69": {
  "status": "proved",
  "note": "pest2 is external: its meaning of grammar.pest is modelled (Model_Pest2.v), without its error reports; see the trusted base in DESIGN.md. Each theorem refutes that accepted parts make an accepted whole, by example."
 },
 "C70": {
  "status": "proved",
  "note": "pest2 is external: its meaning of grammar.pest is modelled (Model_Pest2.v), without its error reports; see the trusted base in DESIGN.md. The notation is defined in Spec_Written.v without reference to the matcher; it leaves out the forms that C47, C59 and C69 show not to be read as documented."
 },
 "C71": {
  "status": "proved",
  "note": "Which characters the standard library's Debug leaves unescaped is an arbitrary function. The claim for all expressions is refuted by the two _refuted theorems."
 },
 "C72": {
  "status": "proved",
  "note": "Which strings are Rust identifiers is an arbitrary function. That flags do what their names say is refuted by C72_box_all_refuted and C72_declared_refuted."
 },
 "C73": {
  "status": "proved",
  "note": "The file system, the environment and pest2's parser are arbitrary functions; files are in the syntax of C61. The name of a grammar file must end in .pest (C73_other_names_refuted)."
 },
 "C74": {
  "status": "proved",
  "note": "Composition of C40, C70 and C73 with the proof that nothing generated depends on spans. Doc comments are not part of the modelled items."
 },
 "C75": {
  "status": "proved",
  "note": "The grammars that are rejected although all their names are known are those of C40_unused_parameter_refuted and C40_nested_call_refuted; C75 says that there are no others of another kind."
 },
 "C76": {
  "status": "proved",
  "note": "That trees determine texts without the condition on trivia, or slices without the condition on the stack, is refuted (C76_trivia_refuted, C76_slice_refuted)."
 },
 "C77": {
  "status": "proved",
  "note": "That the report depends on offsets and texts only, not on where texts are stored, is refuted (C77_addresses_refuted)."
 },
 "C78": {
  "status": "proved",
  "note": "With soi the place matters: C78_soi_refuted."
 },
 "C79": {
  "status": "proved",
  "note": "That equal texts have equal trees is false: C79_copies_refuted."
 },
 "C80": {
  "status": "proved",
  "note": "Without these conditions it is not a parser of the expression: C80_choice_refuted, C80_repetition_refuted. Ranges with an end that is not ASCII take no character at all: C80_wide, C80_range_refuted."
 },
 "C81": {
  "status": "proved",
  "note": "Only what is matched is compared, not the trees (the structs of the programs are different types). A second rule for the same trivia changes the other rules: C81_trivia_refuted."
 },
 "C82": {
  "status": "proved",
  "note": "C82_swap_refuted, C82_distribute_refuted and C82_repeated_refuted are what does not hold. The trees may differ, only what is matched is the same."
 },
 "C83": {
  "status": "proved",
  "note": "C83_operators_refuted gives the three rules for which it does not hold."
 },
 "C84": {
  "status": "proved",
  "note": ""
 },
 "C85": {
  "status": "proved",
  "note": "C85_inlined, C85_inlined_tree: with silent rules that have parameters. C85_silent_call_refuted: these do not hide what is inside. A rule is told apart by its grammar's contents and itself, so the same file imported under two names is not told apart in the trees of the specification."
 },
 "C86": {
  "status": "proved",
  "note": "C86_inlined, C86_inlined_rejects: with silent rules that have parameters. A rule is told apart by its grammar's contents and itself, so the same file imported under two names is not told apart in the attempts of the specification."
 },
 "C87": {
  "status": "proved",
  "note": "For grammars that are complete, fine and tidy (DESIGN.md): names resolve and do not clash, and silent rules with parameters can be inlined. That a text that the grammar neither matches nor rejects (left recursion) makes the parser go on forever is C52."
 },
 "C88": {
  "status": "proved",
  "note": "C88_report_refuted: the same laws do not keep the reports of errors. C88_grammar is from left to right; the laws and the relations are symmetric, so it holds in both directions."
 },
 "C89": {
  "status": "proved",
  "note": "The parser that does not return is a stack overflow in the running program: the model has no limit on the depth of calls."
 },
 "C90": {
  "status": "proved",
  "note": "The order of the entries of a report may differ: they are kept in a map that is ordered by the numbers of the rules, which depend on the order of the rules in the grammar."
 },
 "C91": {
  "status": "proved",
  "note": "Attempts are those that the error tracking sees: calls of rules in which no other rule is tried. All calls of parsers are at least as many; the second part is a refutation of the expectation that parsing takes polynomial time."
 },
 "C92": {
  "status": "proved",
  "note": "The crate memchr is represented by the documented results of memmem::find, memchr2_iter and memchr3_iter. No manifest in the workspace declares the feature, so that this variant is not compiled today."
 },
 "C93": {
  "status": "proved",
  "note": "The renamed grammar has to be accepted by the generator too; C63 and C84 say when a name is not. Names in other files are not renamed along with the file."
 },
 "C94": {
  "status": "proved",
  "note": "The comparison of reports is that of C90: each entry of one report is matched by an entry of the other. The renamed grammar has to be accepted by the generator too."
 },
 "C95": {
  "status": "proved",
  "note": "Of the laws of C82, a | a = a, &a a = a and common prefixes are left out, since they try a rule more than once, and the two that replace a wanted match by an unwanted one, since they change reports (C88_report_refuted)."
 }
}