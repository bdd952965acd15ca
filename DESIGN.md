# Formal model of pest3

Source: `/repo` (pest-parser/pest3, pinned). Prover: Coq 8.16.1.

## Layout of `rocq/theories`

* `Model_*.v`  executable model, function by function, each definition citing the source lines.
* `Spec_*.v`   small independent specifications (no model helper is used except data types).
* `Proof_*.v`  lemmas.
* `Thm_*.v`    the property theorems, each closed by `exact`, with `Print Assumptions` and a
  concrete example that meets the hypotheses.
* `Example_*.v` data for the examples (not part of the model).

## Conventions

* A Rust `&str` is a list of Unicode scalar values (`list N`); byte offsets and byte comparison go
  through the UTF-8 encoding of that list. A `Position` is a byte offset into a fixed text.
* `&mut` parameters become returned values. Panics (slicing outside a boundary, `unwrap`,
  `unreachable!`) are an explicit outcome. Unbounded loops and recursion take fuel with a distinct
  out-of-fuel outcome; theorems are about all fuels or about the existence of fuel.
* Machine integers are unbounded except where the property is about the limit. Texts are shorter
  than `isize::MAX` in Rust, so sums of offsets cannot wrap.
* External code is either an arbitrary function argument (Unicode property tables, `Debug` of
  rules, `unicode_width`) or modelled by its documented contract (`pest2::Stack`, Pratt parser).

## Plan per property

* **C01** Parser positions stay on character boundaries and never panic. Interpreter model of every template node over (text, byte offset, stack, tracker) with an explicit `Panic` outcome for every slice/index/unwrap. Invariant proof by induction on fuel: from a boundary, never `Panic`, result on a boundary between start and end.
* **C02** Literal terminals match exactly the literal text. `match_string` modelled on encoded bytes; proved equivalent to `is_prefix` on characters via the prefix property of UTF-8.
* **C03** Case-insensitive terminals match exactly up to ASCII case. `match_insensitive` modelled with `str::get(0..len)` and bytewise ASCII folding; spec is pointwise equality of characters after folding A-Z.
* **C04** Character classes consume exactly one matching character. `match_range`, `match_char_by`, `next_char`; spec on the head of the remaining character list. Unicode tables are an arbitrary predicate (oracle).
* **C05** newline recognises CRLF, LF and CR with CRLF first. Direct model; spec by the first two remaining characters.
* **C06** Skipping a fixed number of characters is all-or-nothing. `skip`/`skip_back` over character lists; spec: exists prefix of exactly n characters.
* **C07** Skip-until stops at the earliest occurrence. `skip_until_basic` loop over byte offsets; spec: least boundary offset < len at which some string is a prefix. The `memchr` variant is behind a Cargo feature that no manifest declares, hence dead; it is modelled separately (C92), where the two are compared.
* **C08** Line and column are those of the text before the position. `line_col` loop; spec counts LF and characters after the last LF in the prefix text.
* **C09** The line of a position is the maximal LF-delimited segment around it. `find_line_start`/`find_line_end` over `char_indices`; spec: decomposition input = a ++ line ++ b with LF conditions.
* **C10** Spans are created exactly for valid ranges and denote the text between their ends. `Span::new` etc.; spec by character decomposition.
* **C11** Sub-spans denote the corresponding part of the span's text. `Span::get` with `Bound`s; spec by character decomposition of the span text. `usize` overflow of `offset + 1` is outside (offset = usize::MAX).
* **C12** Line iteration over a span. `LinesSpan::next` iterated. The full claim is false (a span ending right after LF also yields the next line): `_refuted`, and an exact characterisation of what is yielded.
* **C13** Merging spans. `merge_spans`; interval arithmetic.
* **C14** Checking and parsing agree. Two interpreters (`try_parse`, `check`) written separately as in the code; equality of position, stack, tracker by induction on fuel.
* **C15** Parsing implements PEG semantics with a stack (soundness). Independent big-step PEG relation on (text before, text after, stack of texts) in a Spec file; soundness by induction on fuel.
* **C16** Parsing implements PEG semantics with a stack (completeness and determinism). Completeness by induction on the derivation; fuel monotonicity; determinism of the relation.
* **C17** Ordered choice commits to the first alternative that matches. Theorem about `choice` nodes derived from the interpreter.
* **C18** Repetition counts, greediness and trivia placement. Loop invariants on `RepMinMax`; spec as an inductively defined chain of matches.
* **C19** Optional and zero-minimum repetition never fail. Model of `Option` and of `NeverFailedTypedNode`.
* **C20** Lookahead predicates consume nothing and leave the stack alone. Stack/position equality lemma for predicates.
* **C21** Backtracking restores the stack. `pest2::Stack` is external: modelled by its documented contract (stack plus list of saved copies) and recorded as trusted. Invariant: snapshots below are untouched by any expression.
* **C22** Stack expressions match the stack contents. Direct theorems on the stack nodes.
* **C23** Peek slices select the documented part of the stack. `constrain_idx(s)`/`stack_slice` on Z; spec by firstn/skipn. Documented order (top-to-bottom) expected false: `_refuted`.
* **C24** Full parsing is partial parsing plus end of input. Model of the four entry points.
* **C25** A rule node's span is exactly the consumed text. Well-formedness relation `node_spans` between value, start and end; induction on fuel.
* **C26** Pair trees are well nested and ordered. Pair trees computed from values; nesting by induction on well-formed values.
* **C27** Pairs contain exactly the non-silent rules matched outside predicates and silent rules. Independent specification of child pairs by a tree walk over the value tree.
* **C28** The list of child pairs agrees with the visitor of child pairs. Both trait methods modelled incl. the override in `push`; false for `push`: `_refuted`, with the exact relation for every node.
* **C29** The reported error position is the furthest tracked position. Tracker driven by a trace of events; position = max over events.
* **C30** Expected and unexpected rules are exactly those observed at the furthest position. Tracker state = function of the event list (filter at the furthest position, grouped).
* **C31** Error tracking is balanced. Invariant by induction on fuel.
* **C32** Turning a failure into an error message never panics and quotes the right text. `collect_to_message` modelled with string building; rule names through an arbitrary `Debug` oracle; `pest2::error::Error` external.
* **C33** Displaying a span never panics and shows the covered lines. `display_span` modelled as producing a token list (spans, markers, numbers, newlines), `unicode_width` an oracle. False on the empty input: `_refuted`; exact otherwise.
* **C34** Displaying a position shows its line. `display_position` likewise; false at end of input: `_refuted`; exact otherwise.
* **C35** Visualised text contains no control characters below the replacement range and keeps everything else. Direct model; per-character spec.
* **C36** Generated parsers implement the grammar expression. ParseExpr AST, `process_expr` into node types, PEG relation on ParseExpr as spec; compile-correctness proof.
* **C37** Flattening of sequences and choices preserves meaning. Part of C36, stated separately on n-ary vs nested.
* **C38** Boxing breaks every type cycle. `collect_reachability` on association lists; invariant: after k rounds the set holds everything reachable in k+1 steps through kept rules. `Spec_Layout.v` says which Rust values hold which others by value; a type has a size if that relation is well-founded below it. Proof by induction over the file tree and over the acyclic graph of unboxed rules.
* **C39** Unboxed rules are only boxed when necessary. Same model.
* **C40** Inlining a silent rule with arguments is substitution. `ParseExpr::replace` and the inliner (`Model_Inline.v`); false in general (`any` stops at the first changed argument, parameters are replaced one after the other, names are not resolved): seven `_refuted` theorems. Under `tidy` (`Spec_Inline.v`): sequential replacement is substitution, and a relation between expressions of the original and of the inlined grammar is kept by every PEG derivation.
* **C41** String constants are shared faithfully. Interning table; history induction.
* **C42** Sequence and choice types are available for every arity used. Set of arities; case analysis on 16.
* **C43** Name resolution is deterministic and checks arity. Module tree model; `names`/`takes` as spec.
* **C44** Accessors return exactly the matched sub-nodes of that name. `Spec_Getter.v`: values of the types, typing and evaluation of accessor bodies as in Rust, and, walking along the grammar, the parts that belong to a name. `Proof_Getter.v`: parsers return values of their type; induction over `process_expr`, with the read types, keeps that every getter tree is well typed and describes the parts. `Spec_Shape.v`: which layers of option, vector and tuple the declared type has, walking along the grammar; `Proof_Shape.v`: the same induction keeps that a getter tree is flattenable just when its type is an option, and that joining collects the shapes of the operands in order.
* **C45** Unescaping inverts escaping. `unescape` on character lists; define an escaper in Spec; round trip.
* **C46** Unescaping accepts exactly the documented escapes. Inductive grammar of escapes vs `unescape`; `from_str_radix` modelled (it accepts a leading `+`), expected mismatch outside grammar-produced text.
* **C47** Character ranges. `parse_char_range` on two literals: exact result, error and panic conditions; the claim for every literal is refuted by the bare double quote.
* **C48** Expressions. Pair trees (pest2's output) restricted by relations that follow grammar.pest (`syn_*`, `tame`), meaning as relations (`den_*`), faults as relations (`first_fault`). The Pratt parser (external `pest::pratt_parser`) is modelled by its documented algorithm. Both directions by induction on depth and on the meaning.
* **C49** Bounded repetition limits are validated. Exact condition and messages at the level of the postfix operator.
* **C50** Imports record every file they read. The file system and the pest2 parser are arbitrary functions (oracles), paths are lists of components, `_parse` is fuelled and logs the files it reads. False for modules inside a loaded grammar: `_refuted`.
* **C51** Loading imports terminates. Exactly if the grammar has a meaning (finite import tree); for finitely many acyclic files by well-founded induction; false on cyclic imports: `_refuted`.
* **C52** Parsing terminates exactly for grammars without left recursion. `Spec_Terminate` says which parts can be tried before anything is consumed; left recursion is an infinite descent along that relation. Termination by induction on the remaining text and the descent; in a finite program a descent must repeat a rule. The linear depth counts the expressions visited since the last character. Divergence by induction on the steps. The same for grammars (`Spec_Grammar_Terminate`: expressions with their module and arguments), carried over to the generated parsers by C36.
* **C53** Positions and spans compare consistently. Positions with an input identity.
* **C54** Converting pair rules keeps the tree. Rose trees.
* **C55** Anchors and trivial expressions. Direct theorem on the terminal nodes.
* **C56** Sequences. Inductive chain of matches (`yields_all`).
* **C57** Pair offsets. Expected false on non-ASCII text: `_refuted`.
* **C58** Choice getters. Value shape of a matched choice.
* **C59** Raw strings. Exact for any number of number signs; refuted as intended.
* **C60** Rule headers. `rule_syntax` relates a pair to the parts of the rule; `trimmed` specifies trimming.
* **C61** Imports refer to the right grammar. Meaning of files as a mutual inductive relation without cache, dependencies or fuel (`file_means`); loading agrees with it in both directions.
* **C62** Merging grammars. Direct.
* **C63** Which grammars the generator accepts. `complete` as spec; both directions by induction over fuel and over the file tree.
* **C64** `Rule` enums, conversions between them, layout of the emitted modules. `Spec_Rules.v`: values of the enums, what Rust accepts, `cvt_into`; induction over the import path.
* **C65** Parsing grammar files. `Model_Pest2.v`: the rules of grammar.pest as data, and a fuelled matcher with pest2's meaning of such rules. Enough fuel by a nesting bound computed per rule; no panic by tracking the depth of the stack; shapes by one induction over matches, given per rule what its matches look like (`good`).
* **C66** Places of pairs. The same induction with `lies`.
* **C67** Texts of tokens. `lexical` per rule, `everywhere` in the tree.
* **C68** Texts to grammars. C65 discharges the syntax hypotheses of C61 for `regular` pairs.
* **C69** Rejected combinations. By computation.
* **C70** Written grammars. `Spec_Written.v` defines which texts denote which trees, with blank space made explicit. The proof runs the matcher forward over such texts: first characters decide between alternatives (`Proof_First.v`), tokens are maximal (`Proof_Tokens.v`), then one mutual induction over expressions (`Proof_Written.v`, `2`), then rules, imports and files (`3`, `4`) and the loader (`5`). Uniqueness follows from the parser being a function.
* **C71** Display. `Model_Display.v`; by induction over how an expression is written (`w_expression`), its displayed form is written too, with the same tree; then C70.
* **C72** Attributes. Induction over the attributes from the left; what has been read so far is related to the attributes so far.
* **C73** Sources. `collect_data` against a relation of places; composition with C50, C61 and C62.
* **C74** From text to parsers. `bare` removes the places of a grammar; every function of the generator commutes with it, by induction over fuel, expressions and modules. Then composition of C40, C70, C72 and C73.
* **C75** Acceptance with silent rules. An invariant on all parts of an expression (names known and used as they should, trivia there) is kept by substitution and inlining; by induction over the fuel, a call is left in the result just when `keeps` holds of the expression; the result is complete iff none is left, then C63.
* **C76** Trees and texts. Induction over the big-step relation gives a relation between trees and texts that mentions no positions; a simultaneous induction over two runs with equal stacks gives equal texts and equal stacks. For grammars: every node reachable from a rule without passing predicates or trivia is compiled from a quiet expression in a quiet scope (mutual induction over the compilation relation of C36).
* **C77** Trackers in any program. Programs are trees of calls; induction over them shows that the tracker with positions either panics, at the first event of another text, or follows the tracker with offsets of C30.
* **C78** The same text in another place. Induction over runs (the relation that parsers are sound and complete for) with the two texts, stacks and chains of rules side by side; trackers follow because they only compare offsets. For grammars, no node made from an expression without pest::soi contains the node for it.
* **C79** Equality and hashes of trees. Induction over values; a value is rebuilt from its shape and the list of its spans; spans of yielded trees lie in the input (induction over runs); copies by C78. Calls of the hasher are a prefix code for each type: induction over the typing of values.
* **C80** State machines. Induction over expressions relates what is generated to code for two following states, in any list of states with different names; running that code is related to a big-step relation in both directions (induction over fuel and over that relation); then induction over that relation and over the meaning as a parsing expression.
* **C81** What a rule matches depends only on what it refers to. The meaning of grammars is invariant under replacing the main module by one that agrees on a closed set of names (induction over derivations, with related closures for the arguments); C40 carries this to both generated programs.
* **C82** Rewriting grammars. Each law by inversion of the meaning; equivalence is a congruence (induction over the rewriting, for arguments over derivations with related environments); then induction over derivations relates the meanings of two grammars with equivalent bodies; determinism of the meaning of complete grammars is needed for common beginnings.
* **C83** Names of tokens. From what the texts of tokens are (C67), by cases over the rules.
* **C84** Names that cannot be identifiers. What names are made identifiers of is collected by induction over the imported files.
* **C85** Trees. A second semantics of grammars (Spec_Grammar_Tree.v) says which rules show where; runs of nodes are followed along the relation between expressions and nodes that already proved that the parsers match what the grammar says. For inlined rules, trees are carried back along the relation of C40 (Proof_Grammar_Tree_Inline.v).
* **C86** Reports. A third semantics of grammars (Spec_Grammar_Trace.v) says which rules are tried where; runs of nodes are followed along the relation between expressions and nodes, and the report is what C30 says of a run. For inlined rules, what is tried is carried back along the relation of C40 (Proof_Grammar_Trace_Inline.v).
* **C87** Trees and reports of a package. C74, C85 and C86 together, for the parsers that are emitted.
* **C88** Laws keep the trees. Each law from left to right; the other direction because there is one tree only; then inside of expressions, arguments, rules and trivia.
* **C89** When the parsers of a package return. C52 is for the parsers of one grammar; here with inlining, down to the text of the package, and together with C87: a parser that is not left recursive returns a tree or a report.
* **C90** C81 for trees and reports: rules that are not referred to, and the order of rules and imports, change neither. Needs that the modules that both grammars import are neither of the two.
* **C91** The number of attempts. Different attempts: linear in the text, from C86 and the finite list of rules. All attempts: exponential for a grammar whose alternatives begin alike, by an explicit derivation in the grammar (C86) for each length; nothing is memoised.
* **C92** The variant of skip_until under the feature memchr (not compiled today, as no manifest declares the feature): the first byte of a character is never a byte inside another one, so that slicing at a found byte does not panic, and both variants give the least offset at which one of the strings begins.
* **C93** Renaming. By induction over the derivation in the grammar: closures are related if they are of the renamed file and renamed, or of another file and unchanged; injectivity keeps parameters from being captured. Undoing the renaming gives the converse.
* **C94** Renamed trees and reports. The induction of C93 repeated for the grammar's own trees and traces, then carried to the generated parsers with C85 and C86, which say that a grammar has at most one tree and one trace.
* **C95** Traces under rewriting. Both sides of each law have the same trace in the grammar; congruence with related closures for arguments; induction over the trace for rules, as for the trees of C88; then C86 and uniqueness of traces.

## The generator

* `Model_Generator.v` translates expressions and rules to types as trees (`ty`), with the tracker, the
  module system and the accessors; `Model_Output.v` collects the emitted items as a tree of modules.
* `Spec_Rust.v` says how Rust reads these items: resolution of paths (`super`, modules, re-exports, the
  crate `::pest3`), type parameters, aliases, and the parser node that a type stands for. Duplicate
  names, unknown names and wrong generic arguments have no reading.
* `Spec_Grammar_Peg.v` is the PEG meaning of grammar expressions with their own name resolution,
  trivia and parameters.
* `Spec_Generator.v` lists the conditions on a grammar (`fine`) without which the emitted program is
  not the intended Rust program.
* `Model_Inline.v` inlines silent rules with parameters before that; `generate_typed` is the whole pass.
* Raw identifiers (`format_ident!("r#…")`) are made for the names of rules, parameters and files; for five
  names this panics (`not_raw`). That a file is named by a plain identifier elsewhere (`mod …`), and the raw
  identifiers of other names of built-in rules, are left out; `fine` excludes such names.
* Oracle: the list of Unicode property names (pest2). Numbering of structs (`id`) is any injective
  numbering.

## Not modelled

* The flags `no_pair`, `no_span` and `no_warnings` are read (`Model_Derive.v`), but not their effect on the emitted code.
* Code emission as Rust tokens (`quote!`): types, paths and accessors are trees; doc comments, lints,
  derives and `impl TypedParser` are left out (`Model_Derive.v` has the paths of the `include_str!` constants). `Debug` formatting of nodes.
* `pest2::error::Error`, `unicode-width`, `BTreeMap`/`HashMap` internals (modelled as sorted or
  plain association lists).
* `State::json` and `State::error` (generator/src/lib.rs), an experiment that nothing calls; the functions of the emitted state
  machines are run by a small interpreter (`Model_State.v`).
* The errors that pest2 reports for texts that are not grammars: an arbitrary function of the text.

## Trusted base

* The Coq kernel and the fidelity of the `Model_*` files to the cited source lines.
* pest2 is not part of the repository. The model of the parser that it derives from grammar.pest
  (`qmatch`) is written from its documentation: ordered choice, greedy repetition without backtracking,
  implicit white space in plain rules, atomic rules, look-ahead, the stack operations, and that the stack
  is restored on failure. The optimizer of pest2 is assumed not to change the meaning. The tests of
  meta/src/parser.rs that compare pairs all hold of the model (`Example_Pest2.v`).
* `Print Assumptions` for each theorem (see the end of this file, filled in as theorems are added).

## Print Assumptions

For each of the 385 theorems below `Print Assumptions` prints "Closed under the global context": no
axioms, neither of the standard library nor our own.

* `Thm_Accepted.v`: `C75_rejected`, `C75_exact`, `C75_simple`, `C75_expands`
* `Thm_Attempts.v`: `C91_distinct`, `C91_exponential`, `C91_polynomial_refuted`
* `Thm_Box.v`: `C38_cycle`, `C39_needed`, `C39_all`
* `Thm_Client.v`: `C77_report`, `C77_panics`, `C77_balanced`, `C77_offsets`, `C77_special`, `C77_addresses_refuted`
* `Thm_Derive.v`: `C72_exact`, `C72_panic`, `C72_others`, `C72_boxed`, `C72_box_all_refuted`, `C72_declared_refuted`, `C73_sources`, `C73_missing`, `C73_directory`, `C73_beside`, `C73_inline`, `C73_expanded`, `C73_accepted`, `C73_rejected`, `C73_other_names_refuted`
* `Thm_Display.v`: `C71_reads_back`, `C71_distinct`, `C71_doc`, `C71_other_forms_refuted`, `C71_same_display_refuted`
* `Thm_Emit.v`: `C41_strings`, `C42_available`, `C42_only`, `C42_arities`
* `Thm_Equality.v`: `C79_equal`, `C79_equivalence`, `C79_same_input`, `C79_place`, `C79_copies`, `C79_rule_copies`, `C79_copies_refuted`, `C79_hash`, `C79_hash_differs`, `C79_hash_follows`, `C79_hash_exists`, `C79_position`
* `Thm_Flatten.v`: `C37_sequence`, `C37_choice`, `C37_operands`, `C37_variants`, `C37_nodes`
* `Thm_Format.v`: `C33_one_line`, `C33_many_lines`, `C33_cases`, `C33_rows`, `C33_empty_input_refuted`, `C33_line_start_refuted`, `C34_point`, `C33_display`, `C33_display_many`, `C34_display`, `C34_cases`, `C34_end_refuted`, `C35_visible`, `C35_no_control`, `C35_identity`
* `Thm_Generated.v`: `C36_readable`, `C36_rule`, `C36_parser`
* `Thm_Getter.v`: `C44_values`, `C44_names`, `C44_typed`, `C44_accessor`
* `Thm_Grammar.v`: `C47_exact`, `C47_error`, `C47_panic`, `C47_every_literal_refuted`, `C48_exact`, `C48_unique`, `C48_error`, `C48_total`, `C49_exact`, `C49_error`, `C59_plain`, `C59_pounds`, `C59_every_raw_string_refuted`, `C60_exact`, `C60_error`, `C60_total`, `C60_rule_doc`, `C60_grammar_doc`
* `Thm_Grammar_Terminate.v`: `C52_grammar`, `C52_grammar_finite`, `C52_grammar_left_recursive`
* `Thm_Grammar_Trace.v`: `C86_report`, `C86_full`, `C86_exists`, `C86_unique`, `C86_rejects`, `C86_typed`, `C86_inlined`, `C86_inlined_rejects`
* `Thm_Grammar_Tree.v`: `C85_pairs`, `C85_exists`, `C85_unique`, `C85_tree`, `C85_each`, `C85_typed`, `C85_inlined`, `C85_inlined_tree`, `C85_silent_call_refuted`
* `Thm_Idents.v`: `C84_rejected`, `C84_package`
* `Thm_Import.v`: `C50_exact`, `C50_imported_refuted`, `C51_exact`, `C51_acyclic`, `C51_every_graph_refuted`, `C61_loaded`, `C61_error`, `C61_panic`, `C61_unique`, `C61_import`, `C61_import_total`, `C62_merge`
* `Thm_Inline.v`: `C40_substitution`, `C40_replaced`, `C40_precedence`, `C40_removed`, `C40_inlined`, `C40_parser`, `C40_none`, `C40_ends`, `C40_two_arguments_refuted`, `C40_capture_refuted`, `C40_caller_parameter_refuted`, `C40_imported_refuted`, `C40_unused_parameter_refuted`, `C40_nested_call_refuted`, `C40_recursive_refuted`
* `Thm_Laws.v`: `C82_one_result`, `C82_law`, `C82_factor`, `C82_inside`, `C82_grammar`, `C82_parser`, `C82_accepts`, `C82_swap_refuted`, `C82_distribute_refuted`, `C82_repeated_refuted`
* `Thm_Laws_Trace.v`: `C95_law`, `C95_tries`, `C95_parse`
* `Thm_Laws_Tree.v`: `C88_law`, `C88_law_any`, `C88_grammar`, `C88_pairs`, `C88_report_refuted`
* `Thm_Layout.v`: `C38_sized`, `C38_not_inside`
* `Thm_Local.v`: `C81_meaning`, `C81_parser`, `C81_accepts`, `C81_order`, `C81_added`, `C81_trivia_refuted`
* `Thm_Local_Tree.v`: `C90_trees`, `C90_tries`, `C90_parse`, `C90_returns`, `C90_order`, `C90_added`
* `Thm_Lossless.v`: `C76_spelled`, `C76_spelled_part`, `C76_text`, `C76_part`, `C76_any_stack`, `C76_grammar`, `C76_grammar_any_stack`, `C76_trivia_refuted`, `C76_slice_refuted`
* `Thm_Memchr.v`: `C92_same`, `C92_first`, `C92_no_panic`, `C92_empty_refuted`
* `Thm_Message.v`: `C32_message`, `C32_any_tracker`, `C32_off_boundary`, `C32_notation_unique`
* `Thm_Moved.v`: `C78_prefix`, `C78_full`, `C78_pairs`, `C78_copies`, `C78_copies_prefix`, `C78_grammar`, `C78_soi_refuted`
* `Thm_Names.v`: `C43_resolves`, `C43_unique`, `C63_accepts`, `C43_renamed_builtin_refuted`
* `Thm_Node.v`: `C01_no_panic`, `C02_literal_node`, `C02_char_node`, `C03_insensitive_node`, `C04_range_node`, `C04_any_node`, `C04_property_node`, `C04_ascii_nodes`, `C55_anchors`, `C05_newline`, `C06_skip_node`, `C14_check_parse`, `C14_text_entry_points`, `C17_choice_succeeds`, `C17_choice_fails`, `C56_sequence`, `C18_repetition_succeeds`, `C18_repetition_fails`, `C18_at_least_min`, `C18_min_above_max_refuted`, `C18_unbounded`, `C19_optional`, `C19_never_fail`, `C19_never_failing_entry`, `C19_never_failing_empty`, `C20_positive`, `C20_negative`, `C20_stack_and_position`, `C21_snapshots_balanced`, `C21_choice_restores`, `C21_optional_restores`, `C21_round_restores`, `C22_push`, `C22_peek`, `C22_pop`, `C22_drop`, `C22_empty_stack`, `C22_peek_all`, `C22_pop_all`, `C23_slice`, `C23_out_of_bound`, `C23_top_to_bottom_refuted`
* `Thm_Pairs.v`: `C25_rule_span`, `C25_nodes_inside`, `C25_leaf_text`, `C25_predicate_nodes_refuted`, `C26_nested`, `C27_pairs`, `C27_children`, `C27_tree`, `C27_unique`, `C27_silent_nothing`, `C28_vec_children`, `C28_pushed`, `C28_agree_refuted`, `C54_shape`, `C54_identity`, `C54_compose`, `C54_display`, `C57_code_points_refuted`, `C57_byte_offsets`, `C57_ascii_offsets`, `C58_choice_getters`
* `Thm_Parse.v`: `C15_sound`, `C16_complete`, `C16_unique`, `C16_outcome_unique`, `C16_more_fuel`, `C24_full_success`, `C24_full_error`, `C24_eoi_always_listed_refuted`
* `Thm_Pest2.v`: `C65_terminates`, `C65_syntax`, `C66_placed`, `C66_every_rule`, `C67_tokens`, `C68_readable`, `C68_loaded`, `C68_arguments_refuted`, `C68_arguments`, `C69_append_refuted`, `C69_choice_refuted`, `C69_name_refuted`
* `Thm_Position.v`: `C10_position_new`, `C02_match_string`, `C03_match_insensitive`, `C04_match_range`, `C04_match_char_by`, `C04_next_char`, `C04_match_char`, `C06_skip`, `C06_skip_back`, `C06_skip_roundtrip`, `C07_skip_until`, `C08_line_col`, `C09_line_of`, `C53_position_eq`, `C53_position_cmp`, `C53_position_cmp_other`, `C53_span_eq`, `C53_other_address`, `C53_span_other_address`, `C53_position_span`, `C53_order_consistent_with_equality_refuted`
* `Thm_Rename.v`: `C83_tokens`, `C83_names`, `C83_operators_refuted`
* `Thm_Renaming.v`: `C93_meaning`, `C93_parser`, `C93_accepts`, `C93_exchange`
* `Thm_Renaming_Tree.v`: `C94_trees`, `C94_tries`, `C94_parse`, `C94_returns`
* `Thm_Report.v`: `C29_partial_position`, `C29_monotone`, `C30_partial_report`, `C30_listed`, `C30_attempts_determined`, `C30_failure_names_a_rule_refuted`, `C31_balanced`
* `Thm_Rules.v`: `C64_enum`, `C64_rule_value`, `C64_conversion`, `C64_distinct`, `C64_eoi_refuted`, `C64_trivia`, `C64_types_mod`, `C64_rules_mod_refuted`
* `Thm_Shape.v`: `C44_shape`
* `Thm_Span.v`: `C10_span_new`, `C10_span_text`, `C11_span_get`, `C12_lines`, `C12_lines_covered`, `C12_lines_whole`, `C12_split_lines_spec`, `C12_lines_only_covered_refuted`, `C13_merge`, `C13_merge_comm`, `C13_merge_smallest`
* `Thm_State.v`: `C80_build`, `C80_states`, `C80_runs`, `C80_no_panic`, `C80_ends`, `C80_forever`, `C80_grammar`, `C80_grammar_ends`, `C80_choice_refuted`, `C80_repetition_refuted`, `C80_wide`, `C80_range_refuted`
* `Thm_Terminate.v`: `C52_terminates`, `C52_entry_points`, `C52_finite`, `C52_linear`, `C52_left_recursive`, `C52_rounds`, `C52_empty_body`
* `Thm_Unescape.v`: `C45_escaped_form`, `C45_every_form`, `C45_every_scalar`, `C46_exact`, `C46_rejects`, `C46_literal`, `C46_plus_refuted`
* `Thm_Whole.v`: `C74_same`, `C74_layout`, `C74_parser`
* `Thm_Whole_Terminate.v`: `C89_returns`, `C89_left_recursive`, `C89_package`, `C89_package_left_recursive`
* `Thm_Whole_Tree.v`: `C87_package`
* `Thm_Written.v`: `C70_parsed`, `C70_unambiguous`, `C70_loaded`
