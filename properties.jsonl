{"id": "C01", "title": "Parser positions stay on character boundaries and never panic", "statement": "Starting from any position that is a character boundary of the input, every parsing or checking step of every expression either fails or ends at a position that is again a character boundary, not before the start and not past the end of the input, and no slicing or span-building panic can occur on the way.", "quantifier": "all inputs (valid UTF-8 texts), all grammars, all expressions, all start boundaries, all stacks of well-formed spans", "why_tests_cant": "Positions are raw byte offsets and literals are compared bytewise; tests use a handful of multi-byte characters while the claim must hold for every alignment of every literal with every text.", "anchors": ["core/src/position.rs: Position::{match_string,match_insensitive,match_range,match_char_by,next_char,skip,span}", "core/src/typed/template/mod.rs: all TypedNode impls"]}
{"id": "C02", "title": "Literal terminals match exactly the literal text", "statement": "A case-sensitive string (or single character) terminal succeeds at a position exactly when the remaining text starts with that string, and then advances by exactly the string's length; otherwise it fails and the position is unchanged.", "quantifier": "all inputs, all literals, all boundary positions", "why_tests_cant": "The implementation compares encoded bytes; agreement with comparison of characters needs the prefix property of UTF-8 for all pairs of characters.", "anchors": ["core/src/position.rs: Position::match_string", "core/src/typed/template/mod.rs: Str, Char"]}
{"id": "C03", "title": "Case-insensitive terminals match exactly up to ASCII case", "statement": "A case-insensitive terminal succeeds exactly when the remaining text starts with a string that equals the literal character by character after folding only the ASCII letters; it consumes that string and reports the text as it appeared in the input.", "quantifier": "all inputs, literals, positions", "why_tests_cant": "The code slices the input at the byte length of the literal and folds bytes; whether this can accept or reject wrongly for non-ASCII text is a statement about all strings.", "anchors": ["core/src/position.rs: Position::match_insensitive", "core/src/typed/template/mod.rs: Insens"]}
{"id": "C04", "title": "Character classes consume exactly one matching character", "statement": "A character range terminal succeeds exactly when the next character lies between its two bounds, both included, and consumes exactly that character; 'any' succeeds exactly when input remains; a predicate-based class succeeds exactly when its predicate holds of the next character. The reported character is the consumed one.", "quantifier": "all inputs, ranges, predicates, positions", "why_tests_cant": "Inclusive bounds and multi-byte widths interact for more than a million code points.", "anchors": ["core/src/position.rs: match_range, match_char_by, next_char", "core/src/typed/template/mod.rs: CharRange, any, ascii_*, match_char_by"]}
{"id": "C05", "title": "newline recognises CRLF, LF and CR with CRLF first", "statement": "The built-in newline matches a CRLF pair as one unit whenever it is present, otherwise a single LF or a single CR, reports which one it saw, and fails on anything else.", "quantifier": "all inputs and positions", "why_tests_cant": "Depends on order of attempts for every continuation of the text.", "anchors": ["core/src/typed/template/mod.rs: newline, NewLineType"]}
{"id": "C06", "title": "Skipping a fixed number of characters is all-or-nothing", "statement": "Skipping n characters forwards succeeds exactly when at least n characters remain and then lands exactly n characters later; otherwise nothing changes. Skipping backwards is the mirror image, and forwards then backwards by n returns to the start.", "quantifier": "all inputs, boundary positions and counts", "why_tests_cant": "Characters have variable width, the claim is for all texts and all n.", "anchors": ["core/src/position.rs: Position::skip, Position::skip_back", "core/src/typed/template/mod.rs: SkipChar"]}
{"id": "C07", "title": "Skip-until stops at the earliest occurrence", "statement": "Skipping until one of several strings moves to the first character boundary, at or after the current position and before the end of input, at which one of the strings occurs, and reports success; if there is none it moves to the end and reports failure.", "quantifier": "all inputs, positions, finite lists of strings", "why_tests_cant": "First-occurrence minimality over all earlier offsets cannot be enumerated by examples.", "anchors": ["core/src/position.rs: Position::skip_until, Position::skip_until_basic"]}
{"id": "C08", "title": "Line and column are those of the text before the position", "statement": "The reported line is one more than the number of line breaks (LF, with CRLF counting once) before the position and the reported column is one more than the number of characters after the last LF; the computation never panics on a boundary position.", "quantifier": "all inputs and all boundary positions", "why_tests_cant": "Loop with two-step decrements over arbitrary mixtures of CR and LF and multi-byte characters.", "anchors": ["core/src/position.rs: Position::line_col"]}
{"id": "C09", "title": "The line of a position is the maximal LF-delimited segment around it", "statement": "The line returned for a position is the contiguous slice that starts right after the last LF before the position (or at the start of input) and ends right after the first LF at or after the position (or at the end of input).", "quantifier": "all inputs and boundary positions", "why_tests_cant": "The code has special cases for empty input and for the last byte; correctness is for every text.", "anchors": ["core/src/position.rs: Position::line_of, find_line_start, find_line_end"]}
{"id": "C10", "title": "Spans are created exactly for valid ranges and denote the text between their ends", "statement": "Creating a span succeeds exactly when start <= end and both are character boundaries of the input; its text is the part of the input between them, its length is end-start, and splitting it returns its two end positions.", "quantifier": "all inputs and all pairs of offsets", "why_tests_cant": "Validity must coincide with character boundaries for all texts.", "anchors": ["core/src/span.rs: Span::{new,as_str,start,end,start_pos,end_pos,split,get_input}"]}
{"id": "C11", "title": "Sub-spans denote the corresponding part of the span's text", "statement": "Taking a sub-range of a span succeeds exactly when the range is a valid character range of the span's text, and the result's text is that part of the span's text, located inside the original span.", "quantifier": "all spans and all range bounds (inclusive, exclusive, unbounded on either side)", "why_tests_cant": "Four bound combinations times arbitrary offsets and encodings.", "anchors": ["core/src/span.rs: Span::get"]}
{"id": "C12", "title": "Line iteration over a span", "statement": "Iterating the lines of a span yields, in order and each once, exactly the input lines that end after the start of the span and start no later than its end. For a non-empty span that does not end right after a line break these are exactly the lines it covers. (A span that ends right after a line break also yields the following line, contrary to the documentation.)", "quantifier": "all inputs and spans", "why_tests_cant": "Boundary cases (span ending right after a line break, empty span, end of input) are not covered by the existing tests.", "anchors": ["core/src/span.rs: Span::lines, Span::lines_span, LinesSpan::next, Lines::next"]}
{"id": "C13", "title": "Merging spans", "statement": "Merging two spans of the same input succeeds exactly when they overlap or touch, does not depend on the order of the arguments, and gives the smallest span containing both.", "quantifier": "all inputs and all pairs of spans of the same input", "why_tests_cant": "Statement over all pairs of intervals.", "anchors": ["core/src/span.rs: merge_spans"]}
{"id": "C14", "title": "Checking and parsing agree", "statement": "For every expression, the check entry points accept exactly when the parse entry points produce a node, end at the same position, leave the same stack, and leave the same error information.", "quantifier": "all grammars, expressions, inputs, start positions, stacks, trackers", "why_tests_cant": "Every combinator has two hand-written implementations; agreement is needed for all nestings.", "anchors": ["core/src/typed/traits.rs: TypedNode::{try_parse_with_partial,check_with_partial,try_parse,check,...}", "core/src/typed/template/*", "core/src/sequence.rs", "core/src/choice.rs"]}
{"id": "C15", "title": "Parsing implements PEG semantics with a stack (soundness)", "statement": "Whenever parsing returns, its outcome (success with the consumed text and the resulting stack, or failure) is the one prescribed by the standard PEG rules for the expression: sequences concatenate with trivia between elements, choices are ordered, repetitions are greedy, predicates look ahead only.", "quantifier": "all grammars, expressions, inputs, positions and stacks; all terminating runs", "why_tests_cant": "A semantic equality over an infinite language of grammars and inputs.", "anchors": ["core/src/typed/template/*", "core/src/sequence.rs: sequence!", "core/src/choice.rs: choices!", "core/src/typed/traits.rs: Option<T>, full_rule_struct!"]}
{"id": "C16", "title": "Parsing implements PEG semantics with a stack (completeness and determinism)", "statement": "Whenever the PEG rules assign an outcome to an expression at a position, parsing terminates with that outcome; the outcome is unique and does not depend on the error tracker.", "quantifier": "all grammars, expressions, inputs, positions and stacks", "why_tests_cant": "Termination and determinism are universally quantified over executions.", "anchors": ["core/src/typed/template/*", "core/src/sequence.rs", "core/src/choice.rs", "core/src/typed/traits.rs"]}
{"id": "C17", "title": "Ordered choice commits to the first alternative that matches", "statement": "A choice of n alternatives succeeds with alternative i exactly when alternative i succeeds and all alternatives before it fail at the same position and with the same stack; it fails exactly when all fail.", "quantifier": "all choices of any arity, inputs, positions, stacks", "why_tests_cant": "Arity up to 16 predefined and beyond generated; the property quantifies over all alternatives and the effects of failed ones.", "anchors": ["core/src/choice.rs: choices!"]}
{"id": "C18", "title": "Repetition counts, greediness and trivia placement", "statement": "A repetition with bounds min <= max succeeds exactly when at least min consecutive matches exist; it takes as many as possible up to max; trivia is consumed only between two matched elements, never before the first or after the last; on fewer than min it fails.", "quantifier": "all bodies, trivia, bounds, inputs, positions, stacks", "why_tests_cant": "Unbounded loop with rollback of the last partial iteration.", "anchors": ["core/src/typed/template/repetition.rs: RepMinMax, try_parse_unit, check_unit", "core/src/typed/template/mod.rs: restore_on_none"]}
{"id": "C19", "title": "Optional and zero-minimum repetition never fail", "statement": "An optional expression and a repetition with minimum 0 never fail: they succeed consuming nothing when the body does not match; the never-failing entry point returns the same node and end position as the ordinary one.", "quantifier": "all bodies, inputs, positions, stacks, trackers", "why_tests_cant": "Statement about the absence of failures over all runs; two separate implementations.", "anchors": ["core/src/typed/traits.rs: TypedNode for Option<T>, NeverFailedTypedNode", "core/src/typed/template/repetition.rs: NeverFailedTypedNode for RepMinMax"]}
{"id": "C20", "title": "Lookahead predicates consume nothing and leave the stack alone", "statement": "A positive or negative predicate never moves the position and leaves the stack contents exactly as before, whether it succeeds or fails; the positive one succeeds exactly when the body matches, the negative one exactly when the body does not.", "quantifier": "all bodies (including ones that push and pop), inputs, positions, stacks", "why_tests_cant": "The body may perform any number of stack operations and nested backtracking.", "anchors": ["core/src/typed/template/mod.rs: Positive, Negative"]}
{"id": "C21", "title": "Backtracking restores the stack", "statement": "When an alternative of a choice, an optional body, or an iteration of a repetition fails, the stack is exactly what it was before it was tried, whatever pushes, pops and nested snapshots happened inside; every expression leaves the number of open snapshots unchanged.", "quantifier": "all expressions, inputs, stacks with any number of open snapshots", "why_tests_cant": "Requires an invariant over all interleavings of push, pop, snapshot, restore.", "anchors": ["core/src/choice.rs: choices!", "core/src/typed/traits.rs: Option<T>", "core/src/typed/template/mod.rs: restore_on_none", "pest2::Stack (external)"]}
{"id": "C22", "title": "Stack expressions match the stack contents", "statement": "push(e) matches e and pushes exactly the consumed text; peek matches the top text without removing it; pop matches and removes it; drop removes it without consuming; peek_all and pop_all match all texts from top to bottom, pop_all then empties the stack; on an empty stack peek, pop and drop fail while peek_all and pop_all succeed on the empty text.", "quantifier": "all stacks, inputs, positions", "why_tests_cant": "Quantifies over all stack contents.", "anchors": ["core/src/typed/template/mod.rs: push, peek, pop, drop, peek_all, pop_all, peek_spans"]}
{"id": "C23", "title": "Peek slices select the documented part of the stack", "statement": "A slice peek with bounds a..b (negative bounds counted from the end, missing b meaning the whole rest) fails exactly when a bound lies outside -len..len or the text does not match; otherwise it matches the selected elements in order, an empty or reversed range matching the empty text. The documentation says top-to-bottom order.", "quantifier": "all bounds, stack depths, inputs", "why_tests_cant": "Index arithmetic on signed bounds over all stack depths.", "anchors": ["core/src/typed/template/mod.rs: constrain_idx, constrain_idxs, stack_slice, PeekSlice1, PeekSlice2"]}
{"id": "C24", "title": "Full parsing is partial parsing plus end of input", "statement": "Parsing a complete text succeeds exactly when partial parsing succeeds and stops at the end of the input, with the same node. Otherwise an error is returned: the error of the partial parse when that failed; when only trailing text is left, end-of-input is listed as expected at the stop position unless something was tracked further on, and then the report is that of the partial parse.", "quantifier": "all grammars, rules, inputs", "why_tests_cant": "Universally quantified over inputs and grammars.", "anchors": ["core/src/typed/traits.rs: try_parse_with, try_parse, check_with, check"]}
{"id": "C25", "title": "A rule node's span is exactly the consumed text", "statement": "The node produced for a rule carries a span that starts where the rule was tried and ends where parsing continued; nested rule nodes outside predicates lie inside it; the spans and characters stored in leaf nodes equal the text they consumed.", "quantifier": "all rules, grammars, inputs", "why_tests_cant": "Structural property of all parse trees.", "anchors": ["core/src/typed/traits.rs: full_rule_struct!", "core/src/typed/template/mod.rs"]}
{"id": "C26", "title": "Pair trees are well nested and ordered", "statement": "In the pair tree of a successful parse, every child's range lies within its parent's range and the ranges of siblings are in increasing order without overlap.", "quantifier": "all grammars, rules, inputs", "why_tests_cant": "Structural property of all parse trees.", "anchors": ["core/src/typed/traits.rs: PairContainer, PairTree", "core/src/sequence.rs, core/src/choice.rs: PairContainer impls", "generator/src/typed/generator.rs: create_rule"]}
{"id": "C27", "title": "Pairs contain exactly the non-silent rules matched outside predicates and silent rules", "statement": "The children of a pair are, in order of matching, exactly the nodes of non-silent rules reached from the rule body without crossing another rule, a predicate, or a silent rule; trivia never contributes pairs.", "quantifier": "all grammars and parse results", "why_tests_cant": "Quantifies over all trees.", "anchors": ["core/src/typed/traits.rs: PairContainer", "generator/src/typed/generator.rs: create_rule"]}
{"id": "C28", "title": "The list of child pairs agrees with the visitor of child pairs", "statement": "For every node except a pushed one, collecting child pairs into a vector gives exactly the sequence of pairs that visiting child pairs one by one gives; for a pushed node it gives the child pairs of the content, whereas visiting gives the pairs of the content itself. (The documented agreement fails for pushed non-silent rules.)", "quantifier": "all nodes", "why_tests_cant": "Two overridable trait methods; agreement is needed for every implementor.", "anchors": ["core/src/typed/traits.rs: PairContainer::vec_children_pairs", "core/src/typed/template/mod.rs: PairContainer for push"]}
{"id": "C29", "title": "The reported error position is the furthest tracked position", "statement": "The error position after a failed parse is the maximum of the start position and all positions at which a rule without sub-rules was tried or a stack error occurred; it never decreases during a parse and is always a character boundary of the input.", "quantifier": "all grammars, inputs, sequences of rule attempts", "why_tests_cant": "History property over all executions.", "anchors": ["core/src/typed/tracker.rs: Tracker::{prepare,record,record_option_during_with}"]}
{"id": "C30", "title": "Expected and unexpected rules are exactly those observed at the furthest position", "statement": "The rules reported as expected (unexpected) are exactly the leaf rules that failed under positive (succeeded under negative) polarity at the reported position, grouped by the nearest enclosing rule that started elsewhere; nothing from other positions is reported and nothing at that position is lost.", "quantifier": "all histories of rule attempts", "why_tests_cant": "History property with clearing; tests only look at short histories.", "anchors": ["core/src/typed/tracker.rs: Tracker::{record,get_entry,prepare,clear,during}"]}
{"id": "C31", "title": "Error tracking is balanced", "statement": "After any parse or check step, whether it succeeds or fails, the tracker's nesting of rules and its polarity are what they were before; removing an entry from the nesting never panics.", "quantifier": "all grammars, inputs, runs", "why_tests_cant": "Invariant over all nested runs.", "anchors": ["core/src/typed/tracker.rs: during, record_option_during_with"]}
{"id": "C32", "title": "Turning a failure into an error message never panics and quotes the right text", "statement": "For a tracker reached by any parse, collecting the error does not panic; the message quotes the part of the offending line before the error position, and lists each group with its rules sorted and without duplicates.", "quantifier": "all reachable tracker states", "why_tests_cant": "Slicing and indexing on arbitrary texts and positions.", "anchors": ["core/src/typed/tracker.rs: collect_to_message, collect, finish"]}
{"id": "C33", "title": "Displaying a span never panics and shows the covered lines", "statement": "Displaying any valid span of a non-empty input does not panic and prints, with line numbers, the line of the start, at most three rows for the lines between, and the line of the end, with the covered text highlighted and markers below its ends. A start at the beginning of a line other than the first is shown at the end of the preceding line. (The span of the empty input panics.)", "quantifier": "all inputs and spans", "why_tests_cant": "Splitting of lines at byte columns over arbitrary texts.", "anchors": ["core/src/formatter.rs: FormatOption::display_span, display_snippet_*"]}
{"id": "C34", "title": "Displaying a position shows its line", "statement": "Displaying any valid position before the end of the input does not panic and shows the line containing it, with its number, and one marker under the character at the position. (At the end of the input nothing is shown.)", "quantifier": "all inputs and positions", "why_tests_cant": "End-of-input and end-of-line positions over all texts.", "anchors": ["core/src/formatter.rs: FormatOption::display_position"]}
{"id": "C35", "title": "Visualised text contains no control characters below the replacement range and keeps everything else", "statement": "Making whitespace and control characters visible maps each control character to its picture symbol, keeps all other characters, preserves the number of characters, and is the identity on text without control characters.", "quantifier": "all texts", "why_tests_cant": "All characters and texts.", "anchors": ["core/src/formatter.rs: visualize_ws_and_cntrl"]}
{"id": "C36", "title": "Generated parsers implement the grammar expression", "statement": "If a grammar (with its imported files) satisfies the stated conditions on names and trivia and the generator succeeds, then the emitted types are well-formed, and the parser type of every rule accepts, consumes and leaves the stack exactly as prescribed by the PEG reading of its body, including operator kinds (no trivia, optional trivia, mandatory trivia), bounded repetitions, built-in rules, imported rules and calls of rules with arguments.", "quantifier": "all grammars with fine names, all rules, all arguments, all inputs and stacks", "why_tests_cant": "Compiler correctness over all expressions.", "anchors": ["generator/src/typed/generator.rs: process_expr, process_rule, collect_sequence, collect_choices, get_trivia"]}
{"id": "C37", "title": "Flattening of sequences and choices preserves meaning", "statement": "Collapsing right-nested sequences and choices into n-ary ones does not change which texts are accepted, what is consumed, or the resulting stack, and keeps all operands in order with their separators.", "quantifier": "all expressions", "why_tests_cant": "Statement over all nestings.", "anchors": ["generator/src/typed/generator.rs: collect_sequence, collect_choices", "core/src/sequence.rs", "core/src/choice.rs"]}
{"id": "C38", "title": "Boxing breaks every type cycle", "statement": "With boxing only where needed, every cycle of rules that mention each other contains at least one boxed rule, so no generated struct contains itself by value.", "quantifier": "all grammars (finite reference graphs)", "why_tests_cant": "Graph property over all grammars.", "anchors": ["generator/src/typed/generator.rs: collect_reachability, collect_used_rule, RuleInfo::new", "generator/src/config.rs"]}
{"id": "C39", "title": "Unboxed rules are only boxed when necessary", "statement": "With boxing only where needed, a rule that cannot reach itself through references is never boxed; with the option off, every rule is boxed.", "quantifier": "all grammars", "why_tests_cant": "Graph property over all grammars.", "anchors": ["generator/src/typed/generator.rs: collect_reachability, RuleInfo::new"]}
{"id": "C40", "title": "Inlining a silent rule with arguments is substitution", "statement": "If the silent rules with parameters of a grammar are tidy (called by their own name from their own file; parameters that differ from each other and from all rule names, are used without arguments and at most in one argument of each call; neither they nor the names in the body are parameters of other rules), then every call is replaced by the body with all parameters replaced at once, the other rules, their parameters and the imports stay, every rule without parameters matches exactly what it matched before, and the generated parsers do what the original grammar says. Inlining ends if these rules are not recursive, and leaves a grammar without them as it is. Outside these conditions it is not substitution: a parameter in two arguments of a call, an argument that mentions a later parameter, a parameter of the caller in the body, a silent rule of another file, an unused parameter, a call inside an argument of another rule, and recursion each break it.", "quantifier": "all grammars with imports, rule bodies, parameters, arguments, inputs and stacks", "why_tests_cant": "Substitution over all expression shapes; name clashes between parameters and rules.", "anchors": ["meta/src/parser.rs: ParseExpr::replace", "generator/src/typed/generator.rs: collect_silent_rules_with_args, inline_silent_rules_with_args"]}
{"id": "C41", "title": "String constants are shared faithfully", "statement": "Each generated string wrapper stands for exactly one string: equal literals get the same wrapper and different literals get different wrappers, and the emitted constant of a wrapper is its string.", "quantifier": "all sequences of literal insertions", "why_tests_cant": "History property of the interning table.", "anchors": ["generator/src/typed/output.rs: Tracker::insert_string_wrapper, Tracker::collect"]}
{"id": "C42", "title": "Sequence and choice types are available for every arity used", "statement": "For every arity of sequence or choice that a grammar uses, the generated output makes a type of that arity available exactly once, either re-exported or defined.", "quantifier": "all sets of arities", "why_tests_cant": "Arities are unbounded.", "anchors": ["generator/src/typed/output.rs: Tracker::{insert_seq,insert_choice,collect}"]}
{"id": "C43", "title": "Name resolution is deterministic and checks arity", "statement": "Once the rules of a grammar are processed, a path resolves exactly if it names something: the built-in rule it spells if it starts with `pest` and there is one, otherwise a rule of the grammar, an imported built-in, or what an imported file names; and only if it is used as declared (a rule with its number of arguments, `push` with one, a slice for `peek` only, other built-ins alone). It then names one thing only. A built-in rule imported under another name resolves to a type that does not exist, which is excluded.", "quantifier": "all grammars with imports, paths and argument lists", "why_tests_cant": "All trees and paths.", "anchors": ["generator/src/typed/module.rs: ModuleSystem::resolve, ModuleNode, RuleGenerics::call"]}
{"id": "C44", "title": "Accessors return exactly the matched sub-nodes of that name", "statement": "The accessor generated for a name in a rule returns, for any parse result, exactly the sub-nodes with that name reached from the rule body without crossing another rule, in order of occurrence, wrapped in optional, vector and tuple layers that match its declared type. That type has exactly the layers that the body asks for: an option for an optional operand or an alternative (never an option in an option), a vector for a repetition, a tuple for two or more operands that mention the name.", "quantifier": "all expressions, names and parse results", "why_tests_cant": "Type and path of an accessor are computed separately for all expression shapes.", "anchors": ["generator/src/typed/getter.rs: Node::{wrap,merge,expand}, GetterByName", "generator/src/typed/generator.rs: process_expr"]}
{"id": "C45", "title": "Unescaping inverts escaping", "statement": "For every text there is an escaped form in the grammar's string syntax, and unescaping that form gives back the text.", "quantifier": "all texts", "why_tests_cant": "All characters including control and non-BMP ones.", "anchors": ["meta/src/parser.rs: unescape, string_content"]}
{"id": "C46", "title": "Unescaping accepts exactly the documented escapes", "statement": "On the contents of a string literal, unescaping yields a text exactly when every escape is meaningful (a two-digit code is ASCII, a braced hexadecimal number is a Unicode scalar value), each escape denoting its character and everything else itself. On arbitrary text it never panics, rejects everything but escapes and plain characters, drops bare quotes, and tolerates a plus sign in front of hexadecimal digits (so the documented claim that only the documented escapes are accepted is false of arbitrary text).", "quantifier": "all strings", "why_tests_cant": "All strings.", "anchors": ["meta/src/parser.rs: unescape"]}
{"id": "C47", "title": "Every character literal accepted by the grammar is usable", "statement": "A character range written with character literals that the grammar syntax accepts is turned into the range between the two denoted characters, or rejected with an error at the first literal that denotes no character. (That this holds for every literal is false: exactly if one literal is a bare double quote and both denote a character, reading it panics.)", "quantifier": "all character literals", "why_tests_cant": "All characters.", "anchors": ["meta/src/parser.rs: parse_char_range, string_content, unescape", "meta/src/grammar.pest: inner_chr, range"]}
{"id": "C48", "title": "Operator precedence and associativity", "statement": "An expression of a grammar file without a bare double quote as character literal and without raw strings with number signs is read with choice binding weaker than all sequence operators, everything grouping to the right, prefix operators binding weaker than postfix operators, and the operands, operators and places being exactly those written; if something in it is wrong, the leftmost fault is reported; it never panics.", "quantifier": "all sequences of operands and operators", "why_tests_cant": "Operator sequences of any length.", "anchors": ["meta/src/parser.rs: parse_node, PRATT_PARSER"]}
{"id": "C49", "title": "Bounded repetition limits are validated", "statement": "A bounded repetition is accepted exactly when its numbers are representable, its maximum (if given) is positive and not below its minimum; the accepted bounds are the written ones, an exact count giving equal bounds and a missing bound meaning none; otherwise the error names the reason and place.", "quantifier": "all bound shapes and numbers", "why_tests_cant": "All numbers.", "anchors": ["meta/src/parser.rs: parse_bounded_repeat, parse_range"]}
{"id": "C50", "title": "Imports record every file they read", "statement": "After a grammar has been loaded with its imports, its recorded dependencies are exactly the files that it imports directly or through other imports; these are exactly the files that were read, and each was read once, whatever the sharing between imports. (The same is not true of the modules inside it: an imported grammar whose own import had been loaded before lacks it among its dependencies.)", "quantifier": "all grammars, file contents and import graphs for which loading succeeds", "why_tests_cant": "All import graphs; caching of already loaded modules.", "anchors": ["meta/src/parser.rs: _parse, parse, GrammarModule"]}
{"id": "C51", "title": "When loading imports terminates", "statement": "Loading a grammar file terminates whenever the readable files reachable through imports are finitely many and none of them imports itself directly or through others; in general it terminates exactly if the tree of imports, cut at the first fault, is finite. (It does not terminate for every finite set of files: a file that imports itself is loaded forever.)", "quantifier": "all file systems, root files and import graphs, cyclic ones included", "why_tests_cant": "Termination over all import graphs including cyclic ones.", "anchors": ["meta/src/parser.rs: _parse"]}
{"id": "C52", "title": "Parsing terminates exactly for grammars without left recursion", "statement": "If no rule can reach itself without consuming input, then parsing any rule on any input terminates without a panic. If moreover every repetition whose rounds can match the empty text is bounded, the depth of the calls is linear in the length of the input, and a repetition has at most one round more than it matches characters. A rule that begins by calling itself never returns. An unbounded repetition whose rounds match the empty text is not stopped early: it takes 18446744073709551615 rounds. The generator accepts left-recursive grammars; their parsers never return.", "quantifier": "all grammars, all finite programs of parsers, and all inputs", "why_tests_cant": "Termination for all inputs.", "anchors": ["core/src/sequence.rs", "core/src/choice.rs", "core/src/typed/template/repetition.rs", "core/src/typed/traits.rs", "generator/src/typed/generator.rs"]}
{"id": "C53", "title": "Positions and spans compare consistently", "statement": "Two positions (or spans) of the same input are equal exactly when their offsets are equal, positions of the same input are totally ordered by offset, and building a span or comparing across different inputs panics instead of giving a wrong answer.", "quantifier": "all pairs of positions and spans", "why_tests_cant": "All pairs.", "anchors": ["core/src/position.rs: PartialEq, Ord, span", "core/src/span.rs: PartialEq"]}
{"id": "C54", "title": "Converting pair rules keeps the tree", "statement": "Converting the rule type of a pair tree with a function applies the function to every rule and keeps shape, offsets and order; converting with the identity changes nothing and two conversions compose.", "quantifier": "all pair trees and functions", "why_tests_cant": "All trees.", "anchors": ["core/src/token/mod.rs: Pair::convert, Display"]}
{"id": "C55", "title": "Anchors and trivial expressions", "statement": "Start-of-input matches exactly at offset 0 and end-of-input exactly at the end, both without consuming; the empty expression always matches without consuming; the never-matching expression always fails.", "quantifier": "all inputs, positions and states", "why_tests_cant": "All positions of all inputs.", "anchors": ["core/src/typed/template/mod.rs: SOI, EOI, Empty, NONE"]}
{"id": "C56", "title": "Sequences match their elements in order with trivia between", "statement": "A sequence succeeds exactly when its elements match one after the other with the trivia of each element but the first matched before it; its node holds the nodes of the elements and none of the trivia; it fails as soon as one of them fails.", "quantifier": "all sequences, inputs, positions and stacks", "why_tests_cant": "All expressions and inputs.", "anchors": ["core/src/sequence.rs: sequence!"]}
{"id": "C57", "title": "Pair offsets", "statement": "The start and end of a pair are byte offsets into the input, hence code point offsets (the documented unit) exactly as long as the text before them is ASCII.", "quantifier": "all inputs", "why_tests_cant": "Differs only on non-ASCII inputs.", "anchors": ["core/src/token/mod.rs: Pair::{start,end}", "core/src/typed/traits.rs: PairTree::as_pair_tree"]}
{"id": "C58", "title": "Choice getters are exclusive", "statement": "For the node of a matched choice exactly one variant getter returns the content, the one of the variant that matched; all others return nothing.", "quantifier": "all choices and parse results", "why_tests_cant": "All variants and inputs.", "anchors": ["core/src/choice.rs: choices!"]}
{"id": "C59", "title": "Raw strings are taken verbatim", "statement": "A raw string without number signs denotes exactly the text between its quotes. (With number signs this is false: one number sign makes it denote a double quote, more make it denote a number sign.)", "quantifier": "all raw strings", "why_tests_cant": "All contents and numbers of number signs.", "anchors": ["meta/src/parser.rs: parse_raw_string", "meta/src/grammar.pest: raw_string"]}
{"id": "C60", "title": "Rules are read with all their parts", "statement": "A rule of a grammar file is read with its documentation lines (without marker and surrounding white space), name, parameters in order, silence, place and expression, with or without braces; the only faults are those of its expression.", "quantifier": "all rules", "why_tests_cant": "All combinations of parts and all texts.", "anchors": ["meta/src/parser.rs: parse_rule, parse_rule_doc, parse_grammar_doc"]}
{"id": "C61", "title": "Imports refer to the right grammar", "statement": "Loading a grammar gives its rules, comments and imports in order, where every import is, under its alias (the given one, else the last name of its path), the grammar loaded from the file it names: the given file path as written, or the path of names below the directory of the importing file, `super` meaning the parent directory; paths starting with `pest` are built-in. Whether a file has been loaded before makes no difference. The error reported is that of the first faulty item, with its message and place; a fault inside an imported file, or an importing file without directory, panics.", "quantifier": "all grammars, file contents and import graphs", "why_tests_cant": "All import graphs, sharing between imports, and paths.", "anchors": ["meta/src/parser.rs: _parse, parse, mod_path_to_fs_path, GrammarModule"]}
{"id": "C62", "title": "Merging grammars loses nothing", "statement": "Collecting several loaded grammars into one keeps all rules, comments and imports in order, and the dependencies are the union of their dependencies.", "quantifier": "all lists of grammars", "why_tests_cant": "Any number of grammars.", "anchors": ["meta/src/parser.rs: FromIterator for GrammarModule"]}
{"id": "C63", "title": "The generator accepts exactly the complete grammars", "statement": "The generator produces code exactly for the grammars in which imports and rules have different names, every name in every rule body (also in arguments and in imported files) is known and used as declared, and the trivia that a file asks for are defined in it; it panics or reports an error on all others.", "quantifier": "all grammars with imports", "why_tests_cant": "All grammars; acceptance depends on every name in every nested expression.", "anchors": ["generator/src/typed/generator.rs: process_rules, process_rule, process_expr, collect_reachability, collect_used_rule", "generator/src/typed/module.rs: ModuleSystem, ModuleNode"]}
{"id": "C64", "title": "Rule enums of the files fit together", "statement": "The generated `Rule` enum of each grammar file has the variants EOI, the rules except trivia in order, and one per imported file that holds the `Rule` of that file; the names differ unless something is called EOI. Each rule's type reports, to a user of the `Rule` of its own file or of any file that imports it directly or indirectly, its own variant wrapped once for each import on the way; `cvt_into` is the only conversion and yields exactly this value. Types are in the module named by the attribute or `rules`; trivia a file does not define is empty. With a configured module name and an imported file the enum refers to a module that does not exist.", "quantifier": "all grammars with imports at any depth", "why_tests_cant": "The depth of imports and the set of rules are unbounded.", "anchors": ["generator/src/common.rs: generate_rule_enum", "generator/src/typed/generator.rs: create_rule", "generator/src/typed/output.rs: Output::collect, types_mod"]}
{"id": "C65", "title": "Every text is accepted or rejected as a grammar", "statement": "Parsing any text as a grammar file ends, within a number of nested steps proportional to its length, without a panic. An accepted text consists of grammar documentation, imports, a rule, further imports and rules and the end of the text, and the pairs inside rules and imports have exactly the shapes that the code reading them relies on.", "quantifier": "all texts", "why_tests_cant": "The tests parse a few dozen texts; the claim is about every text, including nested and malformed ones.", "anchors": ["meta/src/grammar.pest", "meta/src/parser.rs: grammar::Parser, _parse"]}
{"id": "C66", "title": "Pairs lie where they say", "statement": "In an accepted grammar, each pair's text is the part of the input between its start and end offsets (which are character boundaries), the pairs inside a pair lie inside it in order without overlap, and the pairs of the file cover the text up to its end.", "quantifier": "all accepted texts, all rules", "why_tests_cant": "Offsets depend on every character, comment and multi-byte character before them.", "anchors": ["meta/src/grammar.pest", "meta/src/parser.rs: Span, grammar::Parser"]}
{"id": "C67", "title": "Tokens are what they look like", "statement": "In an accepted grammar every name is a letter or underscore followed by letters, digits and underscores; every number is in decimal notation without superfluous zeros; string and character literals contain only plain characters and well-formed escapes; a raw string ends at the first quote that is followed by as many number signs as it starts with; documentation lines contain no line feed; operators and brackets have their fixed texts.", "quantifier": "all accepted texts, all pairs at any depth", "why_tests_cant": "All texts; the code that reads pairs slices and unescapes them without checking again.", "anchors": ["meta/src/grammar.pest", "meta/src/parser.rs: parse_string, parse_raw_string, parse_number, parse_char"]}
{"id": "C68", "title": "Texts are loaded as they mean", "statement": "For files without a bare double quote as character literal, without number signs on raw strings and without arguments in imports, loading the text of a grammar yields exactly its rules, documentation and imports, or the first error in it; it panics only if an imported file has an error or there is no directory to search. An accepted file with an import that has arguments is never loaded: loading panics, unless an error is found before.", "quantifier": "all texts and file systems", "why_tests_cant": "All texts and all sets of imported files.", "anchors": ["meta/src/grammar.pest", "meta/src/parser.rs: parse, _parse, parse_grammar_rule"]}
{"id": "C69", "title": "Accepted parts do not always make an accepted grammar", "statement": "Whether a rule, operator or name is accepted depends on its surroundings: an import followed by a rule whose name starts with `as`, a rule without braces followed by an overridden operator with parameters, a choice operator with trivia after another choice, and a reference to a rule called `_` at the start of an expression are rejected although the parts are accepted elsewhere.", "quantifier": "existence of such texts", "why_tests_cant": "The tests only combine parts that do not interfere.", "anchors": ["meta/src/grammar.pest: import, expression, silent_modifier, infix_operator"]}
{"id": "C70", "title": "What is written is what is loaded", "statement": "A text composed of documentation, imports and rules according to the notation for grammars - any white space, comments and nested comments between the parts, the precedence of operators given by their order, with the few separations that C69 shows to be needed - is accepted, and loading it yields exactly the documentation, the imports and the rules that were written, with the expression trees that their operators and parentheses denote. No text is composed in two ways that mean different things.", "quantifier": "all texts of that notation, and file systems whose imported files are of it", "why_tests_cant": "Infinitely many expressions, layouts and comments; a test shows one layout of one grammar.", "anchors": ["meta/src/grammar.pest", "meta/src/parser.rs: parse, _parse, parse_grammar_rule, PARSER"]}
{"id": "C71", "title": "Displayed expressions can be read back", "statement": "The documentation of a generated type shows the rule's expression. For expressions without insensitive strings, bounded repetitions, a double quote as bound of a range, and operators applied to a predicate, the shown text is in the notation of grammars: loading it as the body of a rule yields the same expression, and different rules or expressions are shown differently. It is not so for the others: insensitive strings, most bounded repetitions and a range bounded by a double quote are shown in a form that cannot be loaded, and `(&x)?` is shown like `&(x?)`, `x{2..3}` like `x[2..3]`.", "quantifier": "all expressions that can be written in a grammar", "why_tests_cant": "Infinitely many expressions; no test displays an expression.", "anchors": ["meta/src/parser.rs: Display for ParseExpr, ParseNode, PathArgs, Range, Trivia", "generator/src/typed/generator.rs: create_rule"]}
{"id": "C72", "title": "Attributes of the derive macro", "statement": "The grammars of a parser are those of its `grammar` and `grammar_inline` attributes, in order; a flag is what its last attribute says, and unset without one; the module of types is named by the last `rules_mod`. The macro panics exactly if one of these attributes is not of the required form or there is no grammar; all other attributes are ignored. Rules are boxed only where needed if and only if `box_all_rules` is set, which is the opposite of its name; the declared attributes `no_getter` and `box_rules_only_if_needed` have no effect, and `box_all_rules` is not declared.", "quantifier": "all lists of attributes", "why_tests_cant": "Infinitely many combinations and orders of attributes; no test sets flags twice.", "anchors": ["generator/src/typed/attr.rs: parse_derive", "generator/src/config.rs: get_string, get_bool", "derive/src/lib.rs"]}
{"id": "C73", "title": "Sources of grammars and the files a parser depends on", "statement": "A grammar file is taken from the directory of the package, or from its `src` directory if there is none. Imports of a grammar file are looked up beside it, and those of an inline grammar in the directory of the package. The expansion is generated from all the grammars together and includes exactly the grammar files and the files they import, directly or through others. A grammar that is missing or cannot be loaded is never expanded; all others are, if code can be generated for them. The claim about imports is false of grammar files whose name does not end in `.pest`.", "quantifier": "all attributes, environments and file systems", "why_tests_cant": "Infinitely many file systems and import graphs; rebuilding after a change of an imported file is not tested.", "anchors": ["generator/src/config.rs: collect_data", "generator/src/typed/generator.rs: derive_typed_parser, generate_typed", "generator/src/common.rs: generate_include"]}
{"id": "C74", "title": "From the written grammar to its parsers", "statement": "What the derive macro expands a package to depends only on what its grammars say, with the grammars they import: not on white space, comments, redundant parentheses, braces, the files and places in which they are written, nor on whether they are in a file or in place. If the names in the written grammar are known and its silent rules are used as inlining requires, the parsers that the macro makes from the text accept, consume, fail and leave the stack as the grammar says.", "quantifier": "all texts of grammars, file systems, attributes, inputs and stacks", "why_tests_cant": "Infinitely many layouts of infinitely many grammars; no test compares the expansions of two layouts.", "anchors": ["generator/src/typed/generator.rs: derive_typed_parser, generate_typed, inline_silent_rules_with_args, process_rules", "meta/src/parser.rs: parse", "meta/src/grammar.pest"]}
{"id": "C75", "title": "Which grammars with silent rules are accepted", "statement": "A grammar whose names are all known, and whose silent rules with parameters are used as inlining requires and do not call each other in a circle, is accepted by the generator exactly when no call of a silent rule is left after the silent rules are put in place from the outside in: a call is left if it stands in an argument of something that is not a silent rule with parameters, or if the silent rule called has none of its parameters in its expression. It is enough that no argument contains such a call and that each silent rule uses a parameter. The same holds for the derive macro from the text of the grammar on.", "quantifier": "all grammars, configurations, layouts and packages", "why_tests_cant": "Acceptance depends on how calls are nested in arguments after any number of substitutions; tests have a few fixed grammars, all of which are accepted.", "anchors": ["generator/src/typed/generator.rs: inline_silent_rules_with_args, generate_typed, process_expr", "generator/src/typed/module.rs: resolve"]}
{"id": "C76", "title": "A syntax tree determines its text, up to trivia", "statement": "The tree of a parsed text, read from left to right, says the whole text, except for what was matched as trivia between two fields of a sequence or two rounds of a repetition and what was matched as a slice of the stack. If an expression skips no trivia, two texts that it parses completely into the same tree (wherever the texts are stored, and comparing the text of spans rather than their offsets) are the same text; the same holds for parts of texts if the stacks have the same content, and for any stacks if no slice is matched. The parsers generated from a grammar none of whose rules asks for trivia have this property. With trivia two different texts can have the same tree.", "quantifier": "all expressions, grammars, texts, positions and stacks", "why_tests_cant": "It relates any two parses of any two texts; a test compares a few trees. A value that keeps too little (say, the index of an alternative without the alternative) would only be seen by a pair of texts that differ just there.", "anchors": ["core/src/typed/template/mod.rs: try_parse_with_partial", "core/src/sequence.rs", "core/src/typed/template/repetition.rs", "core/src/choice.rs", "generator/src/typed/generator.rs: process_expr"]}
{"id": "C77", "title": "Trackers used by any program", "statement": "Whatever a program reports to a new tracker through its public methods (rules tried, in positive or negative contexts, misuses of the stack and of repetitions), in any order and nesting and at any positions of one text, the tracker does not panic, nesting and polarity are put back, and what it returns in the end is the furthest position and exactly the attempts and misuses there, grouped by the nearest enclosing rule that started elsewhere. If positions of other texts are used it panics just if something is reported at one of them.", "quantifier": "all programs, texts and positions", "why_tests_cant": "All nestings and orders of calls; the tests of the repository report one or two attempts, and repetitions are never reported by any parser of the library.", "anchors": ["core/src/typed/tracker.rs: Tracker::{new,record_result_during,record_option_during,record_empty_during,positive_during,negative_during,repeat_too_many_times,out_of_bound,empty_stack,finish}", "core/src/position.rs: Ord, PartialEq"]}
{"id": "C78", "title": "The same text in another place is parsed the same", "statement": "A parser that cannot reach `soi` treats a text the same wherever it stands: after any other text and in any input it succeeds or fails alike, and the tree, the end, the pairs, the stack and the report of attempts are the same but for their place. Whatever the parser, copies of a text at different addresses give the same ends, the same pairs and equal errors. Parsers generated from a grammar in which no rule, trivia or imported rule names `pest::soi` are of the first kind.", "quantifier": "all parsers, texts, texts before, addresses, stacks with the same texts, trackers at the same place; all accepted grammars", "why_tests_cant": "It compares two parses for every text before and every stack; tests of the repository parse each text at offset 0 of one input.", "anchors": ["core/src/typed/traits.rs: TypedNode::{try_parse_with_partial,try_parse_with,try_parse,try_parse_partial}", "core/src/typed/template/mod.rs: SOI, PUSH, PEEK, POP, PEEK_ALL", "core/src/position.rs: at_start, match_string", "core/src/typed/tracker.rs: Tracker", "generator/src/typed/generator.rs: process_expr"]}
{"id": "C79", "title": "Equality and hashes of syntax trees", "statement": "Two trees are equal just if they differ in nothing but their spans and the spans are the same ranges of the same memory. This is an equivalence. In one input equal trees have the same content everywhere, and trees of the same rule with the same stack are equal just if they begin at the same place. Trees of a text and of a copy of it at another address are equal just if there is no span in them, so those of rules never are, though their texts and pairs are the same. Equal trees make the same calls of a hasher; trees of one type that make the same calls, even as a part of longer sequences, are equal. The structs of rules and what contains them have no hash.", "quantifier": "all values, parsers, texts, addresses, offsets and stacks of spans of the input", "why_tests_cant": "It ranges over pairs of trees and over every place in memory; tests compare a few trees made from one literal.", "anchors": ["core/src/span.rs: PartialEq, Hash for Span", "core/src/position.rs: PartialEq, Hash for Position", "core/src/typed/template/mod.rs: derived PartialEq, Hash of the nodes", "core/src/typed/template/repetition.rs: RepMinMax", "core/src/{sequence,choice}.rs: derives", "generator/src/typed/generator.rs: rule structs"]}
{"id": "C80", "title": "State machines", "statement": "The generator of state machines returns nothing for an unknown rule, panics for expressions with other parts than ranges, sequences, choices and repetitions, and otherwise emits functions with different names that only call functions among them. The machine of an expression never panics and returns just if, and with what, a semantics without states says, in which what was read before a failure is not given back. It returns for every input unless an expression that cannot fail is repeated; then it never does. With ASCII ranges, and if every failure after which something else is tried is at the first character, it returns whether the expression matches as a parsing expression, and after a match its index is at the end of the match.", "quantifier": "all maps of rules, expressions, inputs, starting places", "why_tests_cant": "The tests of the repository print the code of two expressions and never run a machine.", "anchors": ["generator/src/state_builder.rs: StateBuilder::{build,gen_expr,next_id}, State::gen", "generator/src/expr.rs: Expr", "generator/src/lib.rs: State"]}
{"id": "C81", "title": "What a rule matches depends only on what it refers to", "statement": "Take two grammars with the same rules, trivia and imports under some names, where the rules with these names refer, by paths and by the trivia they ask for, only to their parameters and to these names. Then the parsers generated for such a rule from both grammars, in whatever programs, have the same result on every text with every stack: the same end and the same texts on the stack, or both fail; so they accept the same texts. In particular the order of the rules and imports does not matter, and rules with names that a grammar does not mention can be added to it.", "quantifier": "all grammars, sets of names, rules without parameters, texts, places, stacks", "why_tests_cant": "Each test has one grammar; grammars are never compared with changed ones.", "anchors": ["generator/src/typed/generator.rs: process_rules, process_expr, generate_typed", "generator/src/typed/module.rs: ModuleNode::resolve"]}
{"id": "C82", "title": "Rewriting grammars", "statement": "Expressions of a grammar can be replaced by others that match the same without changing what any rule matches, on any text and with any stack: e? by e | \"\" or e{0..1}, &e by !!e, !&e and !!!e by !e, e | e and &e - e by e, e* by e+ | \"\", bounded repetitions by unfolding them, (a b) c by a (b c) with any trivia, nested choices, adjacent strings by one, a choice of a string and a longer one that begins with it by the string, adjacent ranges by one, and alternatives with a common beginning by the beginning followed by a choice. This holds inside of expressions, in arguments of calls and in the rules for trivia, if what is repeated does not lose or gain a separator; the generated parsers of both grammars do the same and accept the same texts. Alternatives cannot be swapped, what follows a choice cannot be moved into it, and e~ repeated differs from e repeated although e~ and e match the same.", "quantifier": "all grammars, all replacements by these laws, all texts and stacks", "why_tests_cant": "The tests run single grammars; equivalence is about all pairs of grammars and all inputs.", "anchors": ["generator/src/typed/generator.rs: process_expr", "core/src/sequence.rs, core/src/choice.rs, core/src/typed/template/repetition.rs, core/src/typed/template/mod.rs: try_parse_with_partial"]}
{"id": "C83", "title": "Names of tokens in errors about grammars", "statement": "When a grammar file is rejected, rules of the grammar of grammars that are shown in backquotes are shown as they are written: in every accepted file, whatever was matched by such a rule is the text between the backquotes. This holds but for three rules: `-` is shown as `&`, `~|` and `^|` as `|`, and a string that ignores the case as `i`. Different rules are shown differently, but for `-` and the positive predicate, which both are shown as `&`.", "quantifier": "all rules of the grammar of grammars, all accepted grammar files", "why_tests_cant": "No test looks at the names; that they are right is about every place in every file where the rule can match.", "anchors": ["meta/src/error.rs: rename_meta_rule", "meta/src/grammar.pest", "generator/src/typed/generator.rs: derive_typed_parser"]}
{"id": "C84", "title": "Names that no Rust identifier can have", "statement": "A grammar that names a rule, a parameter or an imported file `self`, `Self`, `super`, `crate` or `_` is never expanded, whatever else it contains and whatever the options are; the same holds inside imported files. Other keywords of Rust can be names. Silent rules with parameters of the main file do not count, since they are put in place first.", "quantifier": "all grammars, all options, all packages", "why_tests_cant": "No test has such a name; that one anywhere in any imported file stops the generator is about all grammars.", "anchors": ["generator/src/typed/generator.rs: process_single_rule, process_expr", "generator/src/common.rs: generate_rule_enum", "generator/src/typed/getter.rs: collect"]}
{"id": "C85", "title": "The pairs of a parse are the tree that the grammar describes", "statement": "If the generated parser of a rule returns a value, the pairs of the value are exactly the tree that the grammar prescribes for the match: one pair for the rule, inside it one for each rule that its body used, in order and with the offsets between which it matched, and so on. What predicates and trivia try never shows, and a silent rule that is not inlined hides all that is inside it. Every match has such a tree, in a grammar without dangling names exactly one, and the parser returns it given enough steps; every pair in it is a match of its (not silent) rule in the same text with the pair's children as its tree. The silent rules with parameters of the main grammar are replaced by their bodies beforehand; the pairs are then the tree of the grammar as it is written in which exactly these rules hide nothing of what is inside (that they hide it, as other silent rules do, is false).", "quantifier": "all grammars that are generated, their imported grammars, all rules without parameters, all texts, all positions and stacks", "why_tests_cant": "Tests print the pairs of a few texts; that they are the tree of the grammar for every grammar and text is a claim about the generator and the runtime together.", "anchors": ["core/src/typed/traits.rs: PairContainer, RuleStruct::as_pair_tree", "generator/src/typed/generator.rs: create_rule, inline_silent_rules_with_args", "core/src/sequence.rs", "core/src/typed/template/repetition.rs"]}
{"id": "C86", "title": "Error reports tell what the grammar tried", "statement": "If the generated parser of a rule rejects a text, its report is about what the grammar tried on this text: the reported offset is the furthest one at which a rule inside which no other rule was tried, or an invalid use of the stack, occurred; the report lists exactly the rules that failed there where they were wanted, those that matched there where they were not, and the invalid uses, each under the nearest enclosing rule that began elsewhere. If the rule matches but something follows the match, the end of the text is expected where the match ends, along with what the grammar tried there, unless it tried something further on. Calls of silent rules with parameters of the grammar itself count as if the bodies of the rules were written instead; such rules are neither listed nor listed under. What the grammar tries belongs to what it does with a text, is determined by it, and is what the parser reports given enough steps.", "quantifier": "all grammars that are generated, their imported grammars, all rules without parameters, all texts", "why_tests_cant": "Tests look at the messages of a few texts; that a report is right in terms of the grammar is a claim about every grammar and text, and about the generator and the runtime together.", "anchors": ["core/src/typed/tracker.rs: Tracker", "core/src/typed/traits.rs: full_rule_struct, TypedNode::try_parse", "generator/src/typed/generator.rs: process_single_rule", "core/src/typed/template/mod.rs: Positive, Negative, PEEK, POP, DROP", "core/src/choice.rs", "core/src/sequence.rs"]}
{"id": "C87", "title": "Trees and reports of a package", "statement": "Let a package derive a parser from a grammar, in files or in place, in whatever layout. If `try_parse` of a rule of one of its files returns a tree for a text, then the grammar as it is written matches all of the text, and the pairs of the tree are the rules that the grammar uses, where it uses them, without silent rules and what is inside them. If it returns an error, then the grammar does not match all of the text, and the error's report tells what the grammar tried furthest on. It never panics, and if the grammar matches the text, or does not, then `try_parse` says so given enough steps.", "quantifier": "all packages whose grammars are accepted, all rules without parameters of the grammars and the files that they import, all texts", "why_tests_cant": "It is about the macro and the runtime as a whole: reading grammars, loading files, inlining, generating, parsing, and reporting, for all grammars and texts at once.", "anchors": ["derive/src/lib.rs", "generator/src/typed/generator.rs: generate_typed", "meta/src/parser.rs", "core/src/typed/traits.rs: TypedNode::try_parse", "core/src/typed/tracker.rs", "core/src/token/mod.rs"]}
{"id": "C88", "title": "Laws keep the trees", "statement": "Replace parts of the rules of a grammar by means of the laws of C82, without changing which rules are silent. If a rule parses a text, so does the rewritten rule, and the two results have the same pairs: the same nesting, the same offsets, and rules of the same names. The reports of errors need not be the same: `&a` and `!!a` match the same, but only the first reports that `a` was expected.", "quantifier": "all accepted grammars, all ways of replacing parts of their rules by the laws in either direction and any number of times, also in arguments and in rules for trivia, all rules without parameters, all texts", "why_tests_cant": "There are infinitely many grammars, ways of rewriting them, and texts.", "anchors": ["generator/src/typed/generator.rs", "core/src/token/mod.rs", "core/src/typed/traits.rs: for_self_or_for_each_child_pair", "core/src/typed/template/mod.rs", "core/src/typed/tracker.rs: negative_during"]}
{"id": "C89", "title": "Packages decide every text unless left recursive", "statement": "Let a package derive a parser, and take a rule without parameters. If the rule is not left recursive, its parser returns for every text, at every place and with every stack: it returns the tree that the grammar as written describes if the grammar matches all of the text, and otherwise a report of what the grammar tried. If the rule begins with itself, directly or through other rules, parameters or parts that may be empty, the package is still accepted, but the parser never returns, for no text.", "quantifier": "all packages whose grammars are accepted, also with silent rules that are inlined, all rules without parameters, all texts", "why_tests_cant": "A test cannot tell a parser that does not return from one that takes long, and there are infinitely many grammars and texts.", "anchors": ["derive/src/lib.rs", "generator/src/typed/generator.rs", "generator/src/typed/module.rs", "core/src/typed/traits.rs", "core/src/typed/template/mod.rs"]}
{"id": "C90", "title": "Trees and reports depend only on what a rule refers to", "statement": "Take two grammars that have the same rules, trivia and imports for some set of names, where the rules with these names refer to such names only. For a rule with such a name the parsers of both programs return for the same texts. Both return a tree or both return a report. The trees have the same rules and offsets; the reports are about the same place and list the same rules, expected or not, and the same misuses of the stack, each under the same enclosing rule. So neither reordering the rules and imports of a grammar nor adding rules that it does not mention changes a tree or a report of its rules.", "quantifier": "all pairs of accepted grammars, also with silent rules that are inlined, all sets of names, all rules without parameters, all texts", "why_tests_cant": "A test compares two programs on some texts; that rules which are not referred to never influence a tree or a report is a claim about all grammars and all texts.", "anchors": ["generator/src/typed/generator.rs", "generator/src/typed/module.rs", "core/src/typed/traits.rs", "core/src/typed/tracker.rs"]}
{"id": "C91", "title": "How many rules are tried", "statement": "For every program there is a constant c so that a parse of a text of n bytes tries at most c * (n + 1) different rules at different offsets. But the same rule may be tried again and again at the same offset: for the grammar e = \"(\" - e - \")\" | \"(\" - e - \"]\" | \"1\" and the text of n opening brackets the parser makes 2^n attempts before it reports an error, so that no polynomial in the length of the text bounds the number of attempts.", "quantifier": "all accepted grammars, rules without parameters and texts for the first part; all n, and all polynomials, for the second", "why_tests_cant": "A test measures some texts; growth is a claim about all lengths, and the linear bound about all grammars.", "anchors": ["core/src/typed/template/mod.rs", "core/src/choice.rs", "core/src/typed/traits.rs", "core/src/typed/tracker.rs"]}
{"id": "C92", "title": "Skipping with memchr is skipping without it", "statement": "Compiled with the feature memchr, skipping until one of some strings returns without a panic at every character boundary of every text, whatever the strings are. If none of the strings is empty the outcome is the one without the feature: it stops at the first place where one of them begins, else at the end of the text with false. With an empty string among them the two differ: an empty third string is overlooked, and an empty single string is found at the end of the text only with the feature.", "quantifier": "all texts, character boundaries and lists of strings", "why_tests_cant": "No manifest declares the feature, so no test compiles this code; and that a byte found by memchr is never inside a character is a claim about all texts.", "anchors": ["core/src/position.rs"]}
{"id": "C93", "title": "The names in a grammar do not matter", "statement": "Renaming the rules, the parameters and the imports of a grammar file consistently, by a renaming that can be undone and that leaves pest and the two names of the trivia alone, changes nothing but names: if both grammars are generated, the parser of a rule and that of the renamed rule match the same part of every text and leave the same stack, and both accept the same texts. Exchanging any two names is such a renaming, so is giving a rule or a parameter a name that is not used elsewhere.", "quantifier": "all accepted grammars with any imports and parameters, all renamings, rules without parameters, texts and stacks", "why_tests_cant": "Tests use the names that they use; that no name has a meaning of its own, whatever its place in the order of rules and whichever names are hidden by parameters, is a claim about all names.", "anchors": ["generator/src/typed/generator.rs", "generator/src/typed/module.rs", "core/src/typed/traits.rs"]}
{"id": "C94", "title": "Renaming a grammar changes trees and error reports in names only", "statement": "If a grammar file is renamed consistently and both grammars are generated, then for every text the parser of a rule and that of the renamed rule return the same: either both a tree of pairs, with the same shape and positions and each rule of the file replaced by the renamed one, or both a report, at the same furthest position, that names the same rules, renamed, under the same callers. Rules of imported files keep their names. One of the two parsers returns exactly if the other does.", "quantifier": "all accepted grammars with any imports and parameters, all renamings that can be undone, rules without parameters, all texts", "why_tests_cant": "A test compares a tree with one written by hand for one choice of names; that the order and sharing of names never leaks into a tree or a report is a claim about pairs of grammars.", "anchors": ["generator/src/typed/generator.rs", "generator/src/typed/module.rs", "core/src/typed/traits.rs", "core/src/typed/tracker.rs"]}
{"id": "C95", "title": "Laws that keep the error reports", "statement": "Rewriting a grammar by the laws for options, repetitions and their bounds, associativity of sequences and choices, empty strings, joined strings and ranges, separators and triple negation, in any places, directions and numbers, changes neither the tree nor the error report of any text: the parsers of a rule and of the rewritten rule return trees of the same shape, or reports about the same furthest position that list the rules of the same names under rules of the same names and the same misuses of the stack.", "quantifier": "all accepted grammars with any imports and parameters, all rewritings by these laws, rules without parameters, all texts", "why_tests_cant": "Tests compare reports of single grammars; that a rewriting does not move or change a report is about all pairs of grammars that the laws relate, and all texts.", "anchors": ["generator/src/typed/generator.rs", "core/src/typed/traits.rs", "core/src/typed/tracker.rs", "core/src/typed/template/mod.rs"]}
