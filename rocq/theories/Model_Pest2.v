(** Model of the parser of grammar files: the rules of meta/src/grammar.pest, from which pest2 (an
    external crate) derives [grammar::Parser] (meta/src/parser.rs L25-31), and pest2's semantics of such
    rules. Simplification: pest2's errors are not modelled, only whether there is one. *)
From Coq Require Import String List NArith Arith Bool.
From Verif Require Import Model_Text Model_Message Model_Meta.
Import ListNotations.
Open Scope list_scope.

(** The silent rules of meta/src/grammar.pest (marked [_]): L10, L44, L45, L47, L48, L49, L50, L84, L85,
    L106, L107, L109, L110. *)
Inductive srule :=
| S_grammar_rules | S_node | S_terminal | S_overridable_operator | S_prefix_operator | S_infix_operator
| S_postfix_operator | S_alpha | S_alpha_num | S_newline | S_whitespace | S_block_comment | S_comment.
(** All rules of meta/src/grammar.pest L10-L113: those that make pairs and the silent ones. *)
Inductive qrule := Loud (r : grule) | Silent (s : srule).

(** The expressions of meta/src/grammar.pest L10-L113. [Q_soi] and [Q_any] are the built-in [SOI] (L11)
    and [ANY] (L88); [Q_end] is the test for the end of input in the built-in rule [EOI] (L11);
    [Q_push], [Q_peek], [Q_pop] are [PUSH(...)] (L87), [PEEK] (L88), [POP] (L87). [Q_more] does not occur
    in grammars: it is the part of a repetition after the first round. *)
Inductive qexpr :=
| Q_str (s : text) | Q_chars (a b : char) | Q_any | Q_soi | Q_end | Q_rule (r : qrule)
| Q_seq (a b : qexpr) | Q_choice (a b : qexpr) | Q_opt (a : qexpr) | Q_rep (a : qexpr) | Q_more (a : qexpr)
| Q_not (a : qexpr) | Q_and (a : qexpr) | Q_push (a : qexpr) | Q_peek | Q_pop.

(** The kinds of rules in meta/src/grammar.pest: plain, [_] (e.g. L10), [@] (e.g. L37), [$] (e.g. L87). *)
Inductive qkind := K_plain | K_silent | K_atomic | K_compound.

(** Whether white space is skipped and whether rules make pairs; rules marked [@] and [$] change it
    (e.g. meta/src/grammar.pest L37, L87). *)
Inductive atomicity := NonAtomic | Atomic | CompoundAtomic.

(** The state of a pest2 parser of meta/src/grammar.pest: position, remaining input and stack (L87). *)
Record qstate := mkQ { q_pos : nat; q_rest : text; q_stack : list text }.

Local Notation "a ;; b" := (Q_seq a b) (at level 60, right associativity).
Local Notation "a // b" := (Q_choice a b) (at level 61, right associativity).
Local Notation "$ r" := (Q_rule (Loud r)) (at level 1, format "$ r").
Local Notation "# s" := (Q_rule (Silent s)) (at level 1, format "# s").
Local Notation "! s" := (Q_str (lit s)) (at level 1, s at level 0, format "! s").

(** meta/src/grammar.pest: the kind of each rule, at the line of its definition (see [loud_body]). [EOI]
    is a plain rule. *)
Definition loud_kind (r : grule) : qkind :=
  match r with
  | R_silent_modifier | R_number | R_integer | R_identifier | R_inner_str | R_inner_chr | R_escape | R_code
  | R_unicode | R_hex_digit => K_atomic
  | R_raw_string | R_string | R_insensitive_string | R_character | R_doc_content | R_rule_doc
  | R_grammar_doc => K_compound
  | _ => K_plain
  end.

(** meta/src/grammar.pest, the definitions of the rules that make pairs: L14-L43, L59-L83, L87-L104,
    L111-L113; [R_overridable_operator] (L47) is silent and never used as such. The bounded repetitions
    of L98 and L99 are written out as pest2 does. *)
Definition loud_body (r : grule) : qexpr :=
  match r with
  | R_import =>
      !"use " ;; $R_path ;; Q_opt (!"in" ;; $R_string) ;; Q_opt (!"as" ;; $R_identifier)
  | R_grammar_rule =>
      Q_rep $R_rule_doc ;; ($R_identifier // #S_overridable_operator) ;; Q_opt $R_arguments ;;
      $R_assignment_operator ;; Q_opt $R_silent_modifier ;;
      ($R_opening_brace ;; $R_expression ;; $R_closing_brace // $R_expression)
  | R_assignment_operator => !"="
  | R_trivia_opening_brace => !"~{"
  | R_opening_brace => !"{"
  | R_closing_brace => !"}"
  | R_opening_paren => !"("
  | R_closing_paren => !")"
  | R_opening_brack => !"["
  | R_closing_brack => !"]"
  | R_arguments =>
      $R_opening_paren ;; Q_opt ($R_identifier ;; Q_rep ($R_comma ;; $R_identifier) ;; Q_opt $R_comma) ;;
      $R_closing_paren
  | R_silent_modifier => !"_" ;; Q_not $R_identifier
  | R_expression =>
      Q_opt (Q_opt $R_choice_operator ;; $R_term ;; $R_choice_operator) ;;
      $R_term ;; Q_rep (#S_infix_operator ;; $R_term)
  | R_term => Q_rep #S_prefix_operator ;; #S_node ;; Q_rep #S_postfix_operator
  | R_overridable_operator => #S_overridable_operator
  | R_positive_predicate_operator => !"&"
  | R_negative_predicate_operator => !"!"
  | R_sequence_operator => !"-"
  | R_choice_operator => Q_opt #S_overridable_operator ;; !"|"
  | R_optional_operator => !"?"
  | R_repeat_operator => !"*"
  | R_repeat_once_operator => !"+"
  | R_tilde_operator => !"~"
  | R_caret_operator => !"^"
  | R_range_operator => !".."
  | R_bounded_repeat =>
      $R_opening_brace ;; ((Q_opt $R_number ;; $R_range_operator ;; Q_opt $R_number) // $R_number) ;;
      $R_closing_brace
  | R_number => !"0" // Q_chars 49%N 57%N ;; Q_rep (Q_chars 48%N 57%N)
  | R_integer => Q_opt (!"+" // !"-") ;; $R_number
  | R_comma => !","
  | R_path =>
      $R_identifier ;; Q_rep ($R_ancestry_operator ;; $R_identifier) ;; Q_opt ($R_call // $R_slice)
  | R_call =>
      $R_opening_paren ;; Q_opt ($R_expression ;; Q_rep ($R_comma ;; $R_expression) ;; Q_opt $R_comma) ;;
      $R_closing_paren
  | R_slice =>
      $R_opening_brack ;; Q_opt $R_integer ;; $R_range_operator ;; Q_opt $R_integer ;; $R_closing_brack
  | R_ancestry_operator => !"::"
  | R_identifier => (!"_" // #S_alpha) ;; Q_rep (!"_" // #S_alpha_num)
  | R_raw_string =>
      !"r" ;; Q_push (Q_rep $R_pound) ;; $R_quote ;; $R_inner_raw_str ;; $R_quote ;; Q_pop
  | R_inner_raw_str => Q_rep (Q_not (Q_str [34%N] ;; Q_peek) ;; Q_any)
  | R_string => $R_quote ;; $R_inner_str ;; $R_quote
  | R_insensitive_string => !"i" ;; $R_string
  | R_range => $R_character ;; $R_range_operator ;; $R_character
  | R_character => $R_single_quote ;; $R_inner_chr ;; $R_single_quote
  | R_inner_str =>
      Q_rep (Q_not (Q_str [34%N] // Q_str [92%N]) ;; Q_any) ;; Q_opt ($R_escape ;; $R_inner_str)
  | R_inner_chr => $R_escape // Q_any
  | R_escape =>
      Q_str [92%N] ;;
      (Q_str [34%N] // Q_str [92%N] // !"r" // !"n" // !"t" // !"0" // !"'" // $R_code // $R_unicode)
  | R_code => !"x" ;; $R_hex_digit ;; $R_hex_digit
  | R_unicode =>
      !"u" ;; $R_opening_brace ;;
      ($R_hex_digit ;; Q_opt $R_hex_digit ;; Q_opt $R_hex_digit ;; Q_opt $R_hex_digit ;; Q_opt $R_hex_digit ;;
       Q_opt $R_hex_digit) ;;
      $R_closing_brace
  | R_hex_digit => Q_chars 48%N 57%N // Q_chars 97%N 102%N // Q_chars 65%N 70%N
  | R_quote => Q_str [34%N]
  | R_single_quote => !"'"
  | R_pound => !"#"
  | R_doc_content => Q_rep (Q_not #S_newline ;; Q_any)
  | R_rule_doc => !"///" ;; Q_opt !" " ;; $R_doc_content
  | R_grammar_doc => !"//!" ;; Q_opt !" " ;; $R_doc_content
  | R_eoi => Q_end
  end.

(** meta/src/grammar.pest, the definitions of the silent rules: L10, L44-L57, L84-L85, L106-L110. *)
Definition silent_body (s : srule) : qexpr :=
  match s with
  | S_grammar_rules =>
      Q_soi ;; Q_rep $R_grammar_doc ;; Q_rep $R_import ;; $R_grammar_rule ;;
      Q_rep ($R_import // $R_grammar_rule) ;; $R_eoi
  | S_node => $R_opening_paren ;; $R_expression ;; $R_closing_paren // #S_terminal
  | S_terminal => $R_string // $R_raw_string // $R_insensitive_string // $R_path // $R_range
  | S_overridable_operator => $R_tilde_operator // $R_caret_operator
  | S_prefix_operator => $R_positive_predicate_operator // $R_negative_predicate_operator
  | S_infix_operator =>
      $R_sequence_operator // $R_tilde_operator // $R_caret_operator // $R_choice_operator
  | S_postfix_operator =>
      Q_opt #S_overridable_operator ;;
      ($R_optional_operator // $R_repeat_operator // $R_repeat_once_operator // $R_bounded_repeat)
  | S_alpha => Q_chars 97%N 122%N // Q_chars 65%N 90%N
  | S_alpha_num => #S_alpha // Q_chars 48%N 57%N
  | S_newline => Q_str [10%N] // Q_str [13; 10]%N
  | S_whitespace => !" " // Q_str [9%N] // #S_newline
  | S_block_comment => !"/*" ;; Q_rep (#S_block_comment // Q_not !"*/" ;; Q_any) ;; !"*/"
  | S_comment =>
      #S_block_comment //
      (!"//" ;; Q_not (!"/" // !"!") ;; Q_rep (Q_not #S_newline ;; Q_any)) ;; Q_and (#S_newline // $R_eoi)
  end.

(** What pest2 skips between the parts of sequences and repetitions in plain rules: the rules
    [WHITESPACE] and [COMMENT] (meta/src/grammar.pest L107, L110). *)
Definition skip_body : qexpr :=
  Q_rep #S_whitespace ;; Q_rep (#S_comment ;; Q_rep #S_whitespace).

(** The remainder of a text after a prefix ([match_string] of pest2, for the literals in
    meta/src/grammar.pest). *)
Fixpoint strip (t s : text) : option text :=
  match t, s with
  | [], _ => Some s
  | a :: t', c :: s' => if (a =? c)%N then strip t' s' else None
  | _ :: _, [] => None
  end.
(** Matching a text at the position (literals, [PEEK] and [POP] in meta/src/grammar.pest). *)
Definition eat (t : text) (s : qstate) : option qstate :=
  match strip t (q_rest s) with
  | Some r => Some (mkQ (q_pos s + blen t) r (q_stack s))
  | None => None
  end.
(** Matching one character that satisfies a test ([ANY] and ranges in meta/src/grammar.pest). *)
Definition eat_char (test : char -> bool) (s : qstate) : option qstate :=
  match q_rest s with
  | c :: r => if test c then Some (mkQ (q_pos s + len_utf8 c) r (q_stack s)) else None
  | [] => None
  end.
(** The text between two states ([as_str] of pairs and the texts pushed by [PUSH],
    meta/src/grammar.pest L87). *)
Definition taken (s s' : qstate) : text := firstn (length (q_rest s) - length (q_rest s')) (q_rest s).

(** The result of matching: none, or the new state with the pairs made (pest2's [ParseResult]; used
    through meta/src/parser.rs L323). *)
Definition qresult := outcome (option (qstate * list ppair)).
(** A match without pairs. *)
Definition plain_match (o : option qstate) : qresult :=
  Ret (match o with Some s => Some (s, []) | None => None end).
(** Matching one thing after another. *)
Definition qthen (o : qresult) (f : qstate -> list ppair -> qresult) : qresult :=
  let! r := o in match r with Some (s, ps) => f s ps | None => Ret None end.
(** The same, with the pairs of both. *)
Definition qboth (ps : list ppair) (o : qresult) : qresult :=
  qthen o (fun s qs => Ret (Some (s, ps ++ qs))).

(** Whether white space is skipped between the parts of an expression; see [qmatch]. *)
Definition skips (a : atomicity) : bool := match a with NonAtomic => true | _ => false end.
(** Whether rules make pairs. *)
Definition pairing (a : atomicity) : bool := match a with Atomic => false | _ => true end.

(** pest2's semantics of the expressions in meta/src/grammar.pest, as it is used through
    meta/src/parser.rs L323. On failure, position, pairs and stack are as before (pest2 restores the
    stack where that matters); between the parts of sequences and repetitions white space is skipped
    unless a rule marked [@] or [$] is being matched; a rule makes a pair unless it is silent or a rule
    marked [@] is being matched; look-ahead makes no pairs and consumes nothing. [PEEK] and [POP] panic
    on an empty stack. *)
Fixpoint qmatch (fuel : nat) (a : atomicity) (e : qexpr) (s : qstate) : qresult :=
  match fuel with
  | 0 => OutOfFuel
  | S k =>
      let skip s := if skips a then qmatch k Atomic skip_body s else Ret (Some (s, [])) in
      match e with
      | Q_str t => plain_match (eat t s)
      | Q_chars x y => plain_match (eat_char (fun c => (x <=? c) && (c <=? y))%N s)
      | Q_any => plain_match (eat_char (fun _ => true) s)
      | Q_soi => Ret (if q_pos s =? 0 then Some (s, []) else None)
      | Q_end => Ret (match q_rest s with [] => Some (s, []) | _ => None end)
      | Q_rule (Silent r) =>
          qmatch k (match r with S_whitespace | S_comment => Atomic | _ => a end) (silent_body r) s
      | Q_rule (Loud r) =>
          let inside := match loud_kind r with K_atomic => Atomic | K_compound => CompoundAtomic | _ => a end in
          let makes := match loud_kind r with K_silent => false | K_compound => true | _ => pairing a end in
          qthen (qmatch k inside (loud_body r) s) (fun s' ps =>
            Ret (Some (s', if makes then [mkPPair r (taken s s') (q_pos s) (q_pos s') ps] else ps)))
      | Q_seq x y =>
          qthen (qmatch k a x s) (fun s1 ps =>
          qthen (skip s1) (fun s2 _ => qboth ps (qmatch k a y s2)))
      | Q_choice x y =>
          let! r := qmatch k a x s in
          match r with Some _ => Ret r | None => qmatch k a y s end
      | Q_opt x =>
          let! r := qmatch k a x s in Ret (match r with Some _ => r | None => Some (s, []) end)
      | Q_rep x =>
          let! r := qmatch k a x s in
          match r with
          | Some (s', ps) => qboth ps (qmatch k a (Q_more x) s')
          | None => Ret (Some (s, []))
          end
      | Q_more x =>
          let! r := qthen (skip s) (fun s1 _ => qmatch k a x s1) in
          match r with
          | Some (s', ps) => qboth ps (qmatch k a (Q_more x) s')
          | None => Ret (Some (s, []))
          end
      | Q_not x => let! r := qmatch k a x s in Ret (match r with Some _ => None | None => Some (s, []) end)
      | Q_and x => let! r := qmatch k a x s in Ret (match r with Some _ => Some (s, []) | None => None end)
      | Q_push x =>
          qthen (qmatch k a x s) (fun s' ps =>
            Ret (Some (mkQ (q_pos s') (q_rest s') (taken s s' :: q_stack s'), ps)))
      | Q_peek =>
          match q_stack s with
          | t :: _ => plain_match (eat t s)
          | [] => Panic
          end
      | Q_pop =>
          match q_stack s with
          | t :: rest =>
              plain_match (match eat t s with Some s' => Some (mkQ (q_pos s') (q_rest s') rest) | None => None end)
          | [] => Panic
          end
      end
  end.

(** [grammar::Parser::parse(rule, input)] (meta/src/parser.rs L323 and the tests at L1006-L1370). *)
Definition qparse (fuel : nat) (r : qrule) (input : text) : qresult :=
  qmatch fuel NonAtomic (Q_rule r) (mkQ 0 input []).

(** The fuel that is enough for a text (see [C65_terminates]): the number of steps that can be nested
    without consuming a character, for each character and for the end. *)
Definition nesting : nat := 30.
Definition enough (input : text) : nat := S (length input) * nesting.
Section Parse.
(** The error that pest2 reports for a text that it rejects (meta/src/parser.rs L323). *)
Variable report : text -> N.
(** [grammar::Parser::parse(Rule::grammar_rules, input)] (meta/src/parser.rs L323): pairs, or an error. *)
Definition parse_text (input : text) : list ppair + N :=
  match qparse (enough input) (Silent S_grammar_rules) input with
  | Ret (Some (_, pairs)) => inl pairs
  | _ => inr (report input)
  end.
End Parse.
