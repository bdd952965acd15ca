(** meta/src/error.rs: how the rules of the grammar of grammars are called in error messages. *)
From Coq Require Import String List NArith.
From Verif Require Import Model_Text Model_Meta.
Import ListNotations.
Open Scope list_scope.

(** The derived [Debug] of [Rule] that pest2 generates (meta/src/parser.rs L21-L29): the name of the variant. Simplification: the silent rules, which never
    make a pair, are not variants of [grule]. *)
Definition debug_rule (r : grule) : text :=
  match r with
  | R_import => lit "import"
  | R_grammar_rule => lit "grammar_rule"
  | R_assignment_operator => lit "assignment_operator"
  | R_trivia_opening_brace => lit "trivia_opening_brace"
  | R_opening_brace => lit "opening_brace"
  | R_closing_brace => lit "closing_brace"
  | R_opening_paren => lit "opening_paren"
  | R_closing_paren => lit "closing_paren"
  | R_opening_brack => lit "opening_brack"
  | R_closing_brack => lit "closing_brack"
  | R_arguments => lit "arguments"
  | R_silent_modifier => lit "silent_modifier"
  | R_expression => lit "expression"
  | R_term => lit "term"
  | R_overridable_operator => lit "overridable_operator"
  | R_positive_predicate_operator => lit "positive_predicate_operator"
  | R_negative_predicate_operator => lit "negative_predicate_operator"
  | R_sequence_operator => lit "sequence_operator"
  | R_choice_operator => lit "choice_operator"
  | R_optional_operator => lit "optional_operator"
  | R_repeat_operator => lit "repeat_operator"
  | R_repeat_once_operator => lit "repeat_once_operator"
  | R_tilde_operator => lit "tilde_operator"
  | R_caret_operator => lit "caret_operator"
  | R_range_operator => lit "range_operator"
  | R_bounded_repeat => lit "bounded_repeat"
  | R_number => lit "number"
  | R_integer => lit "integer"
  | R_comma => lit "comma"
  | R_path => lit "path"
  | R_call => lit "call"
  | R_slice => lit "slice"
  | R_ancestry_operator => lit "ancestry_operator"
  | R_identifier => lit "identifier"
  | R_raw_string => lit "raw_string"
  | R_inner_raw_str => lit "inner_raw_str"
  | R_string => lit "string"
  | R_insensitive_string => lit "insensitive_string"
  | R_range => lit "range"
  | R_character => lit "character"
  | R_inner_str => lit "inner_str"
  | R_inner_chr => lit "inner_chr"
  | R_escape => lit "escape"
  | R_code => lit "code"
  | R_unicode => lit "unicode"
  | R_hex_digit => lit "hex_digit"
  | R_quote => lit "quote"
  | R_single_quote => lit "single_quote"
  | R_pound => lit "pound"
  | R_doc_content => lit "doc_content"
  | R_rule_doc => lit "rule_doc"
  | R_grammar_doc => lit "grammar_doc"
  | R_eoi => lit "EOI"
  end.

(** [rename_meta_rule] (meta/src/error.rs L6-L31). *)
Definition rename_meta_rule (r : grule) : text :=
  match r with
  | R_grammar_rule => lit "rule"
  | R_assignment_operator => lit "`=`"
  | R_silent_modifier => lit "`_`"
  | R_opening_brace => lit "`{`"
  | R_closing_brace => lit "`}`"
  | R_opening_brack => lit "`[`"
  | R_closing_brack => lit "`]`"
  | R_opening_paren => lit "`(`"
  | R_positive_predicate_operator => lit "`&`"
  | R_negative_predicate_operator => lit "`!`"
  | R_sequence_operator => lit "`&`"
  | R_choice_operator => lit "`|`"
  | R_optional_operator => lit "`?`"
  | R_repeat_operator => lit "`*`"
  | R_repeat_once_operator => lit "`+`"
  | R_comma => lit "`,`"
  | R_closing_paren => lit "`)`"
  | R_quote => lit "`""`"
  | R_insensitive_string => lit "`i`"
  | R_range_operator => lit "`..`"
  | R_single_quote => lit "`'`"
  | other_rule => debug_rule other_rule
  end.
