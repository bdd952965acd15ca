(** What the parser of grammar files produces: the pairs that files consist of, and where they lie in
    the text. *)
From Coq Require Import String List NArith ZArith Arith Bool.
From Verif Require Import Model_Text Model_Meta Spec_Unescape Spec_Message Spec_Grammar Spec_Import.
Import ListNotations.
Open Scope list_scope.

(** An import whose path may have arguments (see [import_syntax] for those without). *)
Inductive any_import : ppair -> Prop :=
| Any_import s a b sp ap bp l names args fs file als alias :
    segments l names -> Forall plain_name names -> syn_args args -> opt_file fs file -> opt_alias als alias ->
    any_import (mkPPair R_import s a b (mkPPair R_path sp ap bp (l ++ args) :: fs ++ als)).
(** A raw string: the letter r, number signs, a quote, the content, a quote and as many number signs. The
    content ends at the first place where this is possible. *)
Inductive raw_literal : ppair -> Prop :=
| Raw_literal a b signs pounds q1 content q2 :
    Forall (fun c => c = 35%N) signs -> length pounds = length signs ->
    (forall v w r, pp_str content = v ++ w -> w <> [] -> w ++ 34%N :: signs <> 34%N :: signs ++ r) ->
    raw_literal (mkPPair R_raw_string (114%N :: signs ++ 34%N :: pp_str content ++ 34%N :: signs) a b
      (pounds ++ [q1; content; q2])).
(** The pairs that a grammar file consists of: rules, imports, documentation and the end. *)
Inductive any_item : ppair -> Prop :=
| Any_rule p ds name ns silent e : rule_syntax p ds name ns silent e -> syn_expression e -> any_item p
| Any_use p : any_import p -> any_item p
| Any_doc p d : doc_pair R_grammar_doc (lit "//!") p d -> any_item p
| Any_eoi p : pp_rule p = R_eoi -> any_item p.

(** A file: documentation, imports, a rule, further imports and rules, the end of the text. *)
Inductive file_pairs (input : text) : list ppair -> Prop :=
| File_pairs docs uses r more s l :
    Forall (fun p => pp_rule p = R_grammar_doc) docs -> Forall (fun p => pp_rule p = R_import) uses ->
    pp_rule r = R_grammar_rule -> Forall (fun p => pp_rule p = R_import \/ pp_rule p = R_grammar_rule) more ->
    file_pairs input (docs ++ uses ++ r :: more ++ [mkPPair R_eoi s (blen input) (blen input) l]).

(** The texts of names, numbers, literals, comments and operators. *)
Definition identifier_text (u : text) : Prop :=
  exists c r, u = c :: r /\ (c = 95 \/ 97 <= c <= 122 \/ 65 <= c <= 90)%N /\ Forall name_char r.
Definition lexical (r : grule) (u : text) : Prop :=
  match r with
  | R_identifier => identifier_text u
  | R_number => exists n, notation u n
  | R_integer => exists z, integer_text u z
  | R_string => exists t, u = 34%N :: t ++ [34%N] /\ inner_str t
  | R_insensitive_string => exists t, u = 105%N :: 34%N :: t ++ [34%N] /\ inner_str t
  | R_character => exists t, u = 39%N :: t ++ [39%N] /\ char_text t
  | R_inner_str => inner_str u
  | R_escape => escape_syntax u
  | R_code => exists h1 h2, u = [120%N; h1; h2] /\ is_hex h1 /\ is_hex h2
  | R_unicode => exists t, u = [117; 123]%N ++ t ++ [125%N] /\ 1 <= length t <= 6 /\ Forall is_hex t
  | R_hex_digit => exists c, u = [c] /\ is_hex c
  | R_doc_content => ~ In 10%N u
  | R_rule_doc => exists t, u = lit "///" ++ t /\ ~ In 10%N t
  | R_grammar_doc => exists t, u = lit "//!" ++ t /\ ~ In 10%N t
  | R_assignment_operator => u = lit "="
  | R_trivia_opening_brace => u = lit "~{"
  | R_opening_brace => u = lit "{"
  | R_closing_brace => u = lit "}"
  | R_opening_paren => u = lit "("
  | R_closing_paren => u = lit ")"
  | R_opening_brack => u = lit "["
  | R_closing_brack => u = lit "]"
  | R_silent_modifier => u = lit "_"
  | R_positive_predicate_operator => u = lit "&"
  | R_negative_predicate_operator => u = lit "!"
  | R_sequence_operator => u = lit "-"
  | R_optional_operator => u = lit "?"
  | R_repeat_operator => u = lit "*"
  | R_repeat_once_operator => u = lit "+"
  | R_tilde_operator => u = lit "~"
  | R_caret_operator => u = lit "^"
  | R_range_operator => u = lit ".."
  | R_comma => u = lit ","
  | R_ancestry_operator => u = lit "::"
  | R_quote => u = [34%N]
  | R_single_quote => u = lit "'"
  | R_pound => u = lit "#"
  | R_eoi => u = []
  | _ => True
  end.
(** A property of a pair and of all pairs inside it. *)
Inductive everywhere (P : ppair -> Prop) : ppair -> Prop :=
| Everywhere p : P p -> Forall (everywhere P) (pp_inner p) -> everywhere P p.
Definition proper_token (p : ppair) : Prop :=
  lexical (pp_rule p) (pp_str p) /\ (pp_rule p = R_raw_string -> raw_literal p).

(** A pair whose text is the part of the input between its start and its end, and whose inner pairs lie
    in order inside it, likewise. *)
Inductive placed (input : text) : ppair -> Prop :=
| Placed r u a b l before after :
    input = before ++ u ++ after -> a = blen before -> b = a + blen u -> in_order input a b l ->
    placed input (mkPPair r u a b l)
with in_order (input : text) : nat -> nat -> list ppair -> Prop :=
| In_order_nil a b : a <= b -> in_order input a b []
| In_order_cons a b p l : placed input p -> a <= pp_start p -> in_order input (pp_end p) b l ->
    in_order input a b (p :: l).

(** A grammar file that has none of the features that are read in an unintended way: see [tame]; and
    paths of imports have no arguments. *)
Definition without_args (p : ppair) : Prop :=
  pp_rule p = R_import -> forall path rest q, pp_inner p = path :: rest -> In q (pp_inner path) ->
  pp_rule q <> R_call /\ pp_rule q <> R_slice.
Definition regular (p : ppair) : Prop := tame p /\ without_args p.
