(** The syntax tree of grammar files and the pairs it is read from: meta/src/parser.rs L34-L216. *)
From Coq Require Import String List NArith ZArith Arith Bool.
From Verif Require Import Model_Text Model_Message.
Import ListNotations.
Open Scope list_scope.

(** meta/src/parser.rs L34-39 [Span]: a file and a byte range in it. *)
Record mspan := mkMSpan { ms_path : text; ms_start : nat; ms_end : nat }.

(** meta/src/parser.rs L42-48 [Span::start]. *)
Definition span_with_start (s : mspan) (start : nat) : mspan := mkMSpan (ms_path s) start (ms_end s).
(** meta/src/parser.rs L50-56 [Span::end]. *)
Definition span_with_end (s : mspan) (stop : nat) : mspan := mkMSpan (ms_path s) (ms_start s) stop.
(** meta/src/parser.rs L58-64 [Span::start_end]. *)
Definition span_start_end (s : mspan) (start stop : nat) : mspan := mkMSpan (ms_path s) start stop.
(** meta/src/parser.rs L70-76 [Span::union]. *)
Definition span_union (s other : mspan) : mspan := mkMSpan (ms_path s) (ms_start s) (ms_end other).

(** meta/src/parser.rs L79-83 [Range]. *)
Record mrange (T : Type) := mkRange { r_start : option T; r_end : option T }.
Arguments mkRange {T} r_start r_end.
Arguments r_start {T}.
Arguments r_end {T}.

(** meta/src/parser.rs L174-183 [Trivia]. *)
Inductive trivia := TriviaNone | TriviaOptional | TriviaMandatory.

(** meta/src/parser.rs L200-215 [ParseExpr], L126-130 [ParseNode] (an expression with its span) and
    L138-142 [PathArgs]; [usize] and [isize] are numbers in the Rust ranges. *)
Inductive parse_expr :=
| PStr (s : text)
| PInsens (s : text)
| PRange (a b : char)
| PPath (path : list text) (args : option path_args)
| PPosPred (n : parse_node)
| PNegPred (n : parse_node)
| PSeq (lhs rhs : parse_node) (t : trivia)
| PChoice (lhs rhs : parse_node)
| POpt (n : parse_node)
| PRep (n : parse_node)
| PRepOnce (n : parse_node)
| PRepRange (n : parse_node) (range : mrange N)
| PSeparated (n : parse_node) (t : trivia)
with parse_node := mkNode (expr : parse_expr) (span : mspan)
with path_args :=
| PCall (args : list parse_node)
| PSlice (range : mrange Z).

(** The fields of [ParseNode] (meta/src/parser.rs L127-130). *)
Definition n_expr (n : parse_node) : parse_expr := let 'mkNode e _ := n in e.
(** meta/src/parser.rs L129. *)
Definition n_span (n : parse_node) : mspan := let 'mkNode _ s := n in s.

(** meta/src/parser.rs L116-124 [ParseRule]. *)
Record parse_rule := mkParseRule {
  pr_doc : list text; pr_name : text; pr_args : list text; pr_span : mspan;
  pr_node : parse_node; pr_silent : bool }.

(** The type [Rule] that pest2 derives from meta/src/grammar.pest: its rules that are not silent
    (those marked [_] are left out, except [overridable_operator], which the code mentions at
    meta/src/parser.rs L791 though it never occurs in pairs), and [EOI]. *)
Inductive grule :=
| R_import | R_grammar_rule | R_assignment_operator | R_trivia_opening_brace
| R_opening_brace | R_closing_brace | R_opening_paren | R_closing_paren | R_opening_brack | R_closing_brack
| R_arguments | R_silent_modifier | R_expression | R_term
| R_overridable_operator | R_positive_predicate_operator | R_negative_predicate_operator
| R_sequence_operator | R_choice_operator | R_optional_operator | R_repeat_operator
| R_repeat_once_operator | R_tilde_operator | R_caret_operator | R_range_operator
| R_bounded_repeat | R_number | R_integer | R_comma | R_path | R_call | R_slice | R_ancestry_operator
| R_identifier | R_raw_string | R_inner_raw_str | R_string | R_insensitive_string | R_range
| R_character | R_inner_str | R_inner_chr | R_escape | R_code | R_unicode | R_hex_digit
| R_quote | R_single_quote | R_pound | R_doc_content | R_rule_doc | R_grammar_doc | R_eoi.

(** pest2's [Pair] as used in meta/src/parser.rs L327-L887: rule, matched text, byte range, inner
    pairs. Simplification: the tree is given, not a queue of tokens over the input. *)
Inductive ppair := mkPPair (rule : grule) (str : text) (start stop : nat) (inner : list ppair).
(** [as_rule], [as_str], [as_span().start()], [as_span().end()] and [into_inner] of pest2's [Pair]
    (used at meta/src/parser.rs L326-L337). *)
Definition pp_rule (p : ppair) : grule := let 'mkPPair r _ _ _ _ := p in r.
Definition pp_str (p : ppair) : text := let 'mkPPair _ s _ _ _ := p in s.
Definition pp_start (p : ppair) : nat := let 'mkPPair _ _ a _ _ := p in a.
Definition pp_end (p : ppair) : nat := let 'mkPPair _ _ _ b _ := p in b.
Definition pp_inner (p : ppair) : list ppair := let 'mkPPair _ _ _ _ l := p in l.

(** pest2's [Error<Rule>] as made by meta/src/parser.rs L373-380, L596, L609, L621, L648, L667, L678, L697, L768, L778, L881: the
    message of a custom error and the reported byte range. Errors of the pest2 parser itself are
    passed through as [SyntaxError]. *)
Inductive perror :=
| CustomError (message : text) (start stop : nat)
| SyntaxError (e : N).

(** [Result<A, Error<Rule>>], in a computation that may panic (meta/src/parser.rs L315). *)
Definition presult (A : Type) := outcome (A + perror).
(** [Ok] and [Err(Error::new_from_span(CustomError ...))] (meta/src/parser.rs L593-603, L697-702). *)
Definition ok {A : Type} (a : A) : presult A := Ret (inl a).
Definition err {A : Type} (message : text) (start stop : nat) : presult A :=
  Ret (inr (CustomError message start stop)).
(** The operator [?] (e.g. meta/src/parser.rs L323). *)
Definition pbind {A B : Type} (o : presult A) (f : A -> presult B) : presult B :=
  obind o (fun r => match r with inl a => f a | inr e => Ret (inr e) end).
Notation "'let?' x ':=' o 'in' k" := (pbind o (fun x => k))
  (at level 200, x pattern, o at level 100, k at level 200, right associativity).

(** Equality of rules (derived [PartialEq]; used at meta/src/parser.rs L277, L469, L490), through the
    discriminants of the enum. *)
Definition grule_code (r : grule) : nat :=
  match r with
  | R_import => 0
  | R_grammar_rule => 1
  | R_assignment_operator => 2
  | R_trivia_opening_brace => 3
  | R_opening_brace => 4
  | R_closing_brace => 5
  | R_opening_paren => 6
  | R_closing_paren => 7
  | R_opening_brack => 8
  | R_closing_brack => 9
  | R_arguments => 10
  | R_silent_modifier => 11
  | R_expression => 12
  | R_term => 13
  | R_overridable_operator => 14
  | R_positive_predicate_operator => 15
  | R_negative_predicate_operator => 16
  | R_sequence_operator => 17
  | R_choice_operator => 18
  | R_optional_operator => 19
  | R_repeat_operator => 20
  | R_repeat_once_operator => 21
  | R_tilde_operator => 22
  | R_caret_operator => 23
  | R_range_operator => 24
  | R_bounded_repeat => 25
  | R_number => 26
  | R_integer => 27
  | R_comma => 28
  | R_path => 29
  | R_call => 30
  | R_slice => 31
  | R_ancestry_operator => 32
  | R_identifier => 33
  | R_raw_string => 34
  | R_inner_raw_str => 35
  | R_string => 36
  | R_insensitive_string => 37
  | R_range => 38
  | R_character => 39
  | R_inner_str => 40
  | R_inner_chr => 41
  | R_escape => 42
  | R_code => 43
  | R_unicode => 44
  | R_hex_digit => 45
  | R_quote => 46
  | R_single_quote => 47
  | R_pound => 48
  | R_doc_content => 49
  | R_rule_doc => 50
  | R_grammar_doc => 51
  | R_eoi => 52
  end.
Definition all_grules : list grule :=
  [R_import; R_grammar_rule; R_assignment_operator; R_trivia_opening_brace; R_opening_brace; 
   R_closing_brace; R_opening_paren; R_closing_paren; R_opening_brack; R_closing_brack; 
   R_arguments; R_silent_modifier; R_expression; R_term; R_overridable_operator; R_positive_predicate_operator; 
   R_negative_predicate_operator; R_sequence_operator; R_choice_operator; R_optional_operator; 
   R_repeat_operator; R_repeat_once_operator; R_tilde_operator; R_caret_operator; R_range_operator; 
   R_bounded_repeat; R_number; R_integer; R_comma; R_path; R_call; R_slice; R_ancestry_operator; 
   R_identifier; R_raw_string; R_inner_raw_str; R_string; R_insensitive_string; R_range; 
   R_character; R_inner_str; R_inner_chr; R_escape; R_code; R_unicode; R_hex_digit; R_quote; 
   R_single_quote; R_pound; R_doc_content; R_rule_doc; R_grammar_doc; R_eoi].
Lemma grule_code_inj : forall a b, grule_code a = grule_code b -> a = b.
Proof.
  assert (H : forall r, nth_error all_grules (grule_code r) = Some r) by (intro r; destruct r; reflexivity).
  intros a b E. pose proof (H a) as A. rewrite E, H in A. injection A as ->. reflexivity.
Qed.
Definition grule_eqb (a b : grule) : bool := grule_code a =? grule_code b.
Definition grule_eq_dec (a b : grule) : {a = b} + {a <> b}.
Proof.
  destruct (Nat.eq_dec (grule_code a) (grule_code b)) as [E|N]; [left; apply grule_code_inj, E|right; intros ->; apply N; reflexivity].
Defined.
Lemma grule_eqb_spec : forall a b, reflect (a = b) (grule_eqb a b).
Proof.
  intros a b. unfold grule_eqb. destruct (Nat.eqb_spec (grule_code a) (grule_code b)) as [E|N]; constructor;
    [apply grule_code_inj, E|intros ->; apply N; reflexivity].
Qed.
