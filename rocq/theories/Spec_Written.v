(** How grammars are written: the texts that denote expressions, rules and files, with any white space
    and comments between their parts. *)
From Coq Require Import String List NArith ZArith Arith Bool.
From Verif Require Import Model_Text Model_Meta Model_Import Spec_Unescape Spec_Message Spec_Grammar Spec_Import Spec_Pest2.
Import ListNotations.
Open Scope list_scope.

(** Expressions without their places in the text. *)
Inductive tree :=
| T_str (s : text) | T_insens (s : text) | T_range (a b : char)
| T_name (names : list text) | T_call (names : list text) (args : list tree) | T_slice (names : list text) (x y : option Z)
| T_pos (t : tree) | T_neg (t : tree) | T_seq (a b : tree) (k : trivia) | T_choice (a b : tree)
| T_opt (t : tree) | T_rep (t : tree) | T_once (t : tree) | T_times (t : tree) (x y : option N) | T_sep (t : tree) (k : trivia).
Fixpoint tree_of (n : parse_node) : tree := let 'mkNode e _ := n in tree_expr e
with tree_expr (e : parse_expr) : tree :=
  match e with
  | PStr s => T_str s
  | PInsens s => T_insens s
  | PRange a b => T_range a b
  | PPath p None => T_name p
  | PPath p (Some a) => tree_args p a
  | PPosPred n => T_pos (tree_of n)
  | PNegPred n => T_neg (tree_of n)
  | PSeq a b k => T_seq (tree_of a) (tree_of b) k
  | PChoice a b => T_choice (tree_of a) (tree_of b)
  | POpt n => T_opt (tree_of n)
  | PRep n => T_rep (tree_of n)
  | PRepOnce n => T_once (tree_of n)
  | PRepRange n r => T_times (tree_of n) (r_start r) (r_end r)
  | PSeparated n k => T_sep (tree_of n) k
  end
with tree_args (p : list text) (a : path_args) : tree :=
  match a with
  | PCall l => T_call p (map tree_of l)
  | PSlice r => T_slice p (r_start r) (r_end r)
  end.

(** * White space and comments. *)
Definition starts (t s : text) : Prop := exists r, s = t ++ r.
(** The inside of a comment between slash-star and star-slash; such comments can be nested. *)
Inductive comment_body : text -> Prop :=
| Body_end : comment_body []
| Body_char c u : ~ starts (lit "/*") (c :: u ++ lit "*/") -> ~ starts (lit "*/") (c :: u ++ lit "*/") ->
    comment_body u -> comment_body (c :: u)
| Body_nested u v : comment_body u -> comment_body v -> comment_body (lit "/*" ++ u ++ lit "*/" ++ v).
(** The text of a comment or of documentation to the end of the line. *)
Definition one_line (u : text) : Prop := ~ In 10%N u /\ ~ In 13%N u.
Definition line_end (s : text) : Prop := starts [10%N] s \/ starts [13; 10]%N s.
(** Comments with three slashes, or with an exclamation mark, are documentation. *)
Definition line_comment (u : text) : Prop := one_line u /\ ~ starts (lit "/") u /\ ~ starts (lit "!") u.
Inductive blank : text -> Prop :=
| Blank_nil : blank []
| Blank_char c w : In c [32; 9; 10]%N -> blank w -> blank (c :: w)
| Blank_return w : blank w -> blank (13 :: 10 :: w)%N
| Blank_block u w : comment_body u -> blank w -> blank (lit "/*" ++ u ++ lit "*/" ++ w)
| Blank_line u w : line_comment u -> line_end w -> blank w -> blank (lit "//" ++ u ++ w).

(** * Operators. *)
Inductive seq_op : text -> trivia -> Prop :=
| Seq_minus : seq_op (lit "-") TriviaNone
| Seq_tilde : seq_op (lit "~") TriviaOptional
| Seq_caret : seq_op (lit "^") TriviaMandatory.
Inductive trivia_op : text -> trivia -> Prop :=
| Triv_tilde : trivia_op (lit "~") TriviaOptional
| Triv_caret : trivia_op (lit "^") TriviaMandatory.
(** A vertical bar, perhaps with an operator in front of it, which has no effect. *)
Inductive choice_op : text -> Prop :=
| Choice_bar : choice_op (lit "|")
| Choice_trivia o k w : trivia_op o k -> blank w -> choice_op (o ++ w ++ lit "|").
(** Optional numbers. *)
Inductive w_number : text -> option N -> Prop :=
| W_number u n : notation u n -> w_number u (Some n)
| W_no_number : w_number [] None.
Inductive w_integer : text -> option Z -> Prop :=
| W_integer u z : integer_text u z -> w_integer u (Some z)
| W_no_integer : w_integer [] None.
(** Operators after the operand, and what they make of it. *)
Inductive w_postfix : tree -> text -> tree -> Prop :=
| W_opt t : w_postfix t (lit "?") (T_opt t)
| W_rep t : w_postfix t (lit "*") (T_rep t)
| W_once t : w_postfix t (lit "+") (T_once t)
| W_exact t w w' u n : blank w -> blank w' -> notation u n -> sensible (Some n) (Some n) ->
    w_postfix t (lit "{" ++ w ++ u ++ w' ++ lit "}") (T_times t (Some n) (Some n))
| W_times t w1 w2 w3 w4 u v x y : blank w1 -> blank w2 -> blank w3 -> blank w4 -> w_number u x -> w_number v y ->
    sensible x y -> w_postfix t (lit "{" ++ w1 ++ u ++ w2 ++ lit ".." ++ w3 ++ v ++ w4 ++ lit "}") (T_times t x y).
Inductive w_postfixes : tree -> text -> tree -> Prop :=
| W_no_postfix t : w_postfixes t [] t
| W_post t w p t1 v t2 : blank w -> w_postfix t p t1 -> w_postfixes t1 v t2 -> w_postfixes t (w ++ p ++ v) t2
| W_separated t w o k w' p t1 v t2 : blank w -> trivia_op o k -> blank w' -> w_postfix (T_sep t k) p t1 ->
    w_postfixes t1 v t2 -> w_postfixes t (w ++ o ++ w' ++ p ++ v) t2.

(** * Expressions. *)
(** A character between apostrophes; see [C47_every_literal_refuted] for the one that is left out. *)
Definition w_char (u : text) (c : char) : Prop := exists s, u = 39%N :: s ++ [39%N] /\ char_meaning s c /\ s <> [34%N].
Inductive w_names : text -> list text -> Prop :=
| W_name u : identifier_text u -> w_names u [u]
| W_more_names u w w' v l : identifier_text u -> blank w -> blank w' -> w_names v l ->
    w_names (u ++ w ++ lit "::" ++ w' ++ v) (u :: l).
Inductive w_terminal : text -> tree -> Prop :=
| W_string s r : documented s r -> w_terminal (34%N :: s ++ [34%N]) (T_str r)
| W_raw s : ~ In 34%N s -> w_terminal (114%N :: 34%N :: s ++ [34%N]) (T_str s)
| W_insens s r : documented s r -> w_terminal (105%N :: 34%N :: s ++ [34%N]) (T_insens r)
| W_range u w w' v a b : w_char u a -> blank w -> blank w' -> w_char v b ->
    w_terminal (u ++ w ++ lit ".." ++ w' ++ v) (T_range a b).
Inductive w_expression : text -> tree -> Prop :=
| W_plain u t : w_choices u t -> w_expression u t
| W_first u w o w' v a b : w_term u a -> blank w -> choice_op o -> blank w' -> w_choices v b ->
    w_expression (u ++ w ++ o ++ w' ++ v) (T_choice a b)
| W_lead o1 w1 u w o w' v a b : choice_op o1 -> blank w1 -> w_term u a -> blank w -> choice_op o -> blank w' -> w_choices v b ->
    w_expression (o1 ++ w1 ++ u ++ w ++ o ++ w' ++ v) (T_choice a b)
with w_choices : text -> tree -> Prop :=
| W_alternative u t : w_sequence u t -> w_choices u t
| W_choice u w w' v a b : w_sequence u a -> blank w -> blank w' -> w_choices v b ->
    w_choices (u ++ w ++ lit "|" ++ w' ++ v) (T_choice a b)
with w_sequence : text -> tree -> Prop :=
| W_operand u t : w_term u t -> w_sequence u t
| W_sequence u w o k w' v a b : w_term u a -> blank w -> seq_op o k -> blank w' -> w_sequence v b ->
    w_sequence (u ++ w ++ o ++ w' ++ v) (T_seq a b k)
with w_term : text -> tree -> Prop :=
| W_pos w u t : blank w -> w_term u t -> w_term (lit "&" ++ w ++ u) (T_pos t)
| W_neg w u t : blank w -> w_term u t -> w_term (lit "!" ++ w ++ u) (T_neg t)
| W_postfixed u t v t' : w_core u t -> w_postfixes t v t' -> w_term (u ++ v) t'
with w_core : text -> tree -> Prop :=
| W_terminal u t : w_terminal u t -> w_core u t
| W_parens w u w' t : blank w -> w_expression u t -> blank w' -> w_core (lit "(" ++ w ++ u ++ w' ++ lit ")") t
| W_path u names : w_names u names -> w_core u (T_name names)
| W_call u names w w1 v l w2 : w_names u names -> blank w -> blank w1 -> w_actuals v l -> blank w2 ->
    w_core (u ++ w ++ lit "(" ++ w1 ++ v ++ w2 ++ lit ")") (T_call names l)
| W_slice u names w w1 a x w2 w3 b y w4 : w_names u names -> blank w -> blank w1 -> w_integer a x -> blank w2 ->
    blank w3 -> w_integer b y -> blank w4 -> in_isize x -> in_isize y ->
    w_core (u ++ w ++ lit "[" ++ w1 ++ a ++ w2 ++ lit ".." ++ w3 ++ b ++ w4 ++ lit "]") (T_slice names x y)
with w_actuals : text -> list tree -> Prop :=
| W_no_actual : w_actuals [] []
| W_actual u t : w_expression u t -> w_actuals u [t]
| W_actuals u t w w' v l : w_expression u t -> blank w -> blank w' -> w_actuals v l ->
    w_actuals (u ++ w ++ lit "," ++ w' ++ v) (t :: l).

(** * Rules and files. *)
Inductive w_item :=
| W_rule (docs : list text) (name : text) (params : list text) (silent : bool) (t : tree)
| W_import (names : list text) (file : option text) (alias : option text).
(** Documentation: the marker, the text, the end of the line. *)
Inductive w_docs (marker : text) : text -> list text -> Prop :=
| W_no_doc : w_docs marker [] []
| W_doc u d w v l : one_line u -> trimmed u d -> line_end w -> blank w -> w_docs marker v l ->
    w_docs marker (marker ++ u ++ w ++ v) (d :: l).
Inductive w_formals : text -> list text -> Prop :=
| W_no_formal : w_formals [] []
| W_formal u : identifier_text u -> w_formals u [u]
| W_formals u w w' v l : identifier_text u -> blank w -> blank w' -> w_formals v l ->
    w_formals (u ++ w ++ lit "," ++ w' ++ v) (u :: l).
Inductive w_params : text -> list text -> Prop :=
| W_no_params : w_params [] []
| W_params w u w' l w2 : blank w -> w_formals u l -> blank w' -> blank w2 ->
    w_params (lit "(" ++ w ++ u ++ w' ++ lit ")" ++ w2) l.
Definition rule_name (name : text) : Prop := identifier_text name \/ name = lit "~" \/ name = lit "^".
(** Whether a text starts with a name. *)
Definition name_ahead (s : text) : Prop := exists u r, s = u ++ r /\ identifier_text u.
(** The text after the equals sign; [braced] tells whether it ends with a brace. Without braces, a name
    must not be taken for the mark of silent rules, nor the mark for a part of a name. *)
Inductive w_body : text -> bool -> bool -> tree -> Prop :=
| W_braces w u w' t : blank w -> w_expression u t -> blank w' -> w_body (lit "{" ++ w ++ u ++ w' ++ lit "}") true false t
| W_silent_braces w0 w u w' t : blank w0 -> blank w -> w_expression u t -> blank w' ->
    w_body (lit "_" ++ w0 ++ lit "{" ++ w ++ u ++ w' ++ lit "}") true true t
| W_bare u t : w_expression u t -> (forall r, u = lit "_" ++ r -> name_ahead r) -> w_body u false false t
| W_silent_bare w u t : blank w -> ~ name_ahead (w ++ u) -> w_expression u t -> w_body (lit "_" ++ w ++ u) false true t.
(** A rule without its documentation. *)
Inductive w_rule : text -> text -> list text -> bool -> bool -> tree -> Prop :=
| W_rule_text name w a l w' body braced silent t :
    rule_name name -> blank w -> w_params a l -> blank w' -> w_body body braced silent t ->
    w_rule (name ++ w ++ a ++ lit "=" ++ w' ++ body) name l braced silent t.
Inductive w_in : text -> option text -> Prop :=
| W_no_in : w_in [] None
| W_in w w' s r : w <> [] -> blank w -> blank w' -> documented s r -> w_in (w ++ lit "in" ++ w' ++ 34%N :: s ++ [34%N]) (Some r).
Inductive w_as : text -> option text -> Prop :=
| W_no_as : w_as [] None
| W_as w w' u : w <> [] -> blank w -> blank w' -> identifier_text u -> w_as (w ++ lit "as" ++ w' ++ u) (Some u).
(** Imports and rules, with what must be between them: after a rule without braces and after an import,
    white space; the parameters of an operator must not be taken for an operand, nor the start of a name
    for the keyword [as]. *)
Definition params_on_operator (v : text) : Prop := exists o k w r, trivia_op o k /\ blank w /\ v = o ++ w ++ lit "(" ++ r.
Inductive w_items : text -> list w_item -> Prop :=
| W_no_item : w_items [] []
| W_rule_item d docs u name l braced silent t w v items :
    w_docs (lit "///") d docs -> w_rule u name l braced silent t -> blank w -> w_items v items ->
    (braced = true \/ v = [] \/ (w <> [] /\ ~ params_on_operator v)) ->
    w_items (d ++ u ++ w ++ v) (W_rule docs name l silent t :: items)
| W_import_item w0 u names f file a alias w v items :
    blank w0 -> w_names u names -> w_in f file -> w_as a alias -> blank w -> w_items v items ->
    (v = [] \/ w <> []) -> (alias = None -> forall r, v = lit "as" ++ r -> ~ name_ahead r) ->
    w_items (lit "use " ++ w0 ++ u ++ f ++ a ++ w ++ v) (W_import names file alias :: items).
(** A file: documentation, then imports and rules, at least one of the latter. A comment at the end needs
    no end of line. *)
Inductive w_file : text -> list text -> list w_item -> Prop :=
| W_file w d docs v items e : blank w -> w_docs (lit "//!") d docs -> w_items v items ->
    (exists ds n l b t, In (W_rule ds n l b t) items) -> (e = [] \/ exists u, e = lit "//" ++ u /\ line_comment u) ->
    w_file (w ++ d ++ v ++ e) docs items.

(** A pair that the parser made stands for a written import or rule: the same documentation, name,
    parameters and silence, and an expression that denotes the tree. *)
Inductive item_read : ppair -> w_item -> Prop :=
| Read_rule p ds name l silent t e : rule_syntax p ds name l silent e ->
    (forall path, exists n, den_expression path e n /\ tree_of n = t) -> item_read p (W_rule ds name l silent t)
| Read_import p names f file alias a b : import_syntax p names f alias a b ->
    match f, file with Some (s, _, _), Some r => documented s r | None, None => True | _, _ => False end ->
    item_read p (W_import names file alias).

(** * Grammars with their imports. *)
(** A loaded grammar without places: its rules (documentation, name, parameters, silence, expression), its
    documentation and its imports. *)
Definition w_entry : Type := (list text * text * list text * bool * tree)%type.
Inductive wtree := WTree (rules : list w_entry) (doc : list text) (imports : list wimport)
with wimport := WI_builtin (alias : text) (names : list text) | WI_file (alias : text) (t : wtree).
Definition forget_rule (r : parse_rule) : w_entry := (pr_doc r, pr_name r, pr_args r, pr_silent r, tree_of (pr_node r)).
Fixpoint forget (t : mtree) : wtree :=
  let 'MTree rules doc imports := t in
  WTree (map forget_rule rules) doc (map (fun i => match i with M_builtin a n => WI_builtin a n | M_file a t => WI_file a (forget t) end) imports).
Section Loads.
Variable read_file : path -> text + text.
(** What a written file stands for: its rules in order, and for each import a builtin, the grammar in the
    file that is named, or the one in the file that the names stand for. *)
Inductive w_loads : path -> text -> wtree -> Prop :=
| W_loads root input docs items rules imports : w_file input docs items -> w_parts root items rules imports ->
    w_loads root input (WTree rules docs imports)
with w_parts : path -> list w_item -> list w_entry -> list wimport -> Prop :=
| WP_nil root : w_parts root [] [] []
| WP_rule root ds n l b t items rules imports : w_parts root items rules imports ->
    w_parts root (W_rule ds n l b t :: items) ((ds, n, l, b, t) :: rules) imports
| WP_builtin root names file alias x items rules imports : starts_with_pest names -> alias_of names alias x ->
    w_parts root items rules imports -> w_parts root (W_import names file alias :: items) rules (WI_builtin x names :: imports)
| WP_file root names r alias x q c t items rules imports : ~ starts_with_pest names -> alias_of names alias x ->
    written r q -> read_file q = inl c -> w_loads q c t -> w_parts root items rules imports ->
    w_parts root (W_import names (Some r) alias :: items) rules (WI_file x t :: imports)
| WP_beside root names alias x d q c t items rules imports : ~ starts_with_pest names -> alias_of names alias x ->
    import_base root d -> location names q -> read_file (d ++ q) = inl c -> w_loads (d ++ q) c t -> w_parts root items rules imports ->
    w_parts root (W_import names None alias :: items) rules (WI_file x t :: imports).
End Loads.
