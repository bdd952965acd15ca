(** How expressions of grammars are displayed: meta/src/parser.rs L103-L273, used in the documentation of
    generated types (generator/src/typed/generator.rs L160-L163). *)
From Coq Require Import String List NArith ZArith Arith Bool.
From Verif Require Import Model_Text Model_Message Model_Meta.
Import ListNotations.
Open Scope list_scope.

(** Hexadecimal digits in lower case, as in [char::escape_unicode] of the standard library (used by
    [Debug], meta/src/parser.rs L252-254). [hex_digits k n acc] prepends the digits of [n] to [acc]; [k]
    bounds their number. *)
Definition hex_char (d : N) : char := if (d <? 10)%N then (48 + d)%N else (87 + d)%N.
Fixpoint hex_digits (k : nat) (n : N) (acc : text) : text :=
  match k with
  | 0 => acc
  | S k' => let acc := hex_char (n mod 16) :: acc in if (n / 16 =? 0)%N then acc else hex_digits k' (n / 16)%N acc
  end.
Definition hexadecimal (n : N) : text := hex_digits (S (N.to_nat (N.log2 n))) n [].

Section Display.
(** The characters that [Debug] does not escape as numbers (tables of the standard library: printable and
    not extending a grapheme; used at meta/src/parser.rs L252-254). *)
Variable printable : char -> bool.

(** [char::escape_debug_ext] of the standard library (through [Debug], meta/src/parser.rs L252-254);
    [quote] is the quotation mark that is escaped. *)
Definition escape_debug (quote c : char) : text :=
  if (c =? 0)%N then lit "\0"
  else if (c =? 9)%N then lit "\t"
  else if (c =? 13)%N then lit "\r"
  else if (c =? 10)%N then lit "\n"
  else if (c =? quote)%N then [92%N; c]
  else if (c =? 92)%N then lit "\\"
  else if printable c then [c]
  else lit "\u{" ++ hexadecimal c ++ lit "}".
(** [Debug] of [str] (meta/src/parser.rs L252, L253). *)
Definition debug_str (s : text) : text := [34%N] ++ flat_map (escape_debug 34%N) s ++ [34%N].
(** [Debug] of [char] (meta/src/parser.rs L254). *)
Definition debug_char (c : char) : text := lit "'" ++ escape_debug 39%N c ++ lit "'".

(** meta/src/parser.rs L157-171 [fmt_sep], on displayed elements. *)
Definition show_sep (sep : text) (l : list text) : text :=
  match l with
  | [] => []
  | first :: rest => first ++ flat_map (fun x => sep ++ x) rest
  end.
(** meta/src/parser.rs L103-114 [Display for Range], with the display of the bounds. *)
Definition show_range {T : Type} (show : T -> text) (r : mrange T) : text :=
  match r_start r with Some x => show x | None => [] end ++ lit ".." ++
  match r_end r with Some y => show y | None => [] end.
(** meta/src/parser.rs L184-198 [Trivia::get_repr] and [Display for Trivia]. *)
Definition show_trivia (t : trivia) : text :=
  match t with TriviaNone => lit "-" | TriviaOptional => lit "~" | TriviaMandatory => lit "^" end.
(** meta/src/parser.rs L249-273 [Display for ParseExpr], L132-136 [Display for ParseNode] and L144-155
    [Display for PathArgs]. *)
Fixpoint show_expr (e : parse_expr) : text :=
  match e with
  | PStr s => debug_str s
  | PInsens s => lit "^" ++ debug_str s
  | PRange a b => debug_char a ++ lit ".." ++ debug_char b
  | PPath path args =>
      show_sep (lit "::") path ++ match args with Some args => show_args args | None => [] end
  | PPosPred n => lit "&" ++ show_node n
  | PNegPred n => lit "!" ++ show_node n
  | PSeq lhs rhs t => lit "(" ++ show_node lhs ++ lit " " ++ show_trivia t ++ lit " " ++ show_node rhs ++ lit ")"
  | PChoice lhs rhs => lit "(" ++ show_node lhs ++ lit " | " ++ show_node rhs ++ lit ")"
  | POpt n => show_node n ++ lit "?"
  | PRep n => show_node n ++ lit "*"
  | PRepOnce n => show_node n ++ lit "+"
  | PRepRange n r => show_node n ++ lit "[" ++ show_range decimal_N r ++ lit "]"
  | PSeparated n t => show_node n ++ show_trivia t
  end
with show_node (n : parse_node) : text := let 'mkNode e _ := n in show_expr e
with show_args (a : path_args) : text :=
  match a with
  | PCall args => lit "(" ++ show_sep (lit ", ") (map show_node args) ++ lit ")"
  | PSlice r => lit "[" ++ show_range decimal_Z r ++ lit "]"
  end.

(** generator/src/typed/generator.rs L160-163: the documentation of the type generated for a rule. *)
Definition rule_doc_text (rule_name : text) (node : parse_node) : text :=
  lit "Generated for rule `" ++ rule_name ++ lit "`. Grammar: `" ++ show_node node ++ lit "`.".
End Display.
