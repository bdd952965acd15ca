(** Model of the reader of grammar files, from pest2's pairs to rules: meta/src/parser.rs L275-L281,
    L457-L878. The pest2 parser that makes the pairs is external; so is its Pratt parser, which is
    modelled here after its documented algorithm. *)
From Coq Require Import String List NArith ZArith Arith Bool.
From Verif Require Import Model_Text Model_Message Model_Unescape Model_Meta.
Import ListNotations.
Open Scope list_scope.

(** Slicing a text, [&s[a..b]] (meta/src/parser.rs L594, L607, L621, L648, L667, L678). *)
Definition slice (s : text) (a b : nat) : outcome text := or_panic (get_range s a b).
(** [s.len() - n], which must not underflow (meta/src/parser.rs L621, L648, L667, L678). *)
Definition len_minus (s : text) (n : nat) : outcome nat := if blen s <? n then Panic else Ret (blen s - n).

(** meta/src/parser.rs L275-281 [skip]. *)
Definition skip (r : grule) (pairs : list ppair) : list ppair :=
  match pairs with
  | p :: rest => if grule_eqb (pp_rule p) r then rest else pairs
  | [] => []
  end.

(** [pairs.next().unwrap()] and [.expect(..)] (meta/src/parser.rs L330, L480-483, L486-488, L501,
    L515, L562, L638-640, L665, L674-676, L707). *)
Definition next (pairs : list ppair) : outcome (ppair * list ppair) :=
  match pairs with p :: rest => Ret (p, rest) | [] => Panic end.

(** meta/src/parser.rs L66-68 [Span::from_pest]. *)
Definition from_pest (span : mspan) (p : ppair) : mspan := span_start_end span (pp_start p) (pp_end p).

(** meta/src/parser.rs L531-540 [parse_prefix]. *)
Definition parse_prefix (p : ppair) (child : parse_node) : outcome parse_node :=
  let span := span_with_start (n_span child) (pp_start p) in
  match pp_rule p with
  | R_positive_predicate_operator => Ret (mkNode (PPosPred child) span)
  | R_negative_predicate_operator => Ret (mkNode (PNegPred child) span)
  | _ => Panic
  end.

(** [char::is_whitespace] (through [str::trim], meta/src/parser.rs L595, L608): the characters with
    the Unicode property White_Space. *)
Definition is_whitespace (c : char) : bool :=
  (((9 <=? c) && (c <=? 13)) || (c =? 0x20) || (c =? 0x85) || (c =? 0xA0) || (c =? 0x1680) ||
   ((0x2000 <=? c) && (c <=? 0x200A)) || (c =? 0x2028) || (c =? 0x2029) || (c =? 0x202F) ||
   (c =? 0x205F) || (c =? 0x3000))%N.
(** [str::trim] (meta/src/parser.rs L595, L608). *)
Definition trim (s : text) : text := rev (skip_while is_whitespace (rev (skip_while is_whitespace s))).

(** meta/src/parser.rs L593-604 [parse_grammar_doc]; the error branch is dead ([Some(..).ok_or(..)]). *)
Definition parse_grammar_doc (p : ppair) : presult text :=
  let! string := or_panic (get_from (pp_str p) 3) in ok (trim string).
(** meta/src/parser.rs L606-617 [parse_rule_doc]. *)
Definition parse_rule_doc (p : ppair) : presult text :=
  let! string := or_panic (get_from (pp_str p) 3) in ok (trim string).

(** [unescape(..).ok_or(Error::new_from_span(..))?] (meta/src/parser.rs L621-626, L648-653, L667-672,
    L678-683, L881-886). *)
Definition unescape_or (message : text) (p : ppair) (string : text) : presult text :=
  let! r := unescape string in
  match r with
  | Some content => ok content
  | None => err message (pp_start p) (pp_end p)
  end.

(** meta/src/parser.rs L619-632 [parse_string]. *)
Definition parse_string (p : ppair) (span : mspan) : presult parse_node :=
  let! stop := len_minus (pp_str p) 1 in
  let! string := slice (pp_str p) 1 stop in
  let? content := unescape_or (lit "incorrect string literal") p string in
  ok (mkNode (PStr content) (from_pest span p)).

(** meta/src/parser.rs L634-644 [parse_raw_string]. *)
Definition parse_raw_string (p : ppair) (span : mspan) : presult parse_node :=
  let! (_, pairs) := next (pp_inner p) in
  let! (content, _) := next pairs in
  ok (mkNode (PStr (pp_str content)) (from_pest span p)).

(** meta/src/parser.rs L646-659 [parse_insensitive_string]. *)
Definition parse_insensitive_string (p : ppair) (span : mspan) : presult parse_node :=
  let! stop := len_minus (pp_str p) 1 in
  let! string := slice (pp_str p) 2 stop in
  let? content := unescape_or (lit "incorrect string literal") p string in
  ok (mkNode (PInsens content) (from_pest span p)).

(** One end of a range: meta/src/parser.rs L665-672 and L676-683. *)
Definition char_content (p : ppair) : presult text :=
  let! stop := len_minus (pp_str p) 1 in
  let! string := slice (pp_str p) 1 stop in
  unescape_or (lit "incorrect char literal") p string.
(** meta/src/parser.rs L661-691 [parse_char_range]. *)
Definition parse_char_range (p : ppair) (span : mspan) : presult parse_node :=
  let! (p1, pairs) := next (pp_inner p) in
  let? content_start := char_content p1 in
  let! (_, pairs) := next pairs in
  let! (p2, _) := next pairs in
  let? content_end := char_content p2 in
  let! a := or_panic (hd_error content_start) in
  let! b := or_panic (hd_error content_end) in
  ok (mkNode (PRange a b) (from_pest span p)).

(** meta/src/parser.rs L693-704 [pair_to], for a type of 8 bytes ([usize] or [isize]) read by [parse]. *)
Definition pair_to {T : Type} (parse : text -> option T) (p : ppair) : presult T :=
  match parse (pp_str p) with
  | Some number => ok number
  | None => err (lit "number cannot overflow 8 bytes") (pp_start p) (pp_end p)
  end.

(** [collect::<Result<Vec<_>, _>>()] over [map(f)] (meta/src/parser.rs L710-713). *)
Fixpoint collect_results {A B : Type} (f : A -> presult B) (l : list A) : presult (list B) :=
  match l with
  | [] => ok []
  | a :: r => let? b := f a in let? bs := collect_results f r in ok (b :: bs)
  end.

(** meta/src/parser.rs L706-744 [parse_range]; the match on the slice of rules is by its length first. *)
Definition parse_range {T : Type} (parse : text -> option T) (pairs : list ppair) : presult (mrange T) :=
  let! (_, pairs) := next pairs in
  let rules := map pp_rule pairs in
  let? numbers := collect_results (pair_to parse)
    (filter (fun p => grule_eqb (pp_rule p) R_number || grule_eqb (pp_rule p) R_integer) pairs) in
  let is_op r := grule_eqb r R_range_operator in
  match rules with
  | [_; op; _; _] =>
      if is_op op then
        let! a := or_panic (nth_error numbers 0) in
        let! b := or_panic (nth_error numbers 1) in ok (mkRange (Some a) (Some b))
      else Panic
  | [first; second; _] =>
      if is_op second then let! a := or_panic (nth_error numbers 0) in ok (mkRange (Some a) None)
      else if is_op first then let! b := or_panic (nth_error numbers 0) in ok (mkRange None (Some b))
      else Panic
  | [first; _] =>
      if is_op first then ok (mkRange None None)
      else let! a := or_panic (nth_error numbers 0) in ok (mkRange (Some a) (Some a))
  | _ => Panic
  end.

(** meta/src/parser.rs L747-758 [inner_span]: [start.span(&end)] panics if the end is before the
    start. [pairs.rev()] continues on what is left after the first pair. *)
Definition inner_span (p : ppair) : outcome (nat * nat) :=
  let! (_, pairs) := next (pp_inner p) in
  let! (first, _) := next pairs in
  let! (_, pairs) := next (rev pairs) in
  let! (last, _) := next pairs in
  if pp_end last <? pp_start first then Panic else Ret (pp_start first, pp_end last).

(** meta/src/parser.rs L746-787 [parse_bounded_repeat]. *)
Definition parse_bounded_repeat (p : ppair) (child : parse_node) : presult parse_expr :=
  let? range := parse_range parse_usize (pp_inner p) in
  let check_zero :=
    match r_end range with
    | Some 0%N => let! (a, b) := inner_span p in err (lit "cannot repeat 0 times") a b
    | _ => ok (PRepRange child range)
    end in
  match r_start range, r_end range with
  | Some start, Some stop =>
      if (stop <? start)%N then
        let! (a, b) := inner_span p in
        err (lit "repetition range void (" ++ decimal_N start ++ lit " > " ++ decimal_N stop ++ lit ")") a b
      else check_zero
  | _, _ => check_zero
  end.

(** meta/src/parser.rs L789-805 [parse_postfix]. *)
Definition parse_postfix (p : ppair) (child : parse_node) : presult parse_node :=
  let span :=
    match pp_rule p with
    | R_overridable_operator => span_with_start (n_span child) (pp_start p)
    | _ => span_with_end (n_span child) (pp_end p)
    end in
  match pp_rule p with
  | R_optional_operator => ok (mkNode (POpt child) span)
  | R_tilde_operator => ok (mkNode (PSeparated child TriviaOptional) span)
  | R_caret_operator => ok (mkNode (PSeparated child TriviaMandatory) span)
  | R_repeat_operator => ok (mkNode (PRep child) span)
  | R_repeat_once_operator => ok (mkNode (PRepOnce child) span)
  | R_bounded_repeat => let? expr := parse_bounded_repeat p child in ok (mkNode expr span)
  | _ => Panic
  end.

(** [try_fold] over the postfix pairs (meta/src/parser.rs L838-842). *)
Fixpoint fold_postfix (pairs : list ppair) (child : parse_node) : presult parse_node :=
  match pairs with
  | [] => ok child
  | p :: rest => let? child := parse_postfix p child in fold_postfix rest child
  end.

(** [rfold] over the prefix pairs, starting with the last one (meta/src/parser.rs L844-846). *)
Fixpoint fold_prefix (pairs : list ppair) (child : parse_node) : outcome parse_node :=
  match pairs with
  | [] => Ret child
  | p :: rest => let! child := fold_prefix rest child in parse_prefix p child
  end.

(** pest2's [PrattParser] with right-associative infix operators only, as built at
    meta/src/parser.rs L510-514: the binding power of each operator. *)
Definition operators := grule -> option nat.
Definition rule_operators : operators := fun r =>
  match r with
  | R_choice_operator => Some 10
  | R_sequence_operator | R_tilde_operator | R_caret_operator => Some 20
  | _ => None
  end.
(** [PrattParser::new()] without operators (meta/src/parser.rs L337). *)
Definition no_operators : operators := fun _ => None.

(** pest2's [PrattParserMap::parse] (called at meta/src/parser.rs L874-877), after its documented
    algorithm: [pratt_expr] is [expr] with [nud], [pratt_loop] is the loop of [expr] with [lbp] and
    [led]. It panics if there is no pair, if an operator stands where an operand is expected, and if
    something else stands where an operator is expected. *)
Section Pratt.
Variable T : Type.
Variable ops : operators.
Variable primary : ppair -> outcome T.
Variable infix : T -> ppair -> T -> outcome T.
Fixpoint pratt_expr (fuel : nat) (rbp : nat) (pairs : list ppair) : outcome (T * list ppair) :=
  match fuel with
  | 0 => OutOfFuel
  | S k =>
      let! (p, pairs) := next pairs in
      match ops (pp_rule p) with
      | Some _ => Panic
      | None => let! lhs := primary p in pratt_loop k rbp lhs pairs
      end
  end
with pratt_loop (fuel : nat) (rbp : nat) (lhs : T) (pairs : list ppair) : outcome (T * list ppair) :=
  match fuel with
  | 0 => OutOfFuel
  | S k =>
      match pairs with
      | [] => Ret (lhs, [])
      | p :: rest =>
          match ops (pp_rule p) with
          | None => Panic
          | Some prec =>
              if rbp <? prec then
                let! (rhs, rest) := pratt_expr k (prec - 1) rest in
                let! lhs := infix lhs p rhs in
                pratt_loop k rbp lhs rest
              else Ret (lhs, pairs)
          end
      end
  end.
Definition pratt_parse (pairs : list ppair) : outcome T :=
  let! (r, _) := pratt_expr (S (length pairs)) 0 pairs in Ret r.
End Pratt.

(** The closure [infix] of [parse_node] (meta/src/parser.rs L854-870): both operands have been
    evaluated before; the error of the left one comes first. *)
Definition parse_infix (lhs : parse_node + perror) (op : ppair) (rhs : parse_node + perror) :
  presult parse_node :=
  let? lhs := Ret lhs in
  let? rhs := Ret rhs in
  let span := span_union (n_span lhs) (n_span rhs) in
  match pp_rule op with
  | R_sequence_operator => ok (mkNode (PSeq lhs rhs TriviaNone) span)
  | R_tilde_operator => ok (mkNode (PSeq lhs rhs TriviaOptional) span)
  | R_caret_operator => ok (mkNode (PSeq lhs rhs TriviaMandatory) span)
  | R_choice_operator => ok (mkNode (PChoice lhs rhs) span)
  | _ => Panic
  end.

(** The first loop of [parse_path_raw] (meta/src/parser.rs L551-554). *)
Fixpoint path_segments (fuel : nat) (pairs : list ppair) : list text * list ppair :=
  match fuel with
  | 0 => ([], pairs)
  | S k =>
      match pairs with
      | p :: rest =>
          match pp_rule p with
          | R_identifier =>
              let (path, rest) := path_segments k (skip R_ancestry_operator rest) in (pp_str p :: path, rest)
          | _ => ([], pairs)
          end
      | [] => ([], [])
      end
  end.

Section Node.
Variable ops : operators.

(** The arguments of a call (meta/src/parser.rs L564-567), read by [node]. *)
Fixpoint call_args (node : ppair -> presult parse_node) (fuel : nat) (pairs : list ppair) :
  presult (list parse_node) :=
  match fuel with
  | 0 => OutOfFuel
  | S k =>
      match pairs with
      | p :: rest =>
          match pp_rule p with
          | R_expression =>
              let? arg := node p in
              let? args := call_args node k (skip R_comma rest) in ok (arg :: args)
          | _ => ok []
          end
      | [] => ok []
      end
  end.

(** meta/src/parser.rs L542-579 [parse_path_raw], where [node] is [parse_node] with the given span. *)
Definition parse_path_raw (node : ppair -> presult parse_node) (p : ppair) :
  presult (list text * option path_args) :=
  let (path, pairs) := path_segments (length (pp_inner p)) (pp_inner p) in
  match pairs with
  | p :: _ =>
      match pp_rule p with
      | R_call =>
          let! (_, pairs) := next (pp_inner p) in
          let? args := call_args node (S (length pairs)) pairs in ok (path, Some (PCall args))
      | R_slice => let? range := parse_range parse_isize (pp_inner p) in ok (path, Some (PSlice range))
      | _ => Panic
      end
  | [] => ok (path, None)
  end.

(** The loop of [parse_term] (meta/src/parser.rs L816-836): prefix pairs, postfix pairs, operand. *)
Fixpoint term_loop (operand : ppair -> option (presult parse_node)) (pairs prefix postfix : list ppair)
  (expression : option parse_node) : presult (list ppair * list ppair * option parse_node) :=
  match pairs with
  | [] => ok (prefix, postfix, expression)
  | p :: rest =>
      match pp_rule p with
      | R_positive_predicate_operator | R_negative_predicate_operator =>
          term_loop operand rest (prefix ++ [p]) postfix expression
      | R_optional_operator | R_tilde_operator | R_caret_operator | R_repeat_operator
      | R_repeat_once_operator | R_bounded_repeat =>
          term_loop operand rest prefix (postfix ++ [p]) expression
      | R_opening_paren | R_closing_paren => term_loop operand rest prefix postfix expression
      | _ =>
          match operand p with
          | Some r => let? e := r in term_loop operand rest prefix postfix (Some e)
          | None => Panic
          end
      end
  end.

(** The operands that [parse_term] reads (meta/src/parser.rs L828-834); [node] and [path] are
    [parse_node] and [parse_path]. *)
Definition operand (node path : ppair -> presult parse_node) (span : mspan) (p : ppair) :
  option (presult parse_node) :=
  match pp_rule p with
  | R_expression => Some (node p)
  | R_path => Some (path p)
  | R_string => Some (parse_string p span)
  | R_raw_string => Some (parse_raw_string p span)
  | R_insensitive_string => Some (parse_insensitive_string p span)
  | R_range => Some (parse_char_range p span)
  | _ => None
  end.

(** meta/src/parser.rs L849-878 [parse_node], L807-847 [parse_term] and L581-591 [parse_path]. The
    fuel bounds the nesting of pairs. [span] is a value of which only the path is used. *)
Fixpoint parse_node_fuel (fuel : nat) (span : mspan) (expr : ppair) : presult parse_node :=
  match fuel with
  | 0 => OutOfFuel
  | S k =>
      pratt_parse (parse_node + perror) ops (parse_term_fuel k span) parse_infix
        (skip R_choice_operator (pp_inner expr))
  end
with parse_term_fuel (fuel : nat) (span : mspan) (term : ppair) : presult parse_node :=
  match fuel with
  | 0 => OutOfFuel
  | S k =>
      let? (prefix, postfix, expression) :=
        term_loop (operand (parse_node_fuel k span) (parse_path_fuel k span) span) (pp_inner term) [] [] None in
      let! expression := or_panic expression in
      let? expression := fold_postfix postfix expression in
      let! expression := fold_prefix prefix expression in
      ok expression
  end
with parse_path_fuel (fuel : nat) (span : mspan) (p : ppair) : presult parse_node :=
  match fuel with
  | 0 => OutOfFuel
  | S k =>
      let span := from_pest span p in
      let? (path, args) := parse_path_raw (parse_node_fuel k span) p in
      ok (mkNode (PPath path args) span)
  end.
End Node.

(** The depth of a pair, which bounds the recursion of [parse_node] (meta/src/parser.rs L849). *)
Fixpoint depth (p : ppair) : nat :=
  let 'mkPPair _ _ _ _ inner := p in S (fold_right (fun q d => Nat.max (depth q) d) 0 inner).
(** meta/src/parser.rs L849-878 [parse_node], with enough fuel. *)
Definition parse_node_of (ops : operators) (span : mspan) (p : ppair) : presult parse_node :=
  parse_node_fuel ops (S (depth p)) span p.

(** The loop over documentation comments (meta/src/parser.rs L467-478). *)
Fixpoint rule_docs (pairs : list ppair) : presult (list text * list ppair) :=
  match pairs with
  | p :: rest =>
      if grule_eqb (pp_rule p) R_rule_doc then
        let? d := parse_rule_doc p in
        let? (ds, rest) := rule_docs rest in ok (d :: ds, rest)
      else ok ([], pairs)
  | [] => ok ([], [])
  end.

(** meta/src/parser.rs L457-529 [parse_rule]. *)
Definition parse_grammar_rule (path : text) (rule : ppair) : presult parse_rule :=
  let span := mkMSpan path (pp_start rule) (pp_end rule) in
  let? (doc, pairs) := rule_docs (pp_inner rule) in
  let! (name, pairs) := next pairs in
  let! (arguments, pairs) := next pairs in
  let args := map pp_str (filter (fun p => grule_eqb (pp_rule p) R_identifier) (pp_inner arguments)) in
  let pairs := skip R_assignment_operator pairs in
  let! (p, rest) := next pairs in
  let silent := grule_eqb (pp_rule p) R_silent_modifier in
  let pairs := if silent then rest else pairs in
  let! (p, _) := next pairs in
  let has_braces := grule_eqb (pp_rule p) R_opening_brace in
  let pairs := if has_braces then skip R_opening_brace pairs else pairs in
  let! (expr, pairs) := next pairs in
  let? node := parse_node_of rule_operators span expr in
  ok (mkParseRule doc (pp_str name) args span node silent).
