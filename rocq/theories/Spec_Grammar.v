(** What grammar files mean: the pairs that the syntax in meta/src/grammar.pest allows, the rules
    and expressions they denote, and the faults they can contain. *)
From Coq Require Import String List NArith ZArith Arith Bool.
From Verif Require Import Model_Text Model_Meta Spec_Unescape Spec_Message.
Import ListNotations.
Open Scope list_scope.

(** The least and greatest numbers of the machine. *)
Definition usize_limit : N := 18446744073709551615%N.
Definition isize_low : Z := (-9223372036854775808)%Z.
Definition isize_high : Z := 9223372036854775807%Z.

(** Numbers: rules [number] and [integer]. *)
Definition number_pair (p : ppair) (n : N) : Prop := pp_rule p = R_number /\ notation (pp_str p) n.
Inductive integer_text : text -> Z -> Prop :=
| I_plain u n : notation u n -> integer_text u (Z.of_N n)
| I_plus u n : notation u n -> integer_text (43%N :: u) (Z.of_N n)
| I_minus u n : notation u n -> integer_text (45%N :: u) (- Z.of_N n).
Definition integer_pair (p : ppair) (z : Z) : Prop := pp_rule p = R_integer /\ integer_text (pp_str p) z.

(** Two optional bounds around a range operator. *)
Inductive bounds {T : Type} (num : ppair -> T -> Prop) : list ppair -> option T -> option T -> Prop :=
| B_both p q r x y : num p x -> pp_rule q = R_range_operator -> num r y -> bounds num [p; q; r] (Some x) (Some y)
| B_from p q x : num p x -> pp_rule q = R_range_operator -> bounds num [p; q] (Some x) None
| B_to q r y : pp_rule q = R_range_operator -> num r y -> bounds num [q; r] None (Some y)
| B_all q : pp_rule q = R_range_operator -> bounds num [q] None None.
(** The bounds of a repetition: the above, or an exact number. *)
Inductive counts : list ppair -> option N -> option N -> Prop :=
| C_bounds l x y : bounds number_pair l x y -> counts l x y
| C_exact p n : number_pair p n -> counts [p] (Some n) (Some n).

(** Where the pairs of a list start and end. *)
Definition extent (l : list ppair) (a b : nat) : Prop :=
  exists p q l1 l2, l = p :: l1 /\ l = l2 ++ [q] /\ a = pp_start p /\ b = pp_end q.

(** Names separated by ancestry operators. *)
Inductive segments : list ppair -> list text -> Prop :=
| Seg_last p : pp_rule p = R_identifier -> segments [p] [pp_str p]
| Seg_more p q l ns : pp_rule p = R_identifier -> pp_rule q = R_ancestry_operator -> segments l ns ->
    segments (p :: q :: l) (pp_str p :: ns).

(** Kinds of operators. *)
Inductive sequence_op : grule -> trivia -> Prop :=
| Op_sequence : sequence_op R_sequence_operator TriviaNone
| Op_tilde : sequence_op R_tilde_operator TriviaOptional
| Op_caret : sequence_op R_caret_operator TriviaMandatory.
Definition infix_op (r : grule) : Prop := r = R_choice_operator \/ exists t, sequence_op r t.
Definition prefix_op (r : grule) : Prop := r = R_positive_predicate_operator \/ r = R_negative_predicate_operator.
Inductive simple_postfix : grule -> (parse_node -> parse_expr) -> Prop :=
| Post_opt : simple_postfix R_optional_operator POpt
| Post_rep : simple_postfix R_repeat_operator PRep
| Post_once : simple_postfix R_repeat_once_operator PRepOnce
| Post_tilde : simple_postfix R_tilde_operator (fun n => PSeparated n TriviaOptional)
| Post_caret : simple_postfix R_caret_operator (fun n => PSeparated n TriviaMandatory).

(** The text of a character literal between the apostrophes: an escape or any other character. *)
Definition char_text (s : text) : Prop := escape_syntax s \/ exists c, c <> 92%N /\ s = [c].
(** The character it denotes. *)
Definition char_meaning (s : text) (c : char) : Prop := escape hex s c \/ (c <> 92%N /\ s = [c]).

(** * Syntax: the pairs that can occur. *)
Inductive syn_terminal : ppair -> Prop :=
| Syn_string s a b l : inner_str s -> syn_terminal (mkPPair R_string (34%N :: s ++ [34%N]) a b l)
| Syn_insensitive s a b l : inner_str s ->
    syn_terminal (mkPPair R_insensitive_string (105%N :: 34%N :: s ++ [34%N]) a b l)
| Syn_raw s a b pounds q1 content q2 :
    Forall (fun p => pp_rule p = R_pound /\ pp_str p = lit "#") pounds ->
    pp_rule q1 = R_quote -> pp_str q1 = [34%N] -> pp_rule content = R_inner_raw_str -> pp_rule q2 = R_quote ->
    syn_terminal (mkPPair R_raw_string s a b (pounds ++ [q1; content; q2]))
| Syn_range s a b p1 o p2 :
    syn_character p1 -> pp_rule o = R_range_operator -> syn_character p2 ->
    syn_terminal (mkPPair R_range s a b [p1; o; p2])
with syn_character : ppair -> Prop :=
| Syn_character s a b l : char_text s ->
    syn_character (mkPPair R_character (39%N :: s ++ [39%N]) a b l).

Inductive syn_postfix : ppair -> Prop :=
| Syn_simple p f : simple_postfix (pp_rule p) f -> syn_postfix p
| Syn_bounded s a b o l c x y i j :
    pp_rule o = R_opening_brace -> counts l x y -> extent l i j -> i <= j -> pp_rule c = R_closing_brace ->
    syn_postfix (mkPPair R_bounded_repeat s a b (o :: l ++ [c])).

Inductive syn_expression : ppair -> Prop :=
| Syn_expression s a b lead l :
    lead = [] \/ (exists o, lead = [o] /\ pp_rule o = R_choice_operator) -> syn_operands l ->
    syn_expression (mkPPair R_expression s a b (lead ++ l))
with syn_operands : list ppair -> Prop :=
| Syn_last t : syn_term t -> syn_operands [t]
| Syn_more t o l : syn_term t -> infix_op (pp_rule o) -> syn_operands l -> syn_operands (t :: o :: l)
with syn_term : ppair -> Prop :=
| Syn_term s a b pre core post :
    Forall (fun p => prefix_op (pp_rule p)) pre -> syn_core core -> Forall syn_postfix post ->
    syn_term (mkPPair R_term s a b (pre ++ core ++ post))
with syn_core : list ppair -> Prop :=
| Syn_terminal p : syn_terminal p -> syn_core [p]
| Syn_parens o e c : pp_rule o = R_opening_paren -> syn_expression e -> pp_rule c = R_closing_paren -> syn_core [o; e; c]
| Syn_path s a b l names args : segments l names -> syn_args args -> syn_core [mkPPair R_path s a b (l ++ args)]
with syn_args : list ppair -> Prop :=
| Syn_none : syn_args []
| Syn_call s a b o l c : pp_rule o = R_opening_paren -> syn_actuals l -> pp_rule c = R_closing_paren ->
    syn_args [mkPPair R_call s a b (o :: l ++ [c])]
| Syn_slice s a b o l c x y :
    pp_rule o = R_opening_brack -> bounds integer_pair l x y -> pp_rule c = R_closing_brack ->
    syn_args [mkPPair R_slice s a b (o :: l ++ [c])]
with syn_actuals : list ppair -> Prop :=
| Syn_no_actual : syn_actuals []
| Syn_actual e : syn_expression e -> syn_actuals [e]
| Syn_next e c l : syn_expression e -> pp_rule c = R_comma -> syn_actuals l -> syn_actuals (e :: c :: l).

(** Two things that are read in an unintended way are nowhere in the pair: the character literal that
    consists of a bare quote character, and raw strings with number signs. *)
Inductive tame : ppair -> Prop :=
| Tame p :
    (pp_rule p = R_character -> pp_str p <> [39; 34; 39]%N) ->
    (pp_rule p = R_raw_string -> Forall (fun q => pp_rule q <> R_pound) (pp_inner p)) ->
    Forall tame (pp_inner p) -> tame p.

(** * Meaning: the expression denoted by a pair of rule [expression] in the file [path]. *)
Section Meaning.
Variable path : text.
Definition at_pair (p : ppair) : mspan := mkMSpan path (pp_start p) (pp_end p).
Definition between (a b : nat) : mspan := mkMSpan path a b.
Definition from_of (n : parse_node) : nat := ms_start (n_span n).
Definition to_of (n : parse_node) : nat := ms_end (n_span n).

(** The limits of a repetition are sensible: representable, the maximum positive and not below the
    minimum. *)
Definition sensible (x y : option N) : Prop :=
  (forall m, x = Some m -> m <= usize_limit)%N /\
  (forall n, y = Some n -> 0 < n <= usize_limit)%N /\
  (forall m n, x = Some m -> y = Some n -> m <= n)%N.
Definition in_isize (x : option Z) : Prop := (forall z, x = Some z -> isize_low <= z <= isize_high)%Z.

Inductive den_terminal : ppair -> parse_expr -> Prop :=
| Den_string s r a b l : documented s r -> den_terminal (mkPPair R_string (34%N :: s ++ [34%N]) a b l) (PStr r)
| Den_insensitive s r a b l : documented s r ->
    den_terminal (mkPPair R_insensitive_string (105%N :: 34%N :: s ++ [34%N]) a b l) (PInsens r)
| Den_raw s a b pounds q1 content q2 :
    Forall (fun p => pp_rule p = R_pound) pounds -> pp_rule q1 = R_quote -> pp_rule content = R_inner_raw_str ->
    den_terminal (mkPPair R_raw_string s a b (pounds ++ [q1; content; q2])) (PStr (pp_str content))
| Den_range s a b p1 c1 o p2 c2 :
    den_character p1 c1 -> den_character p2 c2 -> den_terminal (mkPPair R_range s a b [p1; o; p2]) (PRange c1 c2)
with den_character : ppair -> char -> Prop :=
| Den_character s c a b l : char_meaning s c ->
    den_character (mkPPair R_character (39%N :: s ++ [39%N]) a b l) c.

(** What a postfix operator makes of its operand. *)
Inductive den_postfix : ppair -> parse_node -> parse_expr -> Prop :=
| Den_simple p f n : simple_postfix (pp_rule p) f -> den_postfix p n (f n)
| Den_bounded s a b o l c x y n : counts l x y -> sensible x y -> pp_rule c = R_closing_brace ->
    den_postfix (mkPPair R_bounded_repeat s a b (o :: l ++ [c])) n (PRepRange n (mkRange x y)).

Inductive den_expression : ppair -> parse_node -> Prop :=
| Den_expression s a b lead l n :
    lead = [] \/ (exists o, lead = [o] /\ pp_rule o = R_choice_operator) -> den_choices l n ->
    den_expression (mkPPair R_expression s a b (lead ++ l)) n
(** Alternatives group to the right and bind weaker than sequences. *)
with den_choices : list ppair -> parse_node -> Prop :=
| Den_alternative l n : den_sequence l n -> den_choices l n
| Den_choice l n o l' m : den_sequence l n -> pp_rule o = R_choice_operator -> den_choices l' m ->
    den_choices (l ++ o :: l') (mkNode (PChoice n m) (between (from_of n) (to_of m)))
(** Sequences group to the right, whatever their operators. *)
with den_sequence : list ppair -> parse_node -> Prop :=
| Den_operand t n : den_term t n -> den_sequence [t] n
| Den_seq t n o tr l m : den_term t n -> sequence_op (pp_rule o) tr -> den_sequence l m ->
    den_sequence (t :: o :: l) (mkNode (PSeq n m tr) (between (from_of n) (to_of m)))
(** Prefix operators bind weaker than postfix operators. *)
with den_term : ppair -> parse_node -> Prop :=
| Den_term s a b l n : den_prefixed l n -> den_term (mkPPair R_term s a b l) n
with den_prefixed : list ppair -> parse_node -> Prop :=
| Den_pos p l n : pp_rule p = R_positive_predicate_operator -> den_prefixed l n ->
    den_prefixed (p :: l) (mkNode (PPosPred n) (between (pp_start p) (to_of n)))
| Den_neg p l n : pp_rule p = R_negative_predicate_operator -> den_prefixed l n ->
    den_prefixed (p :: l) (mkNode (PNegPred n) (between (pp_start p) (to_of n)))
| Den_no_prefix l n : den_postfixed l n -> den_prefixed l n
with den_postfixed : list ppair -> parse_node -> Prop :=
| Den_post l n p e : den_postfixed l n -> den_postfix p n e ->
    den_postfixed (l ++ [p]) (mkNode e (between (from_of n) (pp_end p)))
| Den_core l n : den_core l n -> den_postfixed l n
with den_core : list ppair -> parse_node -> Prop :=
| Den_terminal p e : den_terminal p e -> den_core [p] (mkNode e (at_pair p))
| Den_parens o e c n : pp_rule o = R_opening_paren -> den_expression e n -> pp_rule c = R_closing_paren ->
    den_core [o; e; c] n
| Den_path s a b l names args x : segments l names -> den_args args x ->
    den_core [mkPPair R_path s a b (l ++ args)] (mkNode (PPath names x) (between a b))
with den_args : list ppair -> option path_args -> Prop :=
| Den_none : den_args [] None
| Den_call s a b o l c ns : den_actuals l ns -> pp_rule c = R_closing_paren ->
    den_args [mkPPair R_call s a b (o :: l ++ [c])] (Some (PCall ns))
| Den_slice s a b o l c x y : bounds integer_pair l x y -> in_isize x -> in_isize y ->
    pp_rule c = R_closing_brack ->
    den_args [mkPPair R_slice s a b (o :: l ++ [c])] (Some (PSlice (mkRange x y)))
with den_actuals : list ppair -> list parse_node -> Prop :=
| Den_no_actual : den_actuals [] []
| Den_actual e n : den_expression e n -> den_actuals [e] [n]
| Den_next e n c l ns : den_expression e n -> pp_rule c = R_comma -> den_actuals l ns ->
    den_actuals (e :: c :: l) (n :: ns).
End Meaning.

(** * Faults: what can be wrong with pairs that follow the syntax. *)
Inductive own_fault : ppair -> perror -> Prop :=
| F_string s a b l : (forall r, ~ documented s r) ->
    own_fault (mkPPair R_string (34%N :: s ++ [34%N]) a b l) (CustomError (lit "incorrect string literal") a b)
| F_insensitive s a b l : (forall r, ~ documented s r) ->
    own_fault (mkPPair R_insensitive_string (105%N :: 34%N :: s ++ [34%N]) a b l)
      (CustomError (lit "incorrect string literal") a b)
| F_character s a b l : (forall c, ~ char_meaning s c) ->
    own_fault (mkPPair R_character (39%N :: s ++ [39%N]) a b l) (CustomError (lit "incorrect char literal") a b)
| F_number s a b l n : notation s n -> (usize_limit < n)%N ->
    own_fault (mkPPair R_number s a b l) (CustomError (lit "number cannot overflow 8 bytes") a b)
| F_integer s a b l z : integer_text s z -> ~ (isize_low <= z <= isize_high)%Z ->
    own_fault (mkPPair R_integer s a b l) (CustomError (lit "number cannot overflow 8 bytes") a b)
| F_void s a b o l c x y tx ty i j : counts l (Some x) (Some y) -> (y < x)%N ->
    notation tx x -> notation ty y -> extent l i j ->
    own_fault (mkPPair R_bounded_repeat s a b (o :: l ++ [c]))
      (CustomError (lit "repetition range void (" ++ tx ++ lit " > " ++ ty ++ lit ")") i j)
| F_zero s a b o l c x i j : counts l x (Some 0%N) -> (forall m, x = Some m -> m = 0%N) -> extent l i j ->
    own_fault (mkPPair R_bounded_repeat s a b (o :: l ++ [c])) (CustomError (lit "cannot repeat 0 times") i j).

(** The rules whose inner pairs are looked at. *)
Definition composite (r : grule) : bool :=
  match r with
  | R_expression | R_term | R_path | R_call | R_slice | R_bounded_repeat | R_range => true
  | _ => false
  end.
Definition parts (p : ppair) : list ppair := if composite (pp_rule p) then pp_inner p else [].
(** A pair without a fault in it. *)
Inductive clean : ppair -> Prop :=
| Clean p : Forall clean (parts p) -> (forall e, ~ own_fault p e) -> clean p.
(** The first fault in a pair: the leftmost one, those of the parts before that of the whole. *)
Inductive first_fault : ppair -> perror -> Prop :=
| FF_part p l q l' e : parts p = l ++ q :: l' -> Forall clean l -> first_fault q e -> first_fault p e
| FF_own p e : Forall clean (parts p) -> own_fault p e -> first_fault p e.

(** * Rules. *)
(** The characters with the Unicode property White_Space. *)
Definition white (c : char) : Prop :=
  ((9 <= c /\ c <= 13) \/ (0x2000 <= c /\ c <= 0x200A))%N \/
  In c [0x20; 0x85; 0xA0; 0x1680; 0x2028; 0x2029; 0x202F; 0x205F; 0x3000]%N.
(** [t] is [s] without the white space around it. *)
Definition trimmed (s t : text) : Prop :=
  exists a b, s = a ++ t ++ b /\ Forall white a /\ Forall white b /\
    (forall c u, t = c :: u -> ~ white c) /\ (forall c u, t = u ++ [c] -> ~ white c).
(** A documentation comment: its marker, then the text. *)
Definition doc_pair (r : grule) (marker : text) (p : ppair) (d : text) : Prop :=
  pp_rule p = r /\ exists s, pp_str p = marker ++ s /\ trimmed s d.
(** Names separated by commas, one of which may follow the last. *)
Inductive formals : list ppair -> list text -> Prop :=
| Formals_none : formals [] []
| Formals_last p : pp_rule p = R_identifier -> formals [p] [pp_str p]
| Formals_more p c l ns : pp_rule p = R_identifier -> pp_rule c = R_comma -> formals l ns ->
    formals (p :: c :: l) (pp_str p :: ns).
Inductive opt_formals : list ppair -> list text -> Prop :=
| Opt_none : opt_formals [] []
| Opt_formals s a b o l c ns : pp_rule o = R_opening_paren -> formals l ns -> pp_rule c = R_closing_paren ->
    opt_formals [mkPPair R_arguments s a b (o :: l ++ [c])] ns.
(** The text after the equals sign: perhaps a silent modifier, and the expression, perhaps in braces. *)
Inductive rule_body : list ppair -> bool -> ppair -> Prop :=
| Body_plain e : pp_rule e = R_expression -> rule_body [e] false e
| Body_braces o e c : pp_rule o = R_opening_brace -> pp_rule e = R_expression -> pp_rule c = R_closing_brace ->
    rule_body [o; e; c] false e
| Body_silent m l e : pp_rule m = R_silent_modifier -> rule_body l false e -> rule_body (m :: l) true e.
(** A rule: its documentation, name, parameters, silence and expression. *)
Inductive rule_syntax : ppair -> list text -> text -> list text -> bool -> ppair -> Prop :=
| Rule_syntax s a b docs ds name args ns asg body silent e :
    Forall2 (doc_pair R_rule_doc (lit "///")) docs ds ->
    In (pp_rule name) [R_identifier; R_tilde_operator; R_caret_operator] ->
    opt_formals args ns -> pp_rule asg = R_assignment_operator -> pp_inner asg = [] -> rule_body body silent e ->
    rule_syntax (mkPPair R_grammar_rule s a b (docs ++ name :: args ++ asg :: body)) ds (pp_str name) ns silent e.
