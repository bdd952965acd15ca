(** The tests of meta/src/parser.rs L1008-L1456 that compare the pairs of the pest2 parser, run on the
    model of it. These are tests of the model, not proofs. *)
From Coq Require Import String List NArith Arith Bool.
From Verif Require Import Model_Text Model_Message Model_Meta Model_Pest2.
Import ListNotations.
Open Scope list_scope.

(** Pairs without their texts, as the tests of /repo write them (e.g. meta/src/parser.rs L1015-L1044). *)
Inductive shape_of := P (r : grule) (a b : nat) (l : list shape_of).
Fixpoint bare (p : ppair) : shape_of := let 'mkPPair r _ a b l := p in P r a b (map bare l).
Definition tokens (r : qrule) (input : text) : option (list shape_of) :=
  match qparse (enough input) r input with Ret (Some (_, l)) => Some (map bare l) | _ => None end.
Definition name (a b : nat) : shape_of := P R_expression a b [P R_term a b [P R_path a b [P R_identifier a (S a) []]]].
Definition operand (a b : nat) : shape_of := P R_term a b [P R_path a b [P R_identifier a (S a) []]].

(** meta/src/parser.rs L1009-L1044. *)
Example rules_with_braces : tokens (Silent S_grammar_rules) (lit "a = { b } c = { d }") = Some
  [P R_grammar_rule 0 9
     [P R_identifier 0 1 []; P R_assignment_operator 2 3 []; P R_opening_brace 4 5 []; name 6 8; P R_closing_brace 8 9 []];
   P R_grammar_rule 10 19
     [P R_identifier 10 11 []; P R_assignment_operator 12 13 []; P R_opening_brace 14 15 []; name 16 18; P R_closing_brace 18 19 []];
   P R_eoi 19 19 []].
Proof. vm_compute. reflexivity. Qed.
(** meta/src/parser.rs L1046-L1072. *)
Example rule : tokens (Loud R_grammar_rule) (lit "a = b - c") = Some
  [P R_grammar_rule 0 9 [P R_identifier 0 1 []; P R_assignment_operator 2 3 [];
     P R_expression 4 9 [operand 4 6; P R_sequence_operator 6 7 []; operand 8 9]]].
Proof. vm_compute. reflexivity. Qed.
(** meta/src/parser.rs L1074-L1102. *)
Example rule_with_brace : tokens (Loud R_grammar_rule) (lit "a = { b - c }") = Some
  [P R_grammar_rule 0 13 [P R_identifier 0 1 []; P R_assignment_operator 2 3 []; P R_opening_brace 4 5 [];
     P R_expression 6 12 [operand 6 8; P R_sequence_operator 8 9 []; operand 10 12]; P R_closing_brace 12 13 []]].
Proof. vm_compute. reflexivity. Qed.
(** meta/src/parser.rs L1104-L1120. *)
Example path : tokens (Loud R_path) (lit "a::b :: c") = Some
  [P R_path 0 9 [P R_identifier 0 1 []; P R_ancestry_operator 1 3 []; P R_identifier 3 4 []; P R_ancestry_operator 5 7 [];
     P R_identifier 8 9 []]].
Proof. vm_compute. reflexivity. Qed.
(** meta/src/parser.rs L1122-L1153. *)
Example path_with_args : tokens (Loud R_path) (lit "a(b, c)") = Some
  [P R_path 0 7 [P R_identifier 0 1 [];
     P R_call 1 7 [P R_opening_paren 1 2 []; name 2 3; P R_comma 3 4 []; name 5 6; P R_closing_paren 6 7 []]]].
Proof. vm_compute. reflexivity. Qed.
(** meta/src/parser.rs L1155-L1174. *)
Example path_with_slice : tokens (Loud R_path) (lit "a[-1..-2]") = Some
  [P R_path 0 9 [P R_identifier 0 1 [];
     P R_slice 1 9 [P R_opening_brack 1 2 []; P R_integer 2 4 []; P R_range_operator 4 6 []; P R_integer 6 8 []; P R_closing_brack 8 9 []]]].
Proof. vm_compute. reflexivity. Qed.
(** meta/src/parser.rs L1176-L1190. *)
Example string : tokens (Loud R_string) (lit """hello""") = Some
  [P R_string 0 7 [P R_quote 0 1 []; P R_inner_str 1 6 []; P R_quote 6 7 []]].
Proof. vm_compute. reflexivity. Qed.
(** meta/src/parser.rs L1192-L1206. *)
Example raw_string_zero_pounds : tokens (Loud R_raw_string) (lit "r""hello""") = Some
  [P R_raw_string 0 8 [P R_quote 1 2 []; P R_inner_raw_str 2 7 []; P R_quote 7 8 []]].
Proof. vm_compute. reflexivity. Qed.
(** meta/src/parser.rs L1208-L1223. *)
Example raw_string_one_pound : tokens (Loud R_raw_string) (lit "r#""hello""#") = Some
  [P R_raw_string 0 10 [P R_pound 1 2 []; P R_quote 2 3 []; P R_inner_raw_str 3 8 []; P R_quote 8 9 []]].
Proof. vm_compute. reflexivity. Qed.
(** meta/src/parser.rs L1225-L1241. *)
Example raw_string_two_pounds : tokens (Loud R_raw_string) (lit "r##""hello""##") = Some
  [P R_raw_string 0 12 [P R_pound 1 2 []; P R_pound 2 3 []; P R_quote 3 4 []; P R_inner_raw_str 4 9 []; P R_quote 9 10 []]].
Proof. vm_compute. reflexivity. Qed.
(** meta/src/parser.rs L1243-L1259. *)
Example insensitive_string : tokens (Loud R_insensitive_string) (lit "i""hello""") = Some
  [P R_insensitive_string 0 8 [P R_string 1 8 [P R_quote 1 2 []; P R_inner_str 2 7 []; P R_quote 7 8 []]]].
Proof. vm_compute. reflexivity. Qed.
(** meta/src/parser.rs L1261-L1283. *)
Example range : tokens (Loud R_range) (lit "'\n' .. '\x1a'") = Some
  [P R_range 0 14
     [P R_character 0 4 [P R_single_quote 0 1 []; P R_inner_chr 1 3 []; P R_single_quote 3 4 []]; P R_range_operator 5 7 [];
      P R_character 8 14 [P R_single_quote 8 9 []; P R_inner_chr 9 13 []; P R_single_quote 13 14 []]]].
Proof. vm_compute. reflexivity. Qed.
(** meta/src/parser.rs L1285-L1307. *)
Example comment : tokens (Loud R_expression) (lit "a ~    // asda" ++ [10%N] ++ lit " b") = Some
  [P R_expression 0 17 [operand 0 2; P R_tilde_operator 2 3 []; operand 16 17]].
Proof. vm_compute. reflexivity. Qed.
(** The texts that are rejected in the tests meta/src/parser.rs L1309-L1455. *)
Example rejected : forall s, In s
  [lit "0"; lit "a "; lit "a = *"; lit "a = {}"; lit "a = b -"; lit "a = b %"; lit "a = """; lit "a = ' "; lit "a = 'a'"; lit "a(b c)"] ->
  qparse (enough s) (Silent S_grammar_rules) s = Ret None.
Proof. intros s H. repeat (destruct H as [<-|H]; [vm_compute; reflexivity|]). destruct H. Qed.
