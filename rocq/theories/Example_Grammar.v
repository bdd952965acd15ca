(** A small grammar for the examples beside the theorems (test data, not part of the model):
<<
    word  = push(('a'..'z')+)        rule 1
    blank = _{ ' '* }                rule 2, silent
    twice = word ~blank "=" ~blank peek   rule 3
    list  = (word & !"=")*  with blank between the elements   rule 4
    loop  = loop                     rule 5
>>  *)
From Coq Require Import String List NArith ZArith Arith Bool.
From Verif Require Import Model_Text Model_Position Model_Span Model_Stack Model_Tracker Model_Node.
Import ListNotations.
Open Scope list_scope.

Definition r_word : rule := 1%N.
Definition r_blank : rule := 2%N.
Definition r_twice : rule := 3%N.
Definition r_list : rule := 4%N.
Definition r_loop : rule := 5%N.
Definition n_word : node := Rule r_word [].
Definition n_blank : node := Rule r_blank [].
Definition sample_body (r : rule) : node :=
  match r with
  | 1%N => Push (RepOnce ascii_alpha_lower Empty)
  | 2%N => Rep (Char 32%N) Empty
  | 3%N => Seq [(n_word, Empty); (Str (lit "="), n_blank); (Peek, n_blank)]
  | 4%N => Rep (Seq [(n_word, Empty); (Negative (Str (lit "=")), Empty)]) n_blank
  | 5%N => Rule r_loop []
  | _ => NONE
  end.
Definition sample (r : rule) : rule_def := mkRule (N.eqb r r_blank) (fun _ => sample_body r).
Definition no_property (p : N) (c : char) : bool := false.
Definition at_new : state := mkState stack_new (tracker_new 0).
