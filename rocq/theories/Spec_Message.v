(** What an error message must say. *)
From Coq Require Import String List NArith ZArith Arith Bool.
From Verif Require Import Model_Text Model_Tracker Spec_Text Spec_Pairs.
Import ListNotations.
Open Scope list_scope.

(** [t] is the decimal notation of [n]: digits, no superfluous leading zero, and the value. *)
Definition digit_value (c : char) : N := (c - 48)%N.
Definition value_of_digits (t : text) : N := fold_left (fun a c => 10 * a + digit_value c)%N t 0%N.
Definition notation (t : text) (n : N) : Prop :=
  Forall (fun c => (48 <= c <= 57)%N) t /\ value_of_digits t = n /\
  t <> [] /\ (forall r, t = 48%N :: r -> r = []).
Definition signed_notation (t : text) (z : Z) : Prop :=
  (0 <= z /\ notation t (Z.to_N z) \/ z < 0 /\ exists u, t = lit "-" ++ u /\ notation u (Z.to_N (- z)))%Z.

(** The rules in [l], each once, in increasing order. *)
Definition arranged (l l' : list rule) : Prop :=
  (forall r, In r l' <-> In r l) /\
  forall i j x y, i < j -> nth_error l' i = Some x -> nth_error l' j = Some y -> (x < y)%N.

Section Message.
Variable debug : rule -> text.

(** A list of rules. *)
Definition rules_text (l : list rule) (t : text) : Prop :=
  exists u, listing (map debug l) u /\ t = lit "[" ++ u ++ lit "]".

(** What is said about expected rules [p] and unexpected rules [n]. *)
Inductive headline : list rule -> list rule -> text -> Prop :=
| H_none : headline [] [] (lit "Unknown error (no rule tracked)")
| H_expected p tp : p <> [] -> rules_text p tp -> headline p [] (lit "Expected " ++ tp)
| H_unexpected n tn : n <> [] -> rules_text n tn -> headline [] n (lit "Unexpected " ++ tn)
| H_both p n tp tn :
    p <> [] -> n <> [] -> rules_text p tp -> rules_text n tn ->
    headline p n (lit "Unexpected " ++ tn ++ lit ", expected " ++ tp).

(** A misuse of the stack. *)
Inductive misuse_text : special_error -> text -> Prop :=
| M_slice a b ta tb : signed_notation ta a -> signed_notation tb b ->
    misuse_text (SliceOutOfBound a (Some b)) (lit "Peek slice " ++ ta ++ lit ".." ++ tb ++ lit " out of bound.")
| M_slice_from a ta : signed_notation ta a ->
    misuse_text (SliceOutOfBound a None) (lit "Peek slice " ++ ta ++ lit ".. out of bound.")
| M_repeat : misuse_text RepeatTooManyTimes (lit "Repeated too many times.")
| M_empty : misuse_text EmptyStack (lit "Nothing to pop or drop.").

(** The lines of one group: first the rules and the enclosing rule, then the misuses. *)
Definition group_lines (u : option rule) (v : tracked) (ls : list text) : Prop :=
  let '(p, n, x) := v in
  exists p' n' h ms, arranged p p' /\ arranged n n' /\ headline p' n' h /\
    Forall2 (fun e l => exists m, misuse_text e m /\
               l = m ++ match u with Some r => lit " (By " ++ debug r ++ lit ")" | None => [] end) x ms /\
    ls = (h ++ match u with Some r => lit ", by " ++ debug r | None => [] end ++ lit ".") :: ms.

(** The message for a failure between [a] and [b]: the part of the line before the failure with a
    marker, then the lines of all groups, each indented by [w] blanks. *)
Definition message_for (a : text) (groups : list (option rule * tracked)) (msg : text) : Prop :=
  exists y num lss, after_last_lf a y /\ notation num (N.of_nat (1 + lf_count a)) /\
    Forall2 (fun g ls => group_lines (fst g) (snd g) ls) groups lss /\
    msg = y ++ lit "^---" ++ flat_map (fun l => LF :: repeat 32%N (length num + 3) ++ l) (concat lss).
End Message.
