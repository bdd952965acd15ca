(** Which expressions are tried where an expression is tried, before any input is consumed. *)
From Coq Require Import List NArith Relations.
From Verif Require Import Model_Text Model_Tracker Model_Node Spec_Peg.
Import ListNotations.

Section Terminate.
Variable env : rule -> rule_def.
Variable property : N -> char -> bool.

(** Somewhere, with some stack, the expression matches the empty text. *)
Definition passes (n : node) : Prop :=
  exists pre post K K', peg env property n pre post K (Ok pre post K').

(** The direct parts of an expression; the part of a rule is its body. *)
Inductive part : node -> node -> Prop :=
| part_positive t : part (Positive t) t
| part_negative t : part (Negative t) t
| part_push t : part (Push t) t
| part_opt t : part (Opt t) t
| part_seq fields t : In t (sequence_items fields) -> part (Seq fields) t
| part_choice ts t : In t ts -> part (Choice ts) t
| part_rep t trivia min max : part (RepMinMax t trivia min max) t
| part_trivia t trivia min max : part (RepMinMax t trivia min max) trivia
| part_rule r args : part (Rule r args) (rd_body (env r) args).
(** Parts of parts, and so on. *)
Definition reaches : node -> node -> Prop := clos_refl_trans _ part.

(** The parts that can be tried before the expression has consumed anything. *)
Inductive leads : node -> node -> Prop :=
| leads_positive t : leads (Positive t) t
| leads_negative t : leads (Negative t) t
| leads_push t : leads (Push t) t
| leads_opt t : leads (Opt t) t
| leads_seq fields before t after :
    sequence_items fields = before ++ t :: after -> Forall passes before -> leads (Seq fields) t
| leads_choice ts t : In t ts -> leads (Choice ts) t
| leads_rep t trivia min max : leads (RepMinMax t trivia min max) t
| leads_trivia t trivia min max : passes t -> leads (RepMinMax t trivia min max) trivia
| leads_rule r args : leads (Rule r args) (rd_body (env r) args).

(** From no part of [n] there is an infinite descent without consuming input. *)
Definition no_left_recursion (n : node) : Prop :=
  forall m, reaches n m -> Acc (fun b a => leads a b) m.

(** Expressions with all of their parts. *)
Definition closed (nodes : list node) : Prop := forall a b, In a nodes -> part a b -> In b nodes.
(** A rule can reach itself without consuming input. *)
Definition reaches_itself (n : node) : Prop := clos_trans _ leads n n.

(** A round of the repetition can match the empty text, the first one aside. *)
Definition empty_rounds (t trivia : node) : Prop := passes trivia /\ passes t.

(** The part that is tried first whenever the expression is tried. *)
Inductive begins : node -> node -> Prop :=
| begins_positive t : begins (Positive t) t
| begins_negative t : begins (Negative t) t
| begins_push t : begins (Push t) t
| begins_opt t : begins (Opt t) t
| begins_seq t trivia fields : begins (Seq ((t, trivia) :: fields)) t
| begins_choice t ts : begins (Choice (t :: ts)) t
| begins_rep t trivia min max : (0 < max)%N -> begins (RepMinMax t trivia min max) t
| begins_rule r args : begins (Rule r args) (rd_body (env r) args).
End Terminate.

(** A run ends and does not panic. *)
Definition returns {A : Type} (o : outcome A) : Prop := exists a, o = Ret a.
