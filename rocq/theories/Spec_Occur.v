(** Occurrences in grammar expressions, and the graph of rules that mention each other. *)
From Coq Require Import String List NArith ZArith.
From Verif Require Import Model_Text Model_Message Model_Meta.
Import ListNotations.
Open Scope list_scope.

(** The operands of an expression; the arguments of a call are operands. *)
Inductive operand_of : parse_expr -> parse_expr -> Prop :=
| Op_pos n : operand_of (n_expr n) (PPosPred n)
| Op_neg n : operand_of (n_expr n) (PNegPred n)
| Op_seq_l l r t : operand_of (n_expr l) (PSeq l r t)
| Op_seq_r l r t : operand_of (n_expr r) (PSeq l r t)
| Op_choice_l l r : operand_of (n_expr l) (PChoice l r)
| Op_choice_r l r : operand_of (n_expr r) (PChoice l r)
| Op_opt n : operand_of (n_expr n) (POpt n)
| Op_rep n : operand_of (n_expr n) (PRep n)
| Op_once n : operand_of (n_expr n) (PRepOnce n)
| Op_range n range : operand_of (n_expr n) (PRepRange n range)
| Op_separated n t : operand_of (n_expr n) (PSeparated n t)
| Op_arg path args n : In n args -> operand_of (n_expr n) (PPath path (Some (PCall args))).

(** [part e' e]: [e'] occurs in [e]. *)
Inductive part (e' : parse_expr) : parse_expr -> Prop :=
| Part_self : part e' e'
| Part_in e1 e : part e' e1 -> operand_of e1 e -> part e' e.

(** The name [x] occurs in [e], with or without arguments. *)
Definition mentions (e : parse_expr) (x : text) : Prop := exists args, part (PPath [x] args) e.
(** [e] asks for the trivia [t] somewhere between its parts. *)
Definition asks (e : parse_expr) (t : trivia) : Prop :=
  (exists l r, part (PSeq l r t) e) \/ (exists n, part (PSeparated n t) e).

(** A rule called [a] mentions [b]. *)
Definition uses (rules : list parse_rule) (a b : text) : Prop :=
  exists r, In r rules /\ pr_name r = a /\ mentions (n_expr (pr_node r)) b.
(** [chain rules l a b]: [a] mentions the first of [l], each of [l] mentions the next, the last mentions
    [b]. *)
Inductive chain (rules : list parse_rule) : list text -> text -> text -> Prop :=
| Chain_last a b : uses rules a b -> chain rules [] a b
| Chain_next a x l b : uses rules a x -> chain rules l x b -> chain rules (x :: l) a b.
