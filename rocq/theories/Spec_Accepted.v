(** Calls of silent rules with parameters that are left when the silent rules are put in place. *)
From Coq Require Import String List NArith ZArith.
From Verif Require Import Model_Text Model_Message Model_Meta Model_Import Spec_Grammar_Peg Spec_Occur Spec_Inline.
Import ListNotations.
Open Scope list_scope.

(** A call of a silent rule with parameters occurs in the expression. *)
Definition has_call (g : gmodule) (e : parse_expr) : Prop :=
  exists s l, macro g s /\ part (PPath [pr_name s] (Some (PCall l))) e.

(** [keeps g e]: with the silent rules put in place from the outside in, a call of one is left in [e]:
    - one in an argument of something else that is called;
    - one of a silent rule whose expression has none of its parameters;
    - one in what is put in place. *)
Inductive keeps (g : gmodule) : parse_expr -> Prop :=
| Keeps_in e e1 : (forall path args, e <> PPath path args) -> operand_of e1 e -> keeps g e1 -> keeps g e
| Keeps_argument path l n : (forall s, macro g s -> path <> [pr_name s]) -> In n l -> has_call g (n_expr n) ->
    keeps g (PPath path (Some (PCall l)))
| Keeps_unused s l : macro g s -> (forall x, In x (pr_args s) -> ~ mentions (n_expr (pr_node s)) x) ->
    keeps g (PPath [pr_name s] (Some (PCall l)))
| Keeps_body s l e : macro g s -> substitutes (combine (pr_args s) (map n_expr l)) (n_expr (pr_node s)) e -> keeps g e ->
    keeps g (PPath [pr_name s] (Some (PCall l))).

(** The expression of a rule that is not put in place keeps a call of a silent rule. *)
Definition left_calls (g : gmodule) : Prop := exists r, In r (g_rules g) /\ ~ macro g r /\ keeps g (n_expr (pr_node r)).

(** Enough for that not to happen: no argument contains a call of a silent rule with parameters, and each
    such rule has one of its parameters in its expression. *)
Definition simple_calls (g : gmodule) : Prop :=
  (forall r path l n, In r (g_rules g) -> part (PPath path (Some (PCall l))) (n_expr (pr_node r)) -> In n l -> ~ has_call g (n_expr n)) /\
  (forall s, macro g s -> exists x, In x (pr_args s) /\ mentions (n_expr (pr_node s)) x).
