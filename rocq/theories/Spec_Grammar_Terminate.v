(** Left recursion in grammars: which expressions are tried where an expression is tried, before any input
    is consumed. An expression is considered together with the module in which it is written and the
    arguments of its rule. *)
From Coq Require Import String List NArith ZArith Relations.
From Verif Require Import Model_Text Model_Message Model_Meta Model_Import Model_Node Spec_Peg Spec_Grammar_Peg Spec_Occur Spec_Generator.
Import ListNotations.
Open Scope list_scope.

Section Terminate.
Variable unicode : list text.
Variable property : N -> char -> bool.

(** Somewhere, with some stack, the expression matches the empty text. *)
Definition can_be_empty (c : closure) : Prop :=
  let 'Clo g rho e := c in exists pre post K K', gpeg unicode property g rho e pre post K (Ok pre post K').

Definition no_parameter (rho : list (text * closure)) (path : list text) : Prop := forall x c, path = [x] -> ~ assoc x rho c.
Definition is_path (e : parse_expr) : Prop := exists path args, e = PPath path args.
Definition is_seq (e : parse_expr) : Prop := exists l r t, e = PSeq l r t.

(** What a name stands for: the argument, the body of the rule, or what is pushed. *)
Inductive stands_for : closure -> closure -> Prop :=
| SF_param g rho x args c : assoc x rho c -> stands_for (Clo g rho (PPath [x] args)) c
| SF_rule g rho path args l g' r :
    no_parameter rho path -> names unicode g path (E_rule g' r) -> call_arguments args l -> length l = length (pr_args r) ->
    stands_for (Clo g rho (PPath path args))
      (Clo g' (combine (pr_args r) (map (fun n => Clo g rho (n_expr n)) l)) (n_expr (pr_node r)))
| SF_push g rho path n :
    no_parameter rho path -> names unicode g path (E_builtin [lit "stack"; lit "push"]) ->
    stands_for (Clo g rho (PPath path (Some (PCall [n])))) (Clo g rho (n_expr n)).

(** The direct parts of an expression, with the trivia between its parts. *)
Inductive piece : closure -> closure -> Prop :=
| PC_operand g rho e e' : operand_of e' e -> ~ is_path e -> piece (Clo g rho e) (Clo g rho e')
| PC_name c c' : stands_for c c' -> piece c c'
| PC_seq_trivia g rho l r t e : trivia_body g t e -> piece (Clo g rho (PSeq l r t)) (Clo g [] e)
| PC_rep_trivia g rho e n min max t e' :
    repetition e n min max -> round_trivia (n_expr n) t -> trivia_body g t e' -> piece (Clo g rho e) (Clo g [] e').
Definition pieces : closure -> closure -> Prop := clos_refl_trans _ piece.

(** The parts that can be tried before the expression has consumed anything. *)
Inductive starts : closure -> closure -> Prop :=
| ST_operand g rho e e' : operand_of e' e -> ~ is_path e -> ~ is_seq e -> starts (Clo g rho e) (Clo g rho e')
| ST_name c c' : stands_for c c' -> starts c c'
| ST_seq_left g rho l r t : starts (Clo g rho (PSeq l r t)) (Clo g rho (n_expr l))
| ST_seq_trivia g rho l r t e :
    can_be_empty (Clo g rho (n_expr l)) -> trivia_body g t e -> starts (Clo g rho (PSeq l r t)) (Clo g [] e)
| ST_seq_right g rho l r t :
    can_be_empty (Clo g rho (n_expr l)) -> (forall e, trivia_body g t e -> can_be_empty (Clo g [] e)) ->
    starts (Clo g rho (PSeq l r t)) (Clo g rho (n_expr r))
| ST_rep_trivia g rho e n min max t e' :
    repetition e n min max -> round_trivia (n_expr n) t -> can_be_empty (Clo g rho (n_expr n)) -> trivia_body g t e' ->
    starts (Clo g rho e) (Clo g [] e').

(** From no part there is an infinite descent without consuming input. *)
Definition not_left_recursive (c : closure) : Prop := forall d, pieces c d -> Acc (fun b a => starts a b) d.

(** Finitely many expressions with all of their parts; an expression that can reach itself without
    consuming input. *)
Definition closed_grammar (l : list closure) : Prop := forall c d, In c l -> piece c d -> In d l.
Definition leads_back (c : closure) : Prop := clos_trans _ starts c c.

(** The part that is tried first whenever the expression is tried. A name must not be ambiguous. *)
Inductive opens : closure -> closure -> Prop :=
| OP_pos g rho n : opens (Clo g rho (PPosPred n)) (Clo g rho (n_expr n))
| OP_neg g rho n : opens (Clo g rho (PNegPred n)) (Clo g rho (n_expr n))
| OP_opt g rho n : opens (Clo g rho (POpt n)) (Clo g rho (n_expr n))
| OP_seq g rho l r t : opens (Clo g rho (PSeq l r t)) (Clo g rho (n_expr l))
| OP_choice g rho l r : opens (Clo g rho (PChoice l r)) (Clo g rho (n_expr l))
| OP_rep g rho e n min max : repetition e n min max -> (0 < max)%N -> opens (Clo g rho e) (Clo g rho (n_expr n))
| OP_separated g rho n t : opens (Clo g rho (PSeparated n t)) (Clo g rho (n_expr n))
| OP_name g rho path args c :
    stands_for (Clo g rho (PPath path args)) c ->
    (forall x y, names unicode g path x -> names unicode g path y -> x = y) -> opens (Clo g rho (PPath path args)) c.
End Terminate.
