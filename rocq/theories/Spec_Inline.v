(** Silent rules with parameters and the substitution of parameters. *)
From Coq Require Import String List NArith ZArith.
From Verif Require Import Model_Text Model_Message Model_Meta Model_Import Spec_Grammar_Peg Spec_Occur.
Import ListNotations.
Open Scope list_scope.

(** The silent rules with parameters of a grammar, and of it and the grammars it imports. *)
Definition macro (g : gmodule) (s : parse_rule) : Prop := In s (g_rules g) /\ pr_silent s = true /\ pr_args s <> [].
Inductive some_macro : gmodule -> parse_rule -> Prop :=
| SM_own g s : macro g s -> some_macro g s
| SM_file g alias g' s : In (File alias g') (g_imports g) -> some_macro g' s -> some_macro g s.

(** [substitutes sigma e e']: [e'] is [e] with all parameters replaced at once, also in arguments.
    Spans are those of [e]. *)
Inductive substitutes (sigma : list (text * parse_expr)) : parse_expr -> parse_expr -> Prop :=
| Su_param x a : assoc x sigma a -> substitutes sigma (PPath [x] None) a
| Su_path path : (forall x a, path = [x] -> ~ assoc x sigma a) -> substitutes sigma (PPath path None) (PPath path None)
| Su_slice path range : substitutes sigma (PPath path (Some (PSlice range))) (PPath path (Some (PSlice range)))
| Su_call path l l' : substitutes_nodes sigma l l' -> substitutes sigma (PPath path (Some (PCall l))) (PPath path (Some (PCall l')))
| Su_str s : substitutes sigma (PStr s) (PStr s)
| Su_insens s : substitutes sigma (PInsens s) (PInsens s)
| Su_range a b : substitutes sigma (PRange a b) (PRange a b)
| Su_pos e e' s : substitutes sigma e e' -> substitutes sigma (PPosPred (mkNode e s)) (PPosPred (mkNode e' s))
| Su_neg e e' s : substitutes sigma e e' -> substitutes sigma (PNegPred (mkNode e s)) (PNegPred (mkNode e' s))
| Su_seq l l' s r r' s' t : substitutes sigma l l' -> substitutes sigma r r' ->
    substitutes sigma (PSeq (mkNode l s) (mkNode r s') t) (PSeq (mkNode l' s) (mkNode r' s') t)
| Su_choice l l' s r r' s' : substitutes sigma l l' -> substitutes sigma r r' ->
    substitutes sigma (PChoice (mkNode l s) (mkNode r s')) (PChoice (mkNode l' s) (mkNode r' s'))
| Su_opt e e' s : substitutes sigma e e' -> substitutes sigma (POpt (mkNode e s)) (POpt (mkNode e' s))
| Su_rep e e' s : substitutes sigma e e' -> substitutes sigma (PRep (mkNode e s)) (PRep (mkNode e' s))
| Su_once e e' s : substitutes sigma e e' -> substitutes sigma (PRepOnce (mkNode e s)) (PRepOnce (mkNode e' s))
| Su_reprange e e' s range : substitutes sigma e e' ->
    substitutes sigma (PRepRange (mkNode e s) range) (PRepRange (mkNode e' s) range)
| Su_separated e e' s t : substitutes sigma e e' ->
    substitutes sigma (PSeparated (mkNode e s) t) (PSeparated (mkNode e' s) t)
with substitutes_nodes (sigma : list (text * parse_expr)) : list parse_node -> list parse_node -> Prop :=
| Sus_nil : substitutes_nodes sigma [] []
| Sus_cons e e' s l l' : substitutes sigma e e' -> substitutes_nodes sigma l l' ->
    substitutes_nodes sigma (mkNode e s :: l) (mkNode e' s :: l').

(** A parameter [x] that occurs without arguments, and in at most one of the arguments of each call. *)
Definition used_once (x : text) (e : parse_expr) : Prop :=
  (forall args, part (PPath [x] args) e -> args = None) /\
  (forall path l1 a l2 b l3, part (PPath path (Some (PCall (l1 ++ a :: l2 ++ b :: l3)))) e ->
     ~ (mentions (n_expr a) x /\ mentions (n_expr b) x)).

(** Conditions under which inlining keeps the meaning:
    - calls whose last name is that of a silent rule with parameters call one of the same grammar;
    - trivia have no parameters, and parameters have no arguments;
    - the parameters of such a rule differ, are not names of other things, and each is used as above;
    - these parameters and the names in the body of such a rule are not parameters of other rules;
    - no rule has a parameter that is called like such a rule;
    - separators stand directly under repetitions (so in grammars that are read from text). *)
Definition not_separated (e : parse_expr) : Prop := forall n t, e <> PSeparated n t.
Record tidy (unicode : list text) (g : gmodule) : Prop := mkTidy {
  tidy_calls : forall r path l s, In r (g_rules g) -> part (PPath path (Some (PCall l))) (n_expr (pr_node r)) ->
    some_macro g s -> last path [] = pr_name s -> exists s', macro g s' /\ path = [pr_name s'];
  tidy_trivia : forall r, In r (g_rules g) -> is_trivia_rule r -> pr_args r = [];
  tidy_alone : forall r x args, In r (g_rules g) -> In x (pr_args r) -> part (PPath [x] args) (n_expr (pr_node r)) -> args = None;
  tidy_params : forall s, macro g s -> NoDup (pr_args s) /\
    forall x, In x (pr_args s) -> (forall ent, ~ names unicode g [x] ent) /\ used_once x (n_expr (pr_node s));
  tidy_names : forall s r x, macro g s -> In r (g_rules g) -> In x (pr_args r) ->
    In x (pr_args s) \/ mentions (n_expr (pr_node s)) x -> r = s;
  tidy_hidden : forall s r, macro g s -> In r (g_rules g) -> ~ In (pr_name s) (pr_args r);
  tidy_body : forall s, macro g s -> not_separated (n_expr (pr_node s));
  tidy_arguments : forall r path l a, In r (g_rules g) -> part (PPath path (Some (PCall l))) (n_expr (pr_node r)) -> In a l ->
    not_separated (n_expr a) }.

(** The silent rules with parameters can be ordered so that each calls only earlier ones. *)
Definition ordered (g : gmodule) (rank : parse_rule -> nat) : Prop :=
  forall s l s', macro g s -> part (PPath [pr_name s'] (Some (PCall l))) (n_expr (pr_node s)) -> macro g s' -> rank s' < rank s.
(** The trivia call no silent rules with parameters. *)
Definition plain_trivia (g : gmodule) : Prop :=
  forall r path l s, In r (g_rules g) -> is_trivia_rule r -> part (PPath path (Some (PCall l))) (n_expr (pr_node r)) ->
    some_macro g s -> last path [] <> pr_name s.

(** The order of strings in Rust: a prefix comes first, otherwise the first different character decides.
    Silent rules are looked up in the grammar itself and then in the imported ones in this order. *)
Definition text_before (a b : text) : Prop :=
  (exists c r, b = a ++ c :: r) \/ (exists p c d a' b', a = p ++ c :: a' /\ b = p ++ d :: b' /\ (c < d)%N).
Definition key_before (a b : option text) : Prop :=
  match a, b with
  | None, Some _ => True
  | Some a, Some b => text_before a b
  | _, None => False
  end.
