(** Conditions on grammars under which the emitted program can be read as Rust. *)
From Coq Require Import String List NArith ZArith.
From Verif Require Import Model_Text Model_Message Model_Meta Model_Import Model_Node Spec_Peg Spec_Grammar_Peg Spec_Occur.
Import ListNotations.
Open Scope list_scope.

(** Names that mean something else in the emitted program or cannot be raw identifiers. *)
Definition reserved : list text :=
  map lit ["super"; "self"; "Self"; "crate"; "_"; "::pest3"; "__OptionalTrivia"; "__MandatoryTrivia"]%string.

Definition import_alias (i : import) : text := match i with Builtin a _ => a | File a _ => a end.

(** The body of a trivia rule. *)
Definition trivia_body (g : gmodule) (t : trivia) (e : parse_expr) : Prop :=
  exists name r, trivia_name t = Some name /\ last_rule g name r /\ e = n_expr (pr_node r).

(** - Imports have different names. Those of the built-in rules name built-in rules or groups, and a
      single rule keeps its name (else see [C43_renamed_builtin_refuted]); Unicode properties may be
      renamed.
    - No name is reserved; no parameter hides a module.
    - Trivia have no parameters and do not contain themselves (type aliases cannot). *)
Inductive fine (unicode : list text) : gmodule -> Prop :=
| Fine g :
    NoDup (map import_alias (g_imports g)) ->
    (forall i, In i (g_imports g) -> ~ In (import_alias i) reserved) ->
    (forall alias p, In (Builtin alias p) (g_imports g) ->
       exists q, p = lit "pest" :: q /\
         (builtin_group q \/ (builtin unicode q /\ (alias = last q [] \/ exists x, q = [lit "unicode"; x])))) ->
    (forall r, In r (g_rules g) -> ~ In (pr_name r) reserved) ->
    (forall r x, In r (g_rules g) -> In x (pr_args r) -> ~ In x reserved /\ forall g', ~ In (File x g') (g_imports g)) ->
    (forall r, In r (g_rules g) -> is_trivia_rule r -> pr_args r = []) ->
    (forall t e, trivia_body g t e -> ~ asks e t) ->
    (forall e e', trivia_body g TriviaOptional e -> trivia_body g TriviaMandatory e' ->
       ~ (asks e TriviaMandatory /\ asks e' TriviaOptional)) ->
    (forall alias g', In (File alias g') (g_imports g) -> fine unicode g') ->
    fine unicode g.

(** The names that a grammar gives to rules other than trivia, to their parameters and to files. *)
Inductive bears : gmodule -> text -> Prop :=
| Bears_rule g r : In r (g_rules g) -> ~ is_trivia_rule r -> bears g (pr_name r)
| Bears_param g r x : In r (g_rules g) -> ~ is_trivia_rule r -> In x (pr_args r) -> bears g x
| Bears_file g alias g' : In (File alias g') (g_imports g) -> bears g alias
| Bears_inside g alias g' x : In (File alias g') (g_imports g) -> bears g' x -> bears g x.

(** The names of the Unicode properties differ, also in upper and lower case. *)
Definition distinct_properties (unicode : list text) : Prop := NoDup (map folded unicode).

(** The module that holds the types is called [rules], or there are no other files and its name is not
    that of another item. *)
Definition fine_types_mod (tm : text) (g : gmodule) : Prop :=
  tm = lit "rules" \/
  (~ In tm (map lit ["Rule"; "wrapper"; "unicode"; "generics"; "super"; "::pest3"]%string) /\
   forall alias g', ~ In (File alias g') (g_imports g)).

(** [located tm top m g]: the types of the grammar [g] are in the Rust module [m]; [g] is the main
    grammar or imported from it. *)
Inductive located (tm : text) (top : gmodule) : list text -> gmodule -> Prop :=
| Loc_top : located tm top [tm] top
| Loc_file m g alias g' : located tm top m g -> In (File alias g') (g_imports g) -> located tm top (m ++ [alias; tm]) g'.

(** How a name may be used: alone, with arguments, with a slice. A rule takes as many arguments as it
    declares, and none may be written or left out; a property may be called without arguments. *)
Inductive usage := U_alone | U_call (argc : nat) | U_slice.
Inductive takes : entity -> usage -> Prop :=
| Takes_none g r : pr_args r = [] -> takes (E_rule g r) U_alone
| Takes_args g r : takes (E_rule g r) (U_call (length (pr_args r)))
| Takes_alone q : q <> [lit "stack"; lit "push"] -> takes (E_builtin q) U_alone
| Takes_push : takes (E_builtin [lit "stack"; lit "push"]) (U_call 1)
| Takes_peek : takes (E_builtin [lit "stack"; lit "peek"]) U_slice
| Takes_property x : takes (E_builtin [lit "unicode"; x]) (U_call 0).

Definition usage_in (args : option path_args) : usage :=
  match args with None => U_alone | Some (PCall l) => U_call (length l) | Some (PSlice _) => U_slice end.
(** All names in the expression of a rule with the given parameters are known and used as they should.
    What is written after a parameter is ignored. *)
Inductive well_named (unicode : list text) (g : gmodule) (params : list text) : parse_expr -> Prop :=
| WN_param x args : In x params -> well_named unicode g params (PPath [x] args)
| WN_path path args x :
    (forall y, path = [y] -> ~ In y params) -> names unicode g path x -> takes x (usage_in args) ->
    (forall l n, args = Some (PCall l) -> In n l -> well_named unicode g params (n_expr n)) ->
    well_named unicode g params (PPath path args)
| WN_other e :
    (forall path args, e <> PPath path args) -> (forall e', operand_of e' e -> well_named unicode g params e') ->
    well_named unicode g params e.

(** A grammar in which all names are known and different, and all trivia asked for are defined. *)
Inductive complete (unicode : list text) : gmodule -> Prop :=
| Complete g :
    NoDup (map import_alias (g_imports g) ++ map pr_name (filter (fun r => negb (text_eqb (pr_name r) (lit "~") || text_eqb (pr_name r) (lit "^"))) (g_rules g))) ->
    (forall r, In r (g_rules g) -> well_named unicode g (pr_args r) (n_expr (pr_node r))) ->
    (forall r t name, In r (g_rules g) -> asks (n_expr (pr_node r)) t -> trivia_name t = Some name ->
       exists r', In r' (g_rules g) /\ pr_name r' = name) ->
    (forall alias g', In (File alias g') (g_imports g) -> complete unicode g') ->
    complete unicode g.
