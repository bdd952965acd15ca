(** Grammars for the examples about the generator. *)
From Coq Require Import String List NArith ZArith.
From Verif Require Import Model_Text Model_Message Model_Meta Model_Import Model_Generator.
Import ListNotations.
Open Scope list_scope.

Definition sp : mspan := mkMSpan (lit "g") 0 1.
Definition nd (e : parse_expr) : parse_node := mkNode e sp.
Definition str (s : string) : parse_expr := PStr (lit s).
Definition nm (s : string) : parse_expr := PPath [lit s] None.
Definition sq (a : parse_expr) (t : trivia) (b : parse_expr) : parse_expr := PSeq (nd a) (nd b) t.
Definition alt (a b : parse_expr) : parse_expr := PChoice (nd a) (nd b).
Definition call (p : list string) (l : list parse_expr) : parse_expr := PPath (map lit p) (Some (PCall (map nd l))).
Definition rl (name : string) (params : list string) (e : parse_expr) : parse_rule :=
  mkParseRule [] (lit name) (map lit params) sp (nd e) false.

(** Expressions in parentheses:
<<
    ~      = " "*
    ^      = pest::newline
    item   = 'a'..'z' | paren(sum)
    paren(x) = "(" ~ x ~ ")"
    sum    = item ~ ("+" ~ item)*
    word   = ^"end" - pest::stack::push(item)?
    lines  = word ^ word ^ word
>> *)
Definition sample_rules : list parse_rule := [
  rl "~" [] (PRep (nd (str " ")));
  rl "^" [] (PPath [lit "pest"; lit "newline"] None);
  rl "item" [] (alt (PRange 97%N 122%N) (call ["paren"%string] [nm "sum"]));
  rl "paren" ["x"%string] (sq (str "(") TriviaOptional (sq (nm "x") TriviaOptional (str ")")));
  rl "sum" [] (sq (nm "item") TriviaOptional (PRep (nd (sq (str "+") TriviaOptional (nm "item")))));
  rl "word" [] (sq (PInsens (lit "end")) TriviaNone (POpt (nd (call ["pest"; "stack"; "push"]%string [nm "item"]))));
  rl "lines" [] (sq (nm "word") TriviaMandatory (sq (nm "word") TriviaMandatory (nm "word")))].
Definition sample : gmodule := mkModule [] sample_rules [] [].
(** A grammar that imports it, and a group of built-in rules:
<<
    use s
    use pest::unicode u
    all = s::sum - s::paren(u::nd) - pest::eoi
>> *)
Definition main_rules : list parse_rule := [
  rl "all" [] (sq (PPath [lit "s"; lit "sum"] None) TriviaNone
                 (sq (call ["s"; "paren"]%string [PPath [lit "u"; lit "nd"] None]) TriviaNone (PPath [lit "pest"; lit "eoi"] None)))].
Definition sample_main : gmodule :=
  mkModule [] main_rules [] [File (lit "s") sample; Builtin (lit "u") [lit "pest"; lit "unicode"]].
Definition sample_unicode : list text := [lit "ND"; lit "Han"].
Definition box_needed : gconfig := mkConfig true false None.
Definition box_all : gconfig := mkConfig false false None.
