(** Renaming everything that a grammar file names: its rules, their parameters and its imports. *)
From Coq Require Import String List NArith ZArith.
From Verif Require Import Model_Text Model_Message Model_Meta Model_Import Spec_Grammar_Tree.
Import ListNotations.
Open Scope list_scope.

(** What comes after the first name of a path is named by another file, or built in. *)
Definition re_path (f : text -> text) (p : list text) : list text := match p with x :: r => f x :: r | [] => [] end.
Fixpoint re_expr (f : text -> text) (e : parse_expr) {struct e} : parse_expr :=
  match e with
  | PStr s => PStr s
  | PInsens s => PInsens s
  | PRange a b => PRange a b
  | PPath p args => PPath (re_path f p) (option_map (re_args f) args)
  | PPosPred n => PPosPred (re_node f n)
  | PNegPred n => PNegPred (re_node f n)
  | PSeq l r t => PSeq (re_node f l) (re_node f r) t
  | PChoice l r => PChoice (re_node f l) (re_node f r)
  | POpt n => POpt (re_node f n)
  | PRep n => PRep (re_node f n)
  | PRepOnce n => PRepOnce (re_node f n)
  | PRepRange n range => PRepRange (re_node f n) range
  | PSeparated n t => PSeparated (re_node f n) t
  end
with re_node (f : text -> text) (n : parse_node) {struct n} : parse_node := match n with mkNode e s => mkNode (re_expr f e) s end
with re_args (f : text -> text) (a : path_args) {struct a} : path_args :=
  match a with PCall l => PCall (map (re_node f) l) | PSlice range => PSlice range end.
Definition re_rule (f : text -> text) (r : parse_rule) : parse_rule :=
  mkParseRule (pr_doc r) (f (pr_name r)) (map f (pr_args r)) (pr_span r) (re_node f (pr_node r)) (pr_silent r).
Definition re_import (f : text -> text) (i : import) : import := match i with Builtin a p => Builtin (f a) p | File a m => File (f a) m end.
Definition re_module (f : text -> text) (g : gmodule) : gmodule := mkModule (g_deps g) (map (re_rule f) (g_rules g)) (g_doc g) (map (re_import f) (g_imports g)).

(** A renaming that can be undone and leaves the names with a meaning of their own: [pest] and the two trivia. *)
Record renaming (f h : text -> text) : Prop := mkRenaming {
  re_undo : forall x, h (f x) = x;
  re_redo : forall x, f (h x) = x;
  re_pest : f (lit "pest") = lit "pest";
  re_optional : f (lit "~") = lit "~";
  re_mandatory : f (lit "^") = lit "^" }.

(** The rule [l] of [g] under its new name, or the same rule of another file. *)
Definition renamed_label (f : text -> text) (g : gmodule) (l l' : label) : Prop :=
  fst l = g /\ l' = (re_module f g, re_rule f (snd l)) \/ fst l <> g /\ l' = l.
