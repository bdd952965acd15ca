(** The grammar that a package gives to the derive macro, as it is written. *)
From Coq Require Import String List NArith Arith Bool.
From Verif Require Import Model_Text Model_Meta Model_Import Model_Derive Spec_Import Spec_Written Spec_Derive.
Import ListNotations.
Open Scope list_scope.

(** The parts of a grammar. *)
Definition wt_rules (t : wtree) := let 'WTree r _ _ := t in r.
Definition wt_doc (t : wtree) := let 'WTree _ d _ := t in d.
Definition wt_imports (t : wtree) := let 'WTree _ _ i := t in i.
(** Several grammars are one, with the rules and imports of all in order. *)
Definition together (l : list wtree) : wtree := WTree (flat_map wt_rules l) (flat_map wt_doc l) (flat_map wt_imports l).

(** [written_grammar manifest_dir path_exists read_file attrs t]: the attributes [attrs] name grammars, in
    files or in place, which are written as [t], with those that they import. *)
Definition written_grammar (manifest_dir : option text) (path_exists : path -> bool) (read_file : path -> text + text)
  (attrs : list attribute) (t : wtree) : Prop :=
  exists sources data trees, sources_of attrs sources /\ sources <> [] /\
    Forall2 (source_text (manifest manifest_dir) path_exists read_file) sources data /\
    Forall2 (fun d t => w_loads read_file (grammar_root manifest_dir (snd d)) (fst d) t) data trees /\ t = together trees.
