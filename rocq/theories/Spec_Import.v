(** What loading a grammar file with imports means, without a cache. *)
From Coq Require Import String List NArith ZArith Arith Bool.
From Verif Require Import Model_Text Model_Meta Model_Import Spec_Unescape Spec_Grammar.
Import ListNotations.
Open Scope list_scope.

(** * Where imported files are. *)
(** The path that a text denotes: its parts between slashes; empty parts and single dots are skipped,
    except that a slash in front denotes the root and a single dot in front is kept. *)
Definition no_slash (s : text) : Prop := Forall (fun c => c <> 47%N) s.
Fixpoint join_slash (parts : list text) : text :=
  match parts with [] => [] | [p] => p | p :: r => p ++ 47%N :: join_slash r end.
Inductive part_names : list text -> path -> Prop :=
| Parts_nil : part_names [] []
| Parts_empty l p : part_names l p -> part_names ([] :: l) p
| Parts_dot l p : part_names l p -> part_names (lit "." :: l) p
| Parts_up l p : part_names l p -> part_names (lit ".." :: l) (ParentDir :: p)
| Parts_name n l p : n <> [] -> n <> lit "." -> n <> lit ".." -> part_names l p -> part_names (n :: l) (Normal n :: p).
Inductive written : text -> path -> Prop :=
| Written_root parts p : parts <> [] -> Forall no_slash parts -> part_names parts p ->
    written (47%N :: join_slash parts) (RootDir :: p)
| Written_dot parts p : Forall no_slash parts -> part_names parts p ->
    written (join_slash (lit "." :: parts)) (CurDir :: p)
| Written_plain first parts p : (first = [] -> parts = []) -> first <> lit "." -> Forall no_slash (first :: parts) ->
    part_names (first :: parts) p -> written (join_slash (first :: parts)) p.

(** The directory that the names of an import are relative to: that of the importing file, or the one
    above if the name of that one ends in .pest. *)
Definition named_pest (d : path) : Prop := exists d' x, x <> [] /\ d = d' ++ [Normal (x ++ lit ".pest")].
Inductive import_base : path -> path -> Prop :=
| Base_dir d f : f <> RootDir -> ~ named_pest d -> import_base (d ++ [f]) d
| Base_up d x f : f <> RootDir -> x <> [] -> import_base (d ++ [Normal (x ++ lit ".pest"); f]) d.
(** Names as directories and a file: [super] is the directory above, the last name gets the extension. *)
Definition step (n : text) (c : comp) : Prop := (n = lit "super" /\ c = ParentDir) \/ (n <> lit "super" /\ c = Normal n).
Inductive location : list text -> path -> Prop :=
| Loc_file n : n <> lit "super" -> location [n] [Normal (n ++ lit ".pest")]
| Loc_super : location [lit "super"] [ParentDir]
| Loc_more n c m ns p : step n c -> location (m :: ns) p -> location (n :: m :: ns) (c :: p).

(** * Imports. *)
(** Identifiers consist of letters, digits and underscores. *)
Definition name_char (c : char) : Prop :=
  (c = 95 \/ 97 <= c <= 122 \/ 65 <= c <= 90 \/ 48 <= c <= 57)%N.
Definition plain_name (n : text) : Prop := n <> [] /\ Forall name_char n.
(** The pairs of an import: a path without arguments, perhaps a string literal (its text between the
    quotes and its place), perhaps an alias. *)
Inductive opt_file : list ppair -> option (text * nat * nat) -> Prop :=
| No_file : opt_file [] None
| In_file s a b l : inner_str s -> opt_file [mkPPair R_string (34%N :: s ++ [34%N]) a b l] (Some (s, a, b)).
Inductive opt_alias : list ppair -> option text -> Prop :=
| No_alias : opt_alias [] None
| As_alias p : pp_rule p = R_identifier -> opt_alias [p] (Some (pp_str p)).
Inductive import_syntax : ppair -> list text -> option (text * nat * nat) -> option text -> nat -> nat -> Prop :=
| Import_syntax s a b sp ap bp l names fs file als alias :
    segments l names -> Forall plain_name names -> opt_file fs file -> opt_alias als alias ->
    import_syntax (mkPPair R_import s a b (mkPPair R_path sp ap bp l :: fs ++ als)) names file alias ap bp.

(** The outcome of reading an import: its alias, what it refers to and the place of its path; an error;
    or a crash. *)
Inductive import_result :=
| Refers (alias : text) (t : target) (a b : nat)
| Misread (e : perror)
| No_directory.
Definition alias_of (names : list text) (alias : option text) (x : text) : Prop :=
  alias = Some x \/ (alias = None /\ exists ns, names = ns ++ [x]).
Definition starts_with_pest (names : list text) : Prop := exists ns, names = lit "pest" :: ns.
Inductive import_means (root : path) : ppair -> import_result -> Prop :=
| IM_literal p names s c d alias a b : import_syntax p names (Some (s, c, d)) alias a b ->
    (forall r, ~ documented s r) ->
    import_means root p (Misread (CustomError (lit "invalid string literal") c d))
| IM_builtin p names file alias a b x : import_syntax p names file alias a b ->
    (forall s c d, file = Some (s, c, d) -> exists r, documented s r) ->
    starts_with_pest names -> alias_of names alias x ->
    import_means root p (Refers x (To_builtin names) a b)
| IM_file p names s r c d alias a b x q : import_syntax p names (Some (s, c, d)) alias a b ->
    ~ starts_with_pest names -> documented s r -> written r q -> alias_of names alias x ->
    import_means root p (Refers x (To_file q) a b)
| IM_beside p names alias a b x d q : import_syntax p names None alias a b ->
    ~ starts_with_pest names -> import_base root d -> location names q -> alias_of names alias x ->
    import_means root p (Refers x (To_file (d ++ q)) a b)
| IM_nowhere p names alias a b : import_syntax p names None alias a b ->
    ~ starts_with_pest names -> (forall d, ~ import_base root d) ->
    import_means root p No_directory.

(** * Files. *)
(** A loaded grammar without its dependencies. *)
Inductive mtree := MTree (rules : list parse_rule) (doc : list text) (imports : list mimport)
with mimport := M_builtin (alias : text) (names : list text) | M_file (alias : text) (t : mtree).
Fixpoint shape (m : gmodule) : mtree :=
  let 'mkModule _ rules doc imports := m in
  MTree rules doc (map (fun i => match i with Builtin a n => M_builtin a n | File a m => M_file a (shape m) end) imports).

Inductive item := I_rule (r : parse_rule) | I_doc (d : text) | I_import (i : mimport) | I_nothing.
(** A file as the items in it, in order. *)
Definition add_item (i : item) (t : mtree) : mtree :=
  let 'MTree rules doc imports := t in
  match i with
  | I_rule r => MTree (r :: rules) doc imports
  | I_doc d => MTree rules (d :: doc) imports
  | I_import m => MTree rules doc (m :: imports)
  | I_nothing => t
  end.

(** Loading succeeds, fails with an error, or crashes. *)
Inductive load_result := Loaded (t : mtree) | Failed (e : perror) | Crash.
Inductive item_result := Good (i : item) | Bad (e : perror) | Fatal.

Section Files.
Variable parse_file : text -> list ppair + N.
Variable read_file : path -> text + text.
Variable path_text : path -> text.
Variable debug_path : path -> text.

(** The pairs that a file consists of. *)
Inductive syn_item : ppair -> Prop :=
| Syn_rule p ds name ns silent e : rule_syntax p ds name ns silent e -> syn_expression e -> tame e -> syn_item p
| Syn_import p names file alias a b : import_syntax p names file alias a b -> syn_item p
| Syn_doc p d : doc_pair R_grammar_doc (lit "//!") p d -> syn_item p
| Syn_eoi p : pp_rule p = R_eoi -> syn_item p.
Definition syn_file (input : text) : Prop := forall pairs, parse_file input = inl pairs -> Forall syn_item pairs.

Inductive file_means : path -> text -> load_result -> Prop :=
| FM_syntax root input e : parse_file input = inr e -> file_means root input (Failed (SyntaxError e))
| FM_items root input pairs r : parse_file input = inl pairs -> items_mean root pairs r -> file_means root input r
(** The first item that is not good decides. *)
with items_mean : path -> list ppair -> load_result -> Prop :=
| ITM_nil root : items_mean root [] (Loaded (MTree [] [] []))
| ITM_more root p i l t : item_means root p (Good i) -> items_mean root l (Loaded t) ->
    items_mean root (p :: l) (Loaded (add_item i t))
| ITM_later root p i l r : item_means root p (Good i) -> items_mean root l r -> (forall t, r <> Loaded t) ->
    items_mean root (p :: l) r
| ITM_bad root p e l : item_means root p (Bad e) -> items_mean root (p :: l) (Failed e)
| ITM_fatal root p l : item_means root p Fatal -> items_mean root (p :: l) Crash
with item_means : path -> ppair -> item_result -> Prop :=
| IT_rule root p ds name ns silent e n : rule_syntax p ds name ns silent e -> syn_expression e -> tame e ->
    den_expression (path_text root) e n ->
    item_means root p (Good (I_rule (mkParseRule ds name ns (at_pair (path_text root) p) n silent)))
| IT_fault root p ds name ns silent e f : rule_syntax p ds name ns silent e -> syn_expression e -> tame e ->
    first_fault e f -> item_means root p (Bad f)
| IT_doc root p d : doc_pair R_grammar_doc (lit "//!") p d -> item_means root p (Good (I_doc d))
| IT_eoi root p : pp_rule p = R_eoi -> item_means root p (Good I_nothing)
| IT_misread root p e : import_means root p (Misread e) -> item_means root p (Bad e)
| IT_nowhere root p : import_means root p No_directory -> item_means root p Fatal
| IT_builtin root p x names a b : import_means root p (Refers x (To_builtin names) a b) ->
    item_means root p (Good (I_import (M_builtin x names)))
| IT_unreadable root p x q a b e : import_means root p (Refers x (To_file q) a b) -> read_file q = inr e ->
    item_means root p (Bad (CustomError (lit "cannot read from " ++ debug_path q ++ lit " due to: " ++ e) a b))
| IT_file root p x q a b c t : import_means root p (Refers x (To_file q) a b) -> read_file q = inl c ->
    file_means q c (Loaded t) -> item_means root p (Good (I_import (M_file x t)))
(** An error in an imported file is not reported: the program crashes. *)
| IT_nested root p x q a b c r : import_means root p (Refers x (To_file q) a b) -> read_file q = inl c ->
    file_means q c r -> (forall t, r <> Loaded t) -> item_means root p Fatal.

(** The files that a file imports, and those it imports directly or indirectly. *)
Definition declares (root : path) (input : text) (q : path) : Prop :=
  exists pairs p x a b, parse_file input = inl pairs /\ In p pairs /\ import_means root p (Refers x (To_file q) a b).
Inductive reaches : path -> text -> path -> Prop :=
| Reach_direct root input q : declares root input q -> reaches root input q
| Reach_more root input q c q' : declares root input q -> read_file q = inl c -> reaches q c q' -> reaches root input q'.
End Files.
