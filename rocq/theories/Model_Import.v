(** Model of loading grammar files with imports: meta/src/parser.rs L283-L455 and L880-L888. The file
    system ([read_to_string]) and the pest2 parser are external: they are parameters. *)
From Coq Require Import String List NArith ZArith Arith Bool.
From Verif Require Import Model_Text Model_Message Model_Unescape Model_Meta Model_Grammar.
Import ListNotations.
Open Scope list_scope.

(** [std::path::Component] on Unix (used through [Path] at meta/src/parser.rs L283-299). *)
Inductive comp := RootDir | CurDir | ParentDir | Normal (name : text).
(** [PathBuf] (meta/src/parser.rs L36, L283, L314): the list of its components. Simplification: two
    ways of writing the same components are the same path; [PathBuf]s are compared by components. *)
Definition path := list comp.

(** Equality of [PathBuf]s as keys of the cache and the dependencies (meta/src/parser.rs L314, L417). *)
Definition comp_eqb (a b : comp) : bool :=
  match a, b with
  | RootDir, RootDir | CurDir, CurDir | ParentDir, ParentDir => true
  | Normal x, Normal y => text_eqb x y
  | _, _ => false
  end.
Fixpoint path_eqb (p q : path) : bool :=
  match p, q with
  | [], [] => true
  | a :: p', b :: q' => comp_eqb a b && path_eqb p' q'
  | _, _ => false
  end.

(** The parts of a text between slashes ([Path::components], through [PathBuf::from],
    meta/src/parser.rs L360). *)
Fixpoint split_slash (s : text) : list text :=
  match s with
  | [] => [[]]
  | c :: r =>
      if (c =? 47)%N then [] :: split_slash r
      else match split_slash r with p :: ps => (c :: p) :: ps | [] => [[c]] end
  end.
(** A part that is not the first one: empty parts and single dots are skipped. *)
Definition comp_of (s : text) : list comp :=
  match s with
  | [] => []
  | _ => if text_eqb s (lit ".") then [] else if text_eqb s (lit "..") then [ParentDir] else [Normal s]
  end.
(** [Path::components] on Unix (used through [PathBuf::from], meta/src/parser.rs L360): a leading slash
    is the root, a leading dot is kept. *)
Definition components (s : text) : path :=
  match split_slash s with
  | [] :: ((_ :: _) as parts) => RootDir :: flat_map comp_of parts
  | first :: parts => if text_eqb first (lit ".") then CurDir :: flat_map comp_of parts else flat_map comp_of (first :: parts)
  | [] => []
  end.

(** [Path::parent] (meta/src/parser.rs L284-288): nothing for the root and the empty path. *)
Definition parent (p : path) : option path :=
  match rev p with
  | [] | RootDir :: _ => None
  | _ :: before => Some (rev before)
  end.
(** [Path::file_name] (through [extension] and [with_extension], meta/src/parser.rs L289, L299). *)
Definition file_name (p : path) : option text :=
  match rev p with Normal n :: _ => Some n | _ => None end.

(** The text after the last dot, and that before it ([rsplit_file_at_dot] of the standard library,
    through meta/src/parser.rs L289, L299). *)
Fixpoint rsplit_dot (s : text) : option (text * text) :=
  match s with
  | [] => None
  | c :: r =>
      match rsplit_dot r with
      | Some (before, after) => Some (c :: before, after)
      | None => if (c =? 46)%N then Some ([], r) else None
      end
  end.
(** [Path::extension] (meta/src/parser.rs L289): none if the only dot is the first character. *)
Definition extension (p : path) : option text :=
  match file_name p with
  | Some n => match rsplit_dot n with Some (_ :: _, after) => Some after | _ => None end
  | None => None
  end.
(** [Path::with_extension] (meta/src/parser.rs L299): nothing changes if there is no file name. *)
Definition with_extension (e : text) (p : path) : path :=
  match rev p with
  | Normal n :: before =>
      let stem := match rsplit_dot n with Some (_ :: _ as stem, _) => stem | _ => n end in
      rev (Normal (stem ++ 46%N :: e) :: before)
  | _ => p
  end.

(** One step of the loop at meta/src/parser.rs L292-298. Simplification: the name is one component, as
    identifiers are. *)
Definition push_section (p : path) (sec : text) : path :=
  p ++ [if text_eqb sec (lit "super") then ParentDir else Normal sec].
(** meta/src/parser.rs L283-300 [mod_path_to_fs_path]. *)
Definition mod_path_to_fs_path (root : path) (mod_path : list text) : outcome path :=
  let! dir := or_panic (parent root) in
  let dir :=
    match extension dir with
    | Some e => if text_eqb e (lit "pest") then match parent dir with Some d => d | None => dir end else dir
    | None => dir
    end in
  Ret (with_extension (lit "pest") (fold_left push_section mod_path dir)).

(** meta/src/parser.rs L415-421 [GrammarModule] and L304-309 [Import]. The dependencies, a [BTreeSet],
    are a list without repetitions; its order is not modelled. *)
Inductive gmodule := mkModule (deps : list path) (rules : list parse_rule) (doc : list text) (imports : list import)
with import :=
| Builtin (alias : text) (mod_path : list text)
| File (alias : text) (module : gmodule).
(** The fields of [GrammarModule] (meta/src/parser.rs L417-420). *)
Definition g_deps (m : gmodule) := let 'mkModule d _ _ _ := m in d.
Definition g_rules (m : gmodule) := let 'mkModule _ r _ _ := m in r.
Definition g_doc (m : gmodule) := let 'mkModule _ _ d _ := m in d.
Definition g_imports (m : gmodule) := let 'mkModule _ _ _ i := m in i.
(** [GrammarModule::default()] (meta/src/parser.rs L316). *)
Definition empty_module : gmodule := mkModule [] [] [] [].

(** [BTreeSet::insert] and [extend] on the dependencies (meta/src/parser.rs L370, L387, L433). *)
Definition set_insert (p : path) (l : list path) : list path := if existsb (path_eqb p) l then l else l ++ [p].
Definition set_extend (l more : list path) : list path := fold_left (fun l p => set_insert p l) more l.
(** The pushes of [_parse] (meta/src/parser.rs L357, L393; L397; L399; L370, L387). *)
Definition add_import (i : import) (m : gmodule) := mkModule (g_deps m) (g_rules m) (g_doc m) (g_imports m ++ [i]).
Definition add_rule (r : parse_rule) (m : gmodule) := mkModule (g_deps m) (g_rules m ++ [r]) (g_doc m) (g_imports m).
Definition add_doc (d : text) (m : gmodule) := mkModule (g_deps m) (g_rules m) (g_doc m ++ [d]) (g_imports m).
Definition add_dep (p : path) (m : gmodule) := mkModule (set_insert p (g_deps m)) (g_rules m) (g_doc m) (g_imports m).
Definition add_deps (l : list path) (m : gmodule) := mkModule (set_extend (g_deps m) l) (g_rules m) (g_doc m) (g_imports m).

(** meta/src/parser.rs L423-442 [GrammarModule::from_iter] (and L444-448, for shared modules). *)
Definition merge_modules (l : list gmodule) : gmodule :=
  fold_left (fun m i => mkModule (set_extend (g_deps m) (g_deps i)) (g_rules m ++ g_rules i)
    (g_doc m ++ g_doc i) (g_imports m ++ g_imports i)) l empty_module.

(** meta/src/parser.rs L880-888 [string_content]: the quotes are part of the unescaped text. *)
Definition string_content (p : ppair) : presult text := unescape_or (lit "invalid string literal") p (pp_str p).

(** meta/src/parser.rs L342-348: what follows the path of an import. *)
Fixpoint import_options (pairs : list ppair) (fs_path alias : option text) : presult (option text * option text) :=
  match pairs with
  | [] => ok (fs_path, alias)
  | p :: rest =>
      match pp_rule p with
      | R_string => let? s := string_content p in import_options rest (Some s) alias
      | R_identifier => import_options rest fs_path (Some (pp_str p))
      | _ => Panic
      end
  end.

(** What an import refers to (the two branches at meta/src/parser.rs L355-364). *)
Inductive target := To_builtin (mod_path : list text) | To_file (p : path).

(** meta/src/parser.rs L328-364: the alias and the target of an import, and the place of its path.
    The span passed to [parse_path_raw] is that of the path; [root_text] is the root as a text. *)
Definition read_import (root : path) (root_text : text) (p : ppair) : presult (text * target * nat * nat) :=
  let! (path_pair, pairs) := next (pp_inner p) in
  let span := mkMSpan root_text (pp_start path_pair) (pp_end path_pair) in
  let? (mod_path, args) := parse_path_raw (parse_node_of no_operators span) path_pair in
  match args with
  | Some _ => Panic
  | None =>
      let? (fs_path, alias) := import_options pairs None None in
      let! alias :=
        match alias with
        | Some alias => Ret alias
        | None => or_panic (hd_error (rev mod_path))
        end in
      let! t :=
        if match mod_path with first :: _ => text_eqb first (lit "pest") | [] => false end
        then Ret (To_builtin mod_path)
        else
          match fs_path with
          | Some s => Ret (To_file (components s))
          | None => let! q := mod_path_to_fs_path root mod_path in Ret (To_file q)
          end in
      ok (alias, t, pp_start path_pair, pp_end path_pair)
  end.

(** The cache of loaded modules (meta/src/parser.rs L314) and, as an observable effect, the files that
    [read_to_string] has been called on successfully (L372), in order. *)
Record lstate := mkLState { ls_cache : list (path * gmodule); ls_reads : list path }.
(** [cache.get] (meta/src/parser.rs L367). *)
Fixpoint cache_get (p : path) (c : list (path * gmodule)) : option gmodule :=
  match c with
  | [] => None
  | (q, m) :: r => if path_eqb p q then Some m else cache_get p r
  end.

Section Load.
(** pest2's [grammar::Parser::parse(Rule::grammar_rules, input)] (meta/src/parser.rs L323): the pairs or
    an error. *)
Variable parse_file : text -> list ppair + N.
(** [read_to_string(&path)] (meta/src/parser.rs L372): the content, or the error as it is displayed. The
    file system does not change while grammars are loaded. *)
Variable read_file : path -> text + text.
(** A path as the text used in spans, and its [Debug] form (meta/src/parser.rs L333, L397, L376). *)
Variable path_text : path -> text.
Variable debug_path : path -> text.

(** meta/src/parser.rs L325-402, the loop of [_parse] over the pairs; [load] is [_parse] itself. *)
Fixpoint load_items (load : text -> path -> lstate -> presult (gmodule * lstate)) (root : path)
  (pairs : list ppair) (m : gmodule) (st : lstate) : presult (gmodule * lstate) :=
  match pairs with
  | [] => ok (m, st)
  | p :: rest =>
      match pp_rule p with
      | R_import =>
          let? (alias, t, a, b) := read_import root (path_text root) p in
          match t with
          | To_builtin mod_path => load_items load root rest (add_import (Builtin alias mod_path) m) st
          | To_file q =>
              match cache_get q (ls_cache st) with
              | Some module => load_items load root rest (add_import (File alias module) m) st
              | None =>
                  match read_file q with
                  | inr e => err (lit "cannot read from " ++ debug_path q ++ lit " due to: " ++ e) a b
                  | inl content =>
                      let! r := load content q (mkLState (ls_cache st) (ls_reads st ++ [q])) in
                      match r with
                      | inr _ => Panic
                      | inl (module, st) =>
                          load_items load root rest
                            (add_import (File alias module) (add_deps (g_deps module) (add_dep q m)))
                            (mkLState ((q, module) :: ls_cache st) (ls_reads st))
                      end
                  end
              end
          end
      | R_grammar_rule =>
          let? r := parse_grammar_rule (path_text root) p in load_items load root rest (add_rule r m) st
      | R_grammar_doc => let? d := parse_grammar_doc p in load_items load root rest (add_doc d m) st
      | _ => load_items load root rest m st
      end
  end.

(** meta/src/parser.rs L311-405 [_parse]; the fuel bounds the nesting of imports. *)
Fixpoint load_fuel (fuel : nat) (input : text) (root : path) (st : lstate) : presult (gmodule * lstate) :=
  match fuel with
  | 0 => OutOfFuel
  | S k =>
      match parse_file input with
      | inr e => Ret (inr (SyntaxError e))
      | inl pairs => load_items (load_fuel k) root pairs empty_module st
      end
  end.

(** meta/src/parser.rs L451-455 [parse], with the files that it reads. *)
Definition load_file (fuel : nat) (input : text) (root : path) : presult (gmodule * list path) :=
  let? (m, st) := load_fuel fuel input root (mkLState [] []) in ok (m, ls_reads st).
End Load.
