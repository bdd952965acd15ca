(** The derive macro from its attributes to the generated code: generator/src/typed/attr.rs,
    generator/src/config.rs and generator/src/typed/generator.rs L946-1022. The file system, the
    environment, pest2 and the check of Rust identifiers are external: they are parameters. *)
From Coq Require Import String List NArith Arith Bool.
From Verif Require Import Model_Text Model_Message Model_Meta Model_Import Model_Generator Model_Output Model_Inline.
Import ListNotations.
Open Scope list_scope.

(** [syn::Expr] as the value of an attribute (generator/src/config.rs L20-26, L34-39): a string literal
    (with the value that it denotes), a boolean literal, or anything else. *)
Inductive avalue := V_str (s : text) | V_bool (b : bool) | V_other.
(** [syn::Meta] (generator/src/config.rs L19, L32): `name`, `name = value` or `name(...)`. *)
Inductive ameta := M_path | M_value (v : avalue) | M_list.
(** [syn::Attribute] (generator/src/typed/attr.rs L12-13): the name, if it is a single identifier as
    [is_ident] asks for, and the rest. *)
Record attribute := mkAttribute { at_name : option text; at_meta : ameta }.
(** [path.is_ident(name)] (generator/src/typed/attr.rs L14-28). *)
Definition is_named (name : string) (a : attribute) : bool :=
  match at_name a with Some n => text_eqb n (lit name) | None => false end.

(** generator/src/config.rs L13-17 [GrammarSource]. *)
Inductive source := S_file (p : text) | S_inline (s : text).
(** generator/src/typed/config.rs L1-10 [Config]; the part that [gconfig] models is a field. *)
Record dconfig := mkDConfig { no_pair : bool; no_span : bool; no_warnings : bool; d_config : gconfig }.
(** [Config::default()] (generator/src/typed/attr.rs L11). *)
Definition default_config : dconfig := mkDConfig false false false (mkConfig false false None).

(** generator/src/config.rs L18-29 [get_string]. *)
Definition get_string (a : attribute) : outcome text :=
  match at_meta a with
  | M_value (V_str s) => Ret s
  | _ => Panic
  end.
(** generator/src/config.rs L31-46 [get_bool]. *)
Definition get_bool (a : attribute) : outcome bool :=
  match at_meta a with
  | M_path => Ret true
  | M_value (V_bool b) => Ret b
  | _ => Panic
  end.

Section Derive.
(** [syn::parse_str::<Ident>(&value).is_ok()] (generator/src/typed/attr.rs L35). *)
Variable rust_ident : text -> bool.

(** One round of the loop at generator/src/typed/attr.rs L12-42. *)
Definition read_attribute (a : attribute) (st : list source * dconfig) : outcome (list source * dconfig) :=
  let (sources, c) := st in
  let g := d_config c in
  if is_named "grammar" a then let! s := get_string a in Ret (sources ++ [S_file s], c)
  else if is_named "grammar_inline" a then let! s := get_string a in Ret (sources ++ [S_inline s], c)
  else if is_named "no_pair" a then let! b := get_bool a in Ret (sources, mkDConfig b (no_span c) (no_warnings c) g)
  else if is_named "no_span" a then let! b := get_bool a in Ret (sources, mkDConfig (no_pair c) b (no_warnings c) g)
  else if is_named "no_warnings" a then let! b := get_bool a in Ret (sources, mkDConfig (no_pair c) (no_span c) b g)
  else if is_named "box_all_rules" a then
    let! b := get_bool a in
    Ret (sources, mkDConfig (no_pair c) (no_span c) (no_warnings c) (mkConfig b (no_getter g) (rules_mod g)))
  else if is_named "rules_mod" a then
    let! s := get_string a in
    match s with
    | [] => Panic
    | _ =>
        if rust_ident s
        then Ret (sources, mkDConfig (no_pair c) (no_span c) (no_warnings c) (mkConfig (box_rules_only_if_needed g) (no_getter g) (Some s)))
        else Panic
    end
  else Ret st.
(** The loop at generator/src/typed/attr.rs L12-42. *)
Fixpoint read_attributes (l : list attribute) (st : list source * dconfig) : outcome (list source * dconfig) :=
  match l with
  | [] => Ret st
  | a :: r => let! st := read_attribute a st in read_attributes r st
  end.
(** generator/src/typed/attr.rs L6-48 [parse_derive]; the name and the generics of the type, which it
    passes on unchanged, are left out. *)
Definition parse_derive (attrs : list attribute) : outcome (list source * dconfig) :=
  let! (sources, c) := read_attributes attrs ([], default_config) in
  match sources with
  | [] => Panic
  | _ => Ret (sources, c)
  end.

(** [Path::join] (generator/src/config.rs L63-67, generator/src/common.rs L24): an absolute path replaces
    the other one; a leading dot is dropped unless there is nothing in front of it. *)
Definition join (base p : path) : path :=
  match p with
  | RootDir :: _ => p
  | CurDir :: r => match base with [] => p | _ => base ++ r end
  | _ => base ++ p
  end.

(** [env::var("CARGO_MANIFEST_DIR")] (generator/src/config.rs L54, generator/src/typed/generator.rs
    L999). *)
Variable manifest_dir : option text.
(** [Path::exists] (generator/src/config.rs L63). Simplification: it depends on the components only, so
    a slash at the end of a path makes no difference. *)
Variable path_exists : path -> bool.
(** [read_to_string] (generator/src/config.rs L75 and meta/src/parser.rs L372), and the other parameters
    of loading grammars, see Model_Import.v. *)
Variable read_file : path -> text + text.
Variable parse_file : text -> list ppair + N.
Variable path_text : path -> text.
Variable debug_path : path -> text.
(** [std::env::current_dir()] (generator/src/common.rs L18). *)
Variable current_dir : path.

(** The directory of the package, or the current one (generator/src/config.rs L54,
    generator/src/typed/generator.rs L999). *)
Definition manifest : path := components (match manifest_dir with Some d => d | None => lit "." end).

(** One round of the loop at generator/src/config.rs L51-84. *)
Definition collect_source (s : source) : outcome (text * option path) :=
  match s with
  | S_file p =>
      let q := if path_exists (join manifest (components p)) then join manifest (components p)
               else join (join manifest (components (lit "src/"))) (components p) in
      match file_name q with
      | None => Panic
      | Some _ =>
          match read_file q with
          | inl data => Ret (data, Some q)
          | inr _ => Panic
          end
      end
  | S_inline s => Ret (s, None)
  end.
(** generator/src/config.rs L48-87 [collect_data]. *)
Fixpoint collect_data (l : list source) : outcome (list (text * option path)) :=
  match l with
  | [] => Ret []
  | s :: r => let! d := collect_source s in let! rest := collect_data r in Ret (d :: rest)
  end.

(** generator/src/typed/generator.rs L998-1001: the path that a grammar is loaded with. *)
Definition grammar_root (p : option path) : path :=
  match p with Some q => q | None => manifest end ++ [Normal (lit "_.rs")].
(** The closure at generator/src/typed/generator.rs L997-1006; an error is a panic. *)
Definition load_source (fuel : nat) (d : text * option path) : outcome gmodule :=
  let! r := load_file parse_file read_file path_text debug_path fuel (fst d) (grammar_root (snd d)) in
  match r with
  | inl (m, _) => Ret m
  | inr _ => Panic
  end.
(** generator/src/typed/generator.rs L995-1008: the grammars, one after the other. *)
Fixpoint load_sources (fuel : nat) (l : list (text * option path)) : outcome (list gmodule) :=
  match l with
  | [] => Ret []
  | d :: r => let! m := load_source fuel d in let! rest := load_sources fuel r in Ret (m :: rest)
  end.
(** [data.iter().filter_map(|(_, p)| p.clone())] (generator/src/typed/generator.rs L1009). *)
Definition source_paths (l : list (text * option path)) : list path :=
  flat_map (fun d => match snd d with Some p => [p] | None => [] end) l.

(** What the macro expands to: the paths in the [include_str!]s (generator/src/common.rs L14-41), and the
    items with their paths, see [generate_typed]. *)
Record expansion := mkExpansion { x_included : list path; x_items : list (text * ritem) }.
(** generator/src/typed/generator.rs L985-1020 [derive_typed_parser] (with both flags set, as at
    derive/src/lib.rs L66) and generator/src/typed/generator.rs L946-983 [generate_typed]. The names of the Unicode properties are
    [names], see [generate_items]. *)
Definition derive_parser (fuel : nat) (names : list text) (attrs : list attribute) : outcome expansion :=
  let! (sources, c) := parse_derive attrs in
  let! data := collect_data sources in
  let! modules := load_sources fuel data in
  let g := merge_modules modules in
  let paths := source_paths data ++ g_deps g in
  let! items := generate_typed (d_config c) fuel names g in
  Ret (mkExpansion (map (join current_dir) paths) items).
End Derive.
