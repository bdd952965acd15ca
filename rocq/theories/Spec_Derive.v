(** What the attributes of the derive macro say, and where grammars are found. *)
From Coq Require Import String List NArith Arith Bool.
From Verif Require Import Model_Text Model_Meta Model_Import Model_Generator Model_Derive Spec_Import.
Import ListNotations.
Open Scope list_scope.

(** * Attributes. *)
Definition named (name : string) (a : attribute) : Prop := at_name a = Some (lit name).
(** A flag is set by its name alone, or by its name and a boolean. *)
Inductive sets_flag (name : string) : attribute -> bool -> Prop :=
| Sets_alone a : named name a -> at_meta a = M_path -> sets_flag name a true
| Sets_value a b : named name a -> at_meta a = M_value (V_bool b) -> sets_flag name a b.
(** The last attribute with the name decides; without any, the flag is not set. *)
Inductive flag (name : string) (attrs : list attribute) : bool -> Prop :=
| Flag_unset : Forall (fun a => ~ named name a) attrs -> flag name attrs false
| Flag_set l a r b : attrs = l ++ a :: r -> sets_flag name a b -> Forall (fun a => ~ named name a) r -> flag name attrs b.
Inductive setting (name : string) (attrs : list attribute) : option text -> Prop :=
| Setting_none : Forall (fun a => ~ named name a) attrs -> setting name attrs None
| Setting_some l a r s : attrs = l ++ a :: r -> named name a -> at_meta a = M_value (V_str s) ->
    Forall (fun a => ~ named name a) r -> setting name attrs (Some s).
(** The grammars, in the order of the attributes. *)
Inductive sources_of : list attribute -> list source -> Prop :=
| Sources_nil : sources_of [] []
| Sources_file a s l r : named "grammar" a -> at_meta a = M_value (V_str s) -> sources_of l r -> sources_of (a :: l) (S_file s :: r)
| Sources_inline a s l r : named "grammar_inline" a -> at_meta a = M_value (V_str s) -> sources_of l r ->
    sources_of (a :: l) (S_inline s :: r)
| Sources_other a l r : ~ named "grammar" a -> ~ named "grammar_inline" a -> sources_of l r -> sources_of (a :: l) r.
(** How the attributes with a meaning are to be written. *)
Definition flags : list string := ["no_pair"; "no_span"; "no_warnings"; "box_all_rules"]%string.
Record accepted (rust_ident : text -> bool) (a : attribute) : Prop := mkAccepted {
  grammar_accepted : named "grammar" a \/ named "grammar_inline" a -> exists s, at_meta a = M_value (V_str s);
  flags_accepted : forall name, In name flags -> named name a -> exists b, sets_flag name a b;
  name_accepted : named "rules_mod" a -> exists s, at_meta a = M_value (V_str s) /\ s <> [] /\ rust_ident s = true }.
(** The attributes that have a meaning, and those that the macro declares (derive/src/lib.rs L53-62). *)
Definition meaningful : list string := ["grammar"; "grammar_inline"; "rules_mod"]%string ++ flags.
Definition declared : list string :=
  ["grammar"; "grammar_inline"; "no_pair"; "no_span"; "no_warnings"; "box_rules_only_if_needed"; "no_getter"; "rules_mod"]%string.

(** * Grammars. *)
(** The path that a text denotes from a directory. *)
Inductive under (base : path) : text -> path -> Prop :=
| Under_absolute s q : written s (RootDir :: q) -> under base s (RootDir :: q)
| Under_dot s q : written s (CurDir :: q) -> base <> [] -> under base s (base ++ q)
| Under_nothing s q : written s (CurDir :: q) -> base = [] -> under base s (CurDir :: q)
| Under_plain s q : written s q -> hd_error q <> Some RootDir -> hd_error q <> Some CurDir -> under base s (base ++ q).
Section Sources.
Variable manifest : path.
Variable path_exists : path -> bool.
Variable read_file : path -> text + text.
(** A grammar file is looked up in the directory of the package, and if there is none in [src]. *)
Inductive found (s : text) : path -> Prop :=
| Found_here q : under manifest s q -> path_exists q = true -> found s q
| Found_src q0 q : under manifest s q0 -> path_exists q0 = false -> under (manifest ++ [Normal (lit "src")]) s q -> found s q.
(** The text of a source and the path of the file that it is in. *)
Inductive source_text : source -> text * option path -> Prop :=
| ST_file s d n c : found s (d ++ [Normal n]) -> read_file (d ++ [Normal n]) = inl c -> source_text (S_file s) (c, Some (d ++ [Normal n]))
| ST_inline s : source_text (S_inline s) (s, None).
End Sources.
