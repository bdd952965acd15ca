(** The types that the generator emits, and the translation of expressions and rules into them:
    generator/src/typed/generator.rs, module.rs, getter.rs and the bookkeeping of output.rs.

    Simplifications: token streams that are types, paths or accessor bodies are trees; the identifiers
    [r#x] and [x] are the same; doc comments, derives, lints and [no_pair] are left out; the keys of maps
    and sets are kept in an unspecified order (they decide only the order of the emitted items). *)
From Coq Require Import String List NArith ZArith Arith Bool.
From Verif Require Import Model_Text Model_Message Model_Meta Model_Import.
Import ListNotations.
Open Scope list_scope.

(** A Rust type as emitted by generator/src/typed/generator.rs L336-550 and module.rs L58-144: a path
    and its generic arguments: the lifetime ['i], types, and constants of type [char], [usize], [isize].
    The crate [::pest3] (generator/src/types.rs L4-13) is the segment [pest_crate]. *)
Inductive ty := Ty (path : list text) (args : list garg)
with garg :=
| A_life
| A_type (t : ty)
| A_char (c : char)
| A_usize (n : N)
| A_isize (z : Z).

(** generator/src/types.rs L4-13 [pest]. *)
Definition pest_crate : text := lit "::pest3".
(** generator/src/typed/output.rs L15-19 [generics]. *)
Definition generics_mod : text := lit "generics".
(** generator/src/typed/output.rs L27-29 [constant_wrappers]. *)
Definition wrapper_mod : text := lit "wrapper".

(** Membership of texts ([contains] of vectors and sets: generator.rs L373, L820). *)
Definition text_in (x : text) (l : list text) : bool := existsb (text_eqb x) l.
(** Lookup and insertion in maps with texts as keys ([BTreeMap], [HashMap]: output.rs L65, module.rs
    L157, L192). *)
Fixpoint lookup {A : Type} (k : text) (l : list (text * A)) : option A :=
  match l with
  | [] => None
  | (k', v) :: r => if text_eqb k k' then Some v else lookup k r
  end.
Fixpoint remove {A : Type} (k : text) (l : list (text * A)) : list (text * A) :=
  match l with
  | [] => []
  | (k', v) :: r => if text_eqb k k' then remove k r else (k', v) :: remove k r
  end.
Definition insert {A : Type} (k : text) (v : A) (l : list (text * A)) : list (text * A) := (k, v) :: remove k l.

(** generator/src/typed/output.rs L31-36 [Tracker]: the emitted string constants (name and content),
    the map from strings to indexes, the arities of sequences and of choices. *)
Record gtracker := mkGTracker {
  gt_wrappers : list (text * text); gt_counter : list (text * nat); gt_seqs : list nat; gt_choices : list nat }.
(** generator/src/typed/output.rs L38-45 [Tracker::new]. *)
Definition gt_new : gtracker := mkGTracker [] [] [] [].
(** [BTreeSet::insert] of generator/src/typed/output.rs L48, L52. *)
Definition arity_insert (n : nat) (l : list nat) : list nat := if existsb (Nat.eqb n) l then l else l ++ [n].
(** generator/src/typed/output.rs L47-49 [record_seq]. *)
Definition record_seq (n : nat) (t : gtracker) : gtracker :=
  mkGTracker (gt_wrappers t) (gt_counter t) (arity_insert n (gt_seqs t)) (gt_choices t).
(** generator/src/typed/output.rs L51-53 [record_choice]. *)
Definition record_choice (n : nat) (t : gtracker) : gtracker :=
  mkGTracker (gt_wrappers t) (gt_counter t) (gt_seqs t) (arity_insert n (gt_choices t)).
(** generator/src/typed/output.rs L64-86 [insert_string_wrapper]: the path of the constant. *)
Definition insert_string_wrapper (s : text) (t : gtracker) : list text * gtracker :=
  match lookup s (gt_counter t) with
  | Some index => ([wrapper_mod; lit "W" ++ decimal index], t)
  | None =>
      let index := length (gt_counter t) in
      let w := lit "W" ++ decimal index in
      ([wrapper_mod; w],
       mkGTracker (gt_wrappers t ++ [(w, s)]) (gt_counter t ++ [(s, index)]) (gt_seqs t) (gt_choices t))
  end.

(** generator/src/typed/getter.rs L22-52 [Node]. *)
Inductive gnode :=
| G_rule (t : ty)
| G_arg (name : text)
| G_content (n : gnode)
| G_seq (i : nat) (n : gnode)
| G_choice (i : nat) (flatten : bool) (n : gnode)
| G_optional (flatten : bool) (n : gnode)
| G_contents (n : gnode)
| G_tuple (l : list gnode).
(** generator/src/typed/getter.rs L11-20 [Edge]. *)
Inductive gedge := E_content | E_content_i (i : nat) | E_choice (i : nat) | E_optional | E_contents.

(** generator/src/typed/getter.rs L61-69 [flattenable]. *)
Fixpoint flattenable (n : gnode) : bool :=
  match n with
  | G_rule _ | G_arg _ => false
  | G_content inner | G_seq _ inner => flattenable inner
  | G_choice _ false _ | G_optional false _ => true
  | G_choice _ true inner | G_optional true inner => flattenable inner
  | G_contents _ | G_tuple _ => false
  end.
(** generator/src/typed/getter.rs L70-78 [wrap]. *)
Definition g_wrap (e : gedge) (n : gnode) : gnode :=
  match e with
  | E_content => G_content n
  | E_content_i i => G_seq i n
  | E_choice i => G_choice i (flattenable n) n
  | E_optional => G_optional (flattenable n) n
  | E_contents => G_contents n
  end.
(** generator/src/typed/getter.rs L79-102 [merge]. *)
Definition g_merge (n other : gnode) : gnode :=
  match n, other with
  | G_tuple l, G_tuple l' => G_tuple (l ++ l')
  | G_tuple l, _ => G_tuple (l ++ [other])
  | _, G_tuple l' => G_tuple (n :: l')
  | _, _ => G_tuple [n; other]
  end.

(** generator/src/typed/getter.rs L175-178 [GetterByName]. *)
Definition getters := list (text * gnode).
(** generator/src/typed/getter.rs L213-220 [prepend]; the methods of L198-212 are its instances. *)
Definition g_prepend (e : gedge) (g : getters) : getters := map (fun kn => (fst kn, g_wrap e (snd kn))) g.
(** One step of the loop at generator/src/typed/getter.rs L223-235. *)
Fixpoint g_add (k : text) (n : gnode) (g : getters) : getters :=
  match g with
  | [] => [(k, n)]
  | (k', n') :: r => if text_eqb k k' then (k', g_merge n' n) :: r else (k', n') :: g_add k n r
  end.
(** generator/src/typed/getter.rs L222-241 [join_mut], [join]. *)
Definition g_join (g other : getters) : getters := fold_left (fun g kn => g_add (fst kn) (snd kn) g) other g.

(** generator/src/typed/generator.rs L283-287 [Intermediate]. *)
Record intermediate := mkInter { i_type : ty; i_getter : getters }.

(** generator/src/typed/generator.rs L72-76 [ProcessedPathArgs]. *)
Inductive processed_args :=
| PA_call (args : list intermediate)
| PA_slice (range : mrange Z).
(** generator/src/typed/generator.rs L126-130 [RuleRef]. *)
Record rule_ref := mkRuleRef { rr_path : list text; rr_args : option processed_args }.

(** generator/src/typed/module.rs L13-26 [ModuleError]. Simplification: what the errors carry for
    display is left out. *)
Inductive merror :=
| EmptyPath | NodeNotFound | AlreadyDefined | NotMutable | NoChildren | UnexpectedArguments
| UnexpectedSliceArgument | ArgumentCountNotMatch | CollectionCannotBeCalled | ExpectedArgcArguments
| ExpectedArguments.

(** generator/src/typed/module.rs L38-56 [RuleGenerics]. *)
Inductive rule_generics :=
| RG_rule (argc : nat)
| RG_builtin (direct : option bool) (slice : option (text * text)) (callable : option (option nat)).

(** generator/src/typed/module.rs L68-71: the path of the module of a rule. *)
Definition module_path (path : list text) : list text := flat_map (fun sec => [sec; lit "rules"]) (removelast path).

(** A reference with its getter ([GetterByName::from_rule], module.rs L76, L85, L100, L116, L130, L140,
    L281). *)
Definition referring (t : ty) (name : text) : intermediate := mkInter t [(name, G_rule t)].

(** generator/src/typed/module.rs L58-144 [RuleGenerics::call]. *)
Definition rg_call (g : rule_generics) (name : text) (r : rule_ref) (args : option processed_args) (root : list text)
  : intermediate + merror :=
  let current := module_path (rr_path r) in
  match g with
  | RG_rule argc =>
      match argc, args with
      | 0, None => inl (referring (Ty (current ++ [name]) [A_life]) name)
      | 0, Some (PA_call args) =>
          match args with
          | _ :: _ => inr UnexpectedArguments
          | [] => inl (referring (Ty (current ++ [name]) [A_life]) name)
          end
      | 0, Some (PA_slice _) => inr UnexpectedSliceArgument
      | _, None => inr ExpectedArgcArguments
      | _, Some (PA_slice _) => inr UnexpectedSliceArgument
      | _, Some (PA_call args) =>
          if Nat.eqb argc (length args)
          then inl (referring (Ty (current ++ [name]) (A_life :: map (fun a => A_type (i_type a)) args)) name)
          else inr ArgumentCountNotMatch
      end
  | RG_builtin direct slice callable =>
      match args with
      | None =>
          match direct with
          | Some lifetime => inl (referring (Ty (root ++ [generics_mod; name]) (if lifetime then [A_life] else [])) name)
          | None => inr ExpectedArguments
          end
      | Some (PA_slice range) =>
          match slice with
          | Some (slice1, slice2) =>
              let start := match r_start range with Some z => z | None => 0%Z end in
              inl (referring
                match r_end range with
                | Some stop => Ty (root ++ [generics_mod; slice2]) [A_isize start; A_isize stop]
                | None => Ty (root ++ [generics_mod; slice1]) [A_isize start]
                end name)
          | None => inr ExpectedArguments
          end
      | Some (PA_call args) =>
          match callable with
          | Some argc =>
              if match argc with Some argc => Nat.eqb argc (length args) | None => true end
              then inl (referring (Ty (root ++ [generics_mod; name]) (map (fun a => A_type (i_type a)) args)) name)
              else inr ArgumentCountNotMatch
          | None => inr ExpectedArguments
          end
      end
  end.

(** generator/src/typed/module.rs L147-151 [ModuleNode]. The only functions stored in [Absolute] are
    those of L279-283: they emit [root::unicode::upper] and the getter name [lower]. *)
Inductive mnode :=
| M_collection (l : list (text * mnode))
| M_generics (g : rule_generics)
| M_absolute (lower upper : text).

(** generator/src/typed/module.rs L155-163 [child]. *)
Definition m_child (n : mnode) (k : text) : mnode + merror :=
  match n with
  | M_collection l => match lookup k l with Some c => inl c | None => inr NodeNotFound end
  | M_generics _ | M_absolute _ _ => inr NoChildren
  end.
(** generator/src/typed/module.rs L164-187 [get]. *)
Definition m_get (n : mnode) (root : list text) (name : text) (r : rule_ref) (args : option processed_args)
  : intermediate + merror :=
  match n with
  | M_collection _ => inr CollectionCannotBeCalled
  | M_absolute lower upper =>
      if match args with None => true | Some (PA_call []) => true | _ => false end
      then inl (referring (Ty (root ++ [lit "unicode"; upper]) []) lower)
      else inr UnexpectedArguments
  | M_generics g => rg_call g name r args root
  end.
(** The loop at generator/src/typed/module.rs L222-224. *)
Fixpoint m_descend (n : mnode) (path : list text) : mnode + merror :=
  match path with
  | [] => inl n
  | k :: rest => match m_child n k with inl c => m_descend c rest | inr e => inr e end
  end.
(** generator/src/typed/module.rs L215-226 [ModuleNode::resolve_node]. *)
Definition m_resolve_node (n : mnode) (path : list text) : mnode + merror :=
  match path with
  | [] => inr EmptyPath
  | k :: rest => match m_child n k with inl c => m_descend c rest | inr e => inr e end
  end.
(** generator/src/typed/module.rs L188-214 [insert_rule] and [alias]: insertion in a collection, and
    whether the name was there before (then the result is [AlreadyDefined]; the new node stays). The
    root of a module system is always a collection. *)
Definition m_insert (k : text) (v : mnode) (l : list (text * mnode)) : list (text * mnode) * bool :=
  (insert k v l, match lookup k l with Some _ => true | None => false end).

(** generator/src/typed/module.rs L248-281: the built-in rules, by the macros [pest_builtin]. *)
Definition direct : mnode := M_generics (RG_builtin (Some false) None None).
Definition direct_life : mnode := M_generics (RG_builtin (Some true) None None).

(** [to_ascii_lowercase] and [to_ascii_uppercase] (generator/src/typed/module.rs L244). *)
Definition lowercase (s : text) : text := map (fun c => if ((65 <=? c) && (c <=? 90))%N then (c + 32)%N else c) s.
Definition uppercase (s : text) : text := map (fun c => if ((97 <=? c) && (c <=? 122))%N then (c - 32)%N else c) s.

(** generator/src/typed/module.rs L290-307: the collection [pest::unicode]. [names] is what
    [unicode_property_names] of pest2 returns. A later entry of a [HashMap] replaces an earlier one. *)
Definition pest_unicode (names : list text) : mnode :=
  M_collection (fold_left (fun l n => insert (lowercase n) (M_absolute (lowercase n) (uppercase n)) l) names []).
(** generator/src/typed/module.rs L282-289: the collection [pest::stack]. *)
Definition pest_stack : mnode := M_collection [
  (lit "peek", M_generics (RG_builtin (Some true) (Some (lit "PeekSlice1", lit "PeekSlice2")) None));
  (lit "peek_all", direct_life);
  (lit "drop", direct);
  (lit "push", M_generics (RG_builtin None None (Some (Some 1))));
  (lit "pop", direct_life);
  (lit "pop_all", direct_life)].
(** generator/src/typed/module.rs L238-333 [make_global]. *)
Definition make_global (names : list text) : mnode := M_collection [(lit "pest", M_collection [
  (lit "soi", direct);
  (lit "eoi", direct);
  (lit "any", direct);
  (lit "ascii_digit", direct);
  (lit "ascii_nonzero_digit", direct);
  (lit "ascii_bin_digit", direct);
  (lit "ascii_oct_digit", direct);
  (lit "ascii_hex_digit", direct);
  (lit "ascii_alpha_lower", direct);
  (lit "ascii_alpha_upper", direct);
  (lit "ascii_alpha", direct);
  (lit "ascii_alphanumeric", direct);
  (lit "ascii", direct);
  (lit "newline", direct);
  (lit "stack", pest_stack);
  (lit "unicode", pest_unicode names)])].

(** generator/src/typed/module.rs L232-235 [ModuleSystem]: the local root, a collection, and the global
    node. *)
Record mod_system := mkSys { ms_root : list (text * mnode); ms_pest : mnode }.
(** generator/src/typed/module.rs L345-352 [ModuleSystem::resolve_node]. *)
Definition sys_resolve_node (s : mod_system) (path : list text) : mnode + merror :=
  match m_resolve_node (ms_pest s) path with
  | inl n => inl n
  | inr _ => m_resolve_node (M_collection (ms_root s)) path
  end.
(** generator/src/typed/module.rs L353-366 [ModuleSystem::resolve]. *)
Definition sys_resolve (s : mod_system) (r : rule_ref) (root : list text) : intermediate + merror :=
  match sys_resolve_node s (rr_path r) with
  | inl n =>
      match rr_path r with
      | [] => inr EmptyPath
      | p => m_get n root (last p []) r (rr_args r)
      end
  | inr e => inr e
  end.
(** generator/src/typed/module.rs L367-374 [ModuleSystem::alias] with the [unwrap] at generator.rs L610. *)
Definition sys_alias (s : mod_system) (path : list text) (name : text) : outcome mod_system :=
  match sys_resolve_node s path with
  | inl n => let (root, defined) := m_insert name n (ms_root s) in if defined then Panic else Ret (mkSys root (ms_pest s))
  | inr _ => Panic
  end.
(** generator/src/typed/module.rs L339-341 [ModuleSystem::insert]; its result is ignored at generator.rs
    L631. *)
Definition sys_insert (s : mod_system) (name : text) (n : mnode) : mod_system :=
  mkSys (fst (m_insert name n (ms_root s))) (ms_pest s).
(** generator/src/typed/module.rs L342-344 [ModuleSystem::insert_rule] with the [unwrap] at generator.rs
    L642. *)
Definition sys_insert_rule (s : mod_system) (r : parse_rule) : outcome mod_system :=
  let (root, defined) := m_insert (pr_name r) (M_generics (RG_rule (length (pr_args r)))) (ms_root s) in
  if defined then Panic else Ret (mkSys root (ms_pest s)).

(** generator/src/typed/generator.rs L301-315 [collect_sequence]: the loop, on the right operand. *)
Fixpoint sequence_rest (t : trivia) (e : parse_expr) : list (trivia * parse_expr) :=
  match e with
  | PSeq (mkNode l _) (mkNode r _) t' => (t, l) :: sequence_rest t' r
  | _ => [(t, e)]
  end.
Definition collect_sequence (l r : parse_expr) (t : trivia) : list (trivia * parse_expr) :=
  (TriviaNone, l) :: sequence_rest t r.
(** generator/src/typed/generator.rs L317-326 [collect_choices]. *)
Fixpoint choices_rest (e : parse_expr) : list parse_expr :=
  match e with
  | PChoice (mkNode l _) (mkNode r _) => l :: choices_rest r
  | _ => [e]
  end.
Definition collect_choices (l r : parse_expr) : list parse_expr := l :: choices_rest r.
(** generator/src/typed/generator.rs L328-333 [get_trivia]. *)
Definition get_trivia (e : parse_expr) : trivia :=
  match e with PSeparated _ t => t | _ => TriviaNone end.
(** generator/src/typed/generator.rs L345-352 [embed_trivia]. *)
Definition embed_trivia (t : trivia) : ty :=
  match t with
  | TriviaMandatory => Ty [lit "__MandatoryTrivia"] [A_life]
  | TriviaOptional => Ty [lit "__OptionalTrivia"] [A_life]
  | TriviaNone => Ty [pest_crate; lit "typed"; lit "template"; lit "Empty"] []
  end.

Section Process.
(** The parameters of the rule ([rule_config.grammar.args]), the module system, and the path of the
    module that holds the generics and wrappers ([root]): the constant parameters of [process_expr]
    (generator/src/typed/generator.rs L336-344). *)
Variable params : list text.
Variable sys : mod_system.
Variable root : list text.

(** Processing the elements of a list from left to right (generator/src/typed/generator.rs L103-117,
    L430-434, L454-458). *)
Fixpoint process_list (process : parse_expr -> gtracker -> outcome (intermediate * gtracker)) (l : list parse_expr)
  (tr : gtracker) : outcome (list intermediate * gtracker) :=
  match l with
  | [] => Ret ([], tr)
  | e :: rest =>
      let! (i, tr) := process e tr in
      let! (is, tr) := process_list process rest tr in
      Ret (i :: is, tr)
  end.
(** The getters of the loops at generator/src/typed/generator.rs L430-434, L454-458, [edge] being
    [content_i] or [choice]. *)
Fixpoint join_children (edge : nat -> gedge) (i : nat) (children : list intermediate) (g : getters) : getters :=
  match children with
  | [] => g
  | c :: rest => join_children edge (i + 1) rest (g_join g (g_prepend (edge i) (i_getter c)))
  end.
(** A generic type of the library: [root::generics::name] (generator/src/typed/generator.rs L358). *)
Definition generic (name : text) (args : list garg) : ty := Ty (root ++ [generics_mod; name]) args.

(** generator/src/typed/generator.rs L336-550 [process_expr], with L91-120
    [ProcessedPathArgs::process] in place. The fuel bounds the depth of the recursion. *)
Fixpoint process_expr (fuel : nat) (e : parse_expr) (tr : gtracker) : outcome (intermediate * gtracker) :=
  match fuel with
  | 0 => OutOfFuel
  | S fuel =>
      match e with
      | PStr content =>
          let (wrapper, tr) := insert_string_wrapper content tr in
          Ret (mkInter (generic (lit "Str") [A_type (Ty (root ++ wrapper) [])]) [], tr)
      | PInsens content =>
          let (wrapper, tr) := insert_string_wrapper content tr in
          Ret (mkInter (generic (lit "Insens") [A_life; A_type (Ty (root ++ wrapper) [])]) [], tr)
      | PRange a b => Ret (mkInter (generic (lit "CharRange") [A_char a; A_char b]) [], tr)
      | PPath path args =>
          match (match path with
                 | [x] => if text_in x params then Some x else None
                 | _ => None
                 end) with
          | Some x => Ret (mkInter (Ty [x] []) [(x, G_arg x)], tr)
          | None =>
              let! (args, tr) :=
                match args with
                | None => Ret (None, tr)
                | Some (PCall args) =>
                    let! (is, tr) := process_list (process_expr fuel) (map n_expr args) tr in
                    Ret (Some (PA_call is), tr)
                | Some (PSlice range) => Ret (Some (PA_slice range), tr)
                end in
              match sys_resolve sys (mkRuleRef path args) root with
              | inl i => Ret (i, tr)
              | inr _ => Panic
              end
          end
      | PPosPred n =>
          let! (i, tr) := process_expr fuel (n_expr n) tr in
          Ret (mkInter (generic (lit "Positive") [A_type (i_type i)]) (g_prepend E_content (i_getter i)), tr)
      | PNegPred n =>
          let! (i, tr) := process_expr fuel (n_expr n) tr in
          Ret (mkInter (generic (lit "Negative") [A_type (i_type i)]) [], tr)
      | PSeq l r t =>
          let items := collect_sequence (n_expr l) (n_expr r) t in
          let! (is, tr) := process_list (process_expr fuel) (map snd items) tr in
          let args := flat_map (fun ti => [A_type (i_type (snd ti)); A_type (embed_trivia (fst ti))])
                        (combine (map fst items) is) in
          Ret (mkInter (generic (lit "Sequence" ++ decimal (length is)) args) (join_children E_content_i 0 is []),
               record_seq (length is) tr)
      | PChoice l r =>
          let! (is, tr) := process_list (process_expr fuel) (collect_choices (n_expr l) (n_expr r)) tr in
          Ret (mkInter (generic (lit "Choice" ++ decimal (length is)) (map (fun i => A_type (i_type i)) is))
                 (join_children E_choice 0 is []),
               record_choice (length is) tr)
      | POpt n =>
          let! (i, tr) := process_expr fuel (n_expr n) tr in
          Ret (mkInter (Ty [pest_crate; lit "std"; lit "Option"] [A_type (i_type i)]) (g_prepend E_optional (i_getter i)), tr)
      | PRep n =>
          let! (i, tr) := process_expr fuel (n_expr n) tr in
          Ret (mkInter (generic (lit "Rep") [A_type (i_type i); A_type (embed_trivia (get_trivia (n_expr n)))])
                 (g_prepend E_contents (i_getter i)), tr)
      | PRepOnce n =>
          let! (i, tr) := process_expr fuel (n_expr n) tr in
          Ret (mkInter (generic (lit "RepOnce") [A_type (i_type i); A_type (embed_trivia (get_trivia (n_expr n)))])
                 (g_prepend E_contents (i_getter i)), tr)
      | PRepRange n range =>
          let! (i, tr) := process_expr fuel (n_expr n) tr in
          let inner := A_type (i_type i) in
          let trivia := A_type (embed_trivia (get_trivia (n_expr n))) in
          let t :=
            match r_start range, r_end range with
            | Some a, Some b => generic (lit "RepMinMax") [inner; trivia; A_usize a; A_usize b]
            | Some a, None => generic (lit "RepMin") [inner; trivia; A_usize a]
            | None, Some b => generic (lit "RepMax") [inner; trivia; A_usize b]
            | None, None => generic (lit "Rep") [inner; trivia]
            end in
          Ret (mkInter t (g_prepend E_contents (i_getter i)), tr)
      | PSeparated n _ => process_expr fuel (n_expr n) tr
      end
  end.
End Process.

(** generator/src/typed/config.rs L2-10 [Config]; [no_pair], [no_span] and [no_warnings] are left out. *)
Record gconfig := mkConfig { box_rules_only_if_needed : bool; no_getter : bool; rules_mod : option text }.

(** The names used by an expression (generator/src/typed/generator.rs L659-714
    [collect_used_rule_without_trivia_into]): single-segment paths, and whether the optional and the
    mandatory trivia are used. Simplifications: the work list is a recursion, as the results are sets
    and flags; the comparison at L708 is left out, as no proper part of a tree equals the tree. *)
Fixpoint used_names (e : parse_expr) : list text :=
  match e with
  | PStr _ | PInsens _ | PRange _ _ => []
  | PPosPred n | PNegPred n | POpt n | PRep n | PRepOnce n | PRepRange n _ | PSeparated n _ => used_names_node n
  | PSeq l r _ | PChoice l r => used_names_node l ++ used_names_node r
  | PPath path args =>
      (match path with [x] => [x] | _ => [] end) ++
      (match args with Some a => used_names_args a | None => [] end)
  end
with used_names_node (n : parse_node) : list text := match n with mkNode e _ => used_names e end
with used_names_args (a : path_args) : list text :=
  match a with
  | PCall args => (fix go l := match l with [] => [] | n :: r => used_names_node n ++ go r end) args
  | PSlice _ => []
  end.
(** The flags of the same function (generator/src/typed/generator.rs L666-674): is the trivia [t] used? *)
Definition trivia_eqb (a b : trivia) : bool :=
  match a, b with
  | TriviaNone, TriviaNone | TriviaOptional, TriviaOptional | TriviaMandatory, TriviaMandatory => true
  | _, _ => false
  end.
Fixpoint uses_trivia (t : trivia) (e : parse_expr) : bool :=
  match e with
  | PStr _ | PInsens _ | PRange _ _ => false
  | PPosPred n | PNegPred n | POpt n | PRep n | PRepOnce n | PRepRange n _ => uses_trivia_node t n
  | PSeparated n t' => trivia_eqb t t' || uses_trivia_node t n
  | PSeq l r t' => trivia_eqb t t' || uses_trivia_node t l || uses_trivia_node t r
  | PChoice l r => uses_trivia_node t l || uses_trivia_node t r
  | PPath path args => match args with Some a => uses_trivia_args t a | None => false end
  end
with uses_trivia_node (t : trivia) (n : parse_node) : bool := match n with mkNode e _ => uses_trivia t e end
with uses_trivia_args (t : trivia) (a : path_args) : bool :=
  match a with
  | PCall args => (fix go l := match l with [] => false | n :: r => uses_trivia_node t n || go r end) args
  | PSlice _ => false
  end.

(** [rules.iter().find(|rule| rule.name == ...)] (generator/src/typed/generator.rs L797-798). *)
Definition find_rule (name : text) (rules : list parse_rule) : option parse_rule :=
  find (fun r => text_eqb (pr_name r) name) rules.
(** generator/src/typed/generator.rs L724-755 [collect_used_rule]: the names used by a rule; a panic if
    it uses a trivia that is not defined. Simplification: of the sets made by [collect_trivia]
    (L757-772) only their presence is used. *)
Definition collect_used_rule (rules : list parse_rule) (r : parse_rule) : outcome (list text) :=
  let e := n_expr (pr_node r) in
  let missing t name := uses_trivia t e && match find_rule (lit name) rules with None => true | Some _ => false end in
  if missing TriviaOptional "~"%string || missing TriviaMandatory "^"%string then Panic else Ret (used_names e).

(** The first loop of generator/src/typed/generator.rs L802-805: [entry(...).or_default()]; the names
    used by rules with the same name are united. *)
Fixpoint collect_direct (all rules : list parse_rule) (res : list (text * list text)) : outcome (list (text * list text)) :=
  match rules with
  | [] => Ret res
  | r :: rest =>
      let! used := collect_used_rule all r in
      let entry := match lookup (pr_name r) res with Some l => l | None => [] end in
      collect_direct all rest (insert (pr_name r) (entry ++ used) res)
  end.
(** The body of the inner loop at generator/src/typed/generator.rs L811-825. *)
Definition reach_step (res : list (text * list text)) (name : text) : list (text * list text) :=
  match lookup name res with
  | Some cur =>
      let res := remove name res in
      let new := cur ++ flat_map (fun x => match lookup x res with Some l => l | None => [] end) cur in
      if text_in name new then res else insert name new res
  | None => res
  end.
(** generator/src/typed/generator.rs L795-827 [collect_reachability]. *)
Definition collect_reachability (rules : list parse_rule) : outcome (list (text * list text)) :=
  let! res := collect_direct rules rules [] in
  let names := map pr_name rules in
  Ret (Nat.iter (length rules) (fun res => fold_left reach_step names res) res).

(** The body and the type of an accessor function (generator/src/typed/getter.rs L103-170 [expand]).
    [X_res] is [res]; the others bind [res] anew: [&res.content], [&res.field_i],
    [res.as_ref().map(..)] and [res.choice_i().map(..)], each with or without [.flatten()],
    [res.content.iter().map(..).collect()], and a tuple. *)
Inductive gexpr :=
| X_res
| X_content (e : gexpr)
| X_field (i : nat) (e : gexpr)
| X_as_ref (flatten : bool) (e : gexpr)
| X_choice (i : nat) (flatten : bool) (e : gexpr)
| X_iter (e : gexpr)
| X_tuple (l : list gexpr).
(** [&'s T], [Option<T>], [Vec<T>] and tuples. *)
Inductive gtype :=
| Y_ref (t : ty)
| Y_option (t : gtype)
| Y_vec (t : gtype)
| Y_tuple (l : list gtype).
(** generator/src/typed/getter.rs L103-170 [expand]. *)
Fixpoint g_expand (n : gnode) : gexpr * gtype :=
  let opt (flatten : bool) t := if flatten then t else Y_option t in
  match n with
  | G_rule t => (X_res, Y_ref t)
  | G_arg name => (X_res, Y_ref (Ty [name] []))
  | G_content inner => let (e, t) := g_expand inner in (X_content e, t)
  | G_seq i inner => let (e, t) := g_expand inner in (X_field i e, t)
  | G_optional flatten inner => let (e, t) := g_expand inner in (X_as_ref flatten e, opt flatten t)
  | G_choice i flatten inner => let (e, t) := g_expand inner in (X_choice i flatten e, opt flatten t)
  | G_contents inner => let (e, t) := g_expand inner in (X_iter e, Y_vec t)
  | G_tuple l => (X_tuple (map (fun n => fst (g_expand n)) l), Y_tuple (map (fun n => snd (g_expand n)) l))
  end.

(** One accessor function (generator/src/typed/getter.rs L242-273 [collect]); [deref] tells whether the
    content is dereferenced first. *)
Record accessor := mkAccessor { ac_name : text; ac_deref : bool; ac_body : gexpr; ac_type : gtype }.

(** The implementation for one ancestor's [Rule] (generator/src/typed/generator.rs L166-171, L240-254):
    the path of the type, and the path of the rule's own variant with the number of [cvt_into] calls. *)
Record rule_impl := mkImpl { im_type : list text; im_value : list text; im_converts : nat }.

(** generator/src/typed/generator.rs L259-280: the struct of a rule. *)
Record gstruct := mkStruct {
  gs_name : text; gs_params : list text; gs_silent : bool; gs_boxed : bool; gs_inner : ty;
  gs_accessors : list accessor; gs_impls : list rule_impl }.

(** generator/src/typed/generator.rs L150-281 [create_rule], with L53-70 [RuleInfo::new]; the root is
    always [super] (L583). *)
Definition create_rule (config : gconfig) (reach : list (text * list text)) (depth : nat) (r : parse_rule) (inner : intermediate)
  : gstruct :=
  let boxed := negb (box_rules_only_if_needed config) || match lookup (pr_name r) reach with Some _ => false | None => true end in
  let accessors := map (fun kn => let (e, t) := g_expand (snd kn) in mkAccessor (fst kn) boxed e t) (i_getter inner) in
  mkStruct (pr_name r) (pr_args r) (pr_silent r) boxed (i_type inner) (if no_getter config then [] else accessors)
    (map (fun n => mkImpl (lit "super" :: concat (repeat [lit "super"; lit "super"] n) ++ [lit "Rule"])
                     [lit "super"; lit "Rule"; pr_name r] n) (seq 0 (S depth))).

(** generator/src/common.rs L44-101 [generate_rule_enum]: the variants of [Rule]: plain ones, and ones
    that hold the [Rule] of an imported module, which is named by a path. *)
Inductive variant := V_plain (name : text) | V_module (name : text) (path : list text).
(** Is the rule one of the two trivia (generator/src/common.rs L54, generator.rs L571, L640)? *)
Definition is_trivia_name (name : text) : bool := text_eqb name (lit "~") || text_eqb name (lit "^").
Definition rule_enum (g : gmodule) : list variant :=
  V_plain (lit "EOI") ::
  map (fun r => V_plain (pr_name r)) (filter (fun r => negb (is_trivia_name (pr_name r))) (g_rules g)) ++
  flat_map (fun i => match i with File name _ => [V_module name [lit "rules"; name; lit "Rule"]] | Builtin _ _ => [] end) (g_imports g).

(** generator/src/typed/output.rs L194-202 [Output]. *)
Inductive output := mkOutput (content : list gstruct) (optional mandatory : option ty)
  (modules : list (text * output)) (variants : list variant).
(** The fields of [Output]. *)
Definition o_content (o : output) := let 'mkOutput c _ _ _ _ := o in c.
Definition o_optional (o : output) := let 'mkOutput _ a _ _ _ := o in a.
Definition o_mandatory (o : output) := let 'mkOutput _ _ b _ _ := o in b.
Definition o_modules (o : output) := let 'mkOutput _ _ _ m _ := o in m.
Definition o_variants (o : output) := let 'mkOutput _ _ _ _ v := o in v.

Section Rules.
Variable config : gconfig.
(** [process_expr] with enough fuel is meant; see [process_rules]. *)
Variable fuel : nat.

(** generator/src/typed/generator.rs L552-587 [process_rule]; [depth] is the length of [prefix]. *)
Definition process_rule (sys : mod_system) (reach : list (text * list text)) (root : list text) (depth : nat)
  (r : parse_rule) (tr : gtracker) (o : output) : outcome (output * gtracker) :=
  let! (i, tr) := process_expr (pr_args r) sys root fuel (n_expr (pr_node r)) tr in
  let 'mkOutput c a b m v := o in
  Ret (if text_eqb (pr_name r) (lit "~") then mkOutput c (Some (i_type i)) b m v
       else if text_eqb (pr_name r) (lit "^") then mkOutput c a (Some (i_type i)) m v
       else mkOutput (c ++ [create_rule config reach depth r i]) a b m v, tr).

(** The loops of generator/src/typed/generator.rs L638-644 and L645-656. *)
Fixpoint insert_rules (rules : list parse_rule) (sys : mod_system) : outcome mod_system :=
  match rules with
  | [] => Ret sys
  | r :: rest =>
      if is_trivia_name (pr_name r) then insert_rules rest sys
      else let! sys := sys_insert_rule sys r in insert_rules rest sys
  end.
Fixpoint process_all (sys : mod_system) (reach : list (text * list text)) (root : list text) (depth : nat)
  (rules : list parse_rule) (tr : gtracker) (o : output) : outcome (output * gtracker) :=
  match rules with
  | [] => Ret (o, tr)
  | r :: rest =>
      let! (o, tr) := process_rule sys reach root depth r tr o in
      process_all sys reach root depth rest tr o
  end.

(** generator/src/typed/generator.rs L589-657 [process_rules]: the output, the local root of the module
    system, and the tracker. *)
Fixpoint process_rules (global : mnode) (root : list text) (depth : nat) (g : gmodule) (tr : gtracker)
  : outcome (output * list (text * mnode) * gtracker) :=
  let! (modules, sys, tr) :=
    (fix imports (l : list import) (sys : mod_system) (tr : gtracker) : outcome (list (text * output) * mod_system * gtracker) :=
       match l with
       | [] => Ret ([], sys, tr)
       | Builtin name path :: rest =>
           let! sys := sys_alias sys path name in
           imports rest sys tr
       | File name g' :: rest =>
           let! (o, imported, tr) := process_rules global ([lit "super"; lit "super"] ++ root) (S depth) g' tr in
           let! (modules, sys, tr) := imports rest (sys_insert sys name (M_collection imported)) tr in
           Ret ((name, o) :: modules, sys, tr)
       end) (g_imports g) (mkSys [] global) tr in
  let! reach := collect_reachability (g_rules g) in
  let! sys := insert_rules (g_rules g) sys in
  let! (o, tr) := process_all sys reach root depth (g_rules g) tr (mkOutput [] None None modules (rule_enum g)) in
  Ret (o, ms_root sys, tr).
End Rules.

(** The names of which [format_ident!] makes raw identifiers [r#x]: of rules and their parameters
    (generator/src/typed/generator.rs L60, L169, L374; generator/src/common.rs L55) and of imported files
    (generator/src/common.rs L69, L78), here and in the imported files. The parameters of trivia are those
    that occur (generator.rs L374). Simplification: the name of a reference (module.rs L66) is left out. It is that of
    a rule, or a built-in rule, or another name given to a built-in rule. *)
Fixpoint raw_names (g : gmodule) : list text :=
  flat_map (fun r =>
    if is_trivia_name (pr_name r) then filter (fun x => text_in x (pr_args r)) (used_names (n_expr (pr_node r)))
    else pr_name r :: pr_args r) (g_rules g) ++
  (fix imports (l : list import) : list text :=
     match l with
     | [] => []
     | File name g' :: rest => name :: raw_names g' ++ imports rest
     | Builtin _ _ :: rest => imports rest
     end) (g_imports g).
(** The names that cannot be raw identifiers: the constructor of the crates quote and proc_macro2
    behind [format_ident!] panics on them. *)
Definition not_raw : list text := map lit ["super"; "self"; "Self"; "crate"; "_"]%string.

(** generator/src/typed/generator.rs L829-847 [generate_typed_pair_from_rule], before [collect].
    Simplification: all raw identifiers are made first; a failure to make one is a panic, as most other
    failures. *)
Definition generate_output (config : gconfig) (fuel : nat) (names : list text) (g : gmodule) : outcome (output * gtracker) :=
  if existsb (fun x => text_in x not_raw) (raw_names g) then Panic
  else
    let! (o, _, tr) := process_rules config fuel (make_global names) [lit "super"] 0 g gt_new in
    Ret (o, tr).
