(** What a grammar means: the PEG reading of its expressions, as a big-step relation on texts and
    stacks. Names are resolved here by their own rules; nothing refers to generated types.

    [gpeg g rho e pre post K r]: the expression [e] of a rule of the module [g], whose parameters stand
    for the arguments [rho], tried between the text [pre] already consumed and the text [post] still to
    come, with the stack [K] of texts (top first), has the result [r]. An argument is an expression
    together with the module and the arguments of the rule in which it is written. *)
From Coq Require Import String List NArith ZArith Arith Bool.
From Verif Require Import Model_Text Model_Message Model_Meta Model_Import Model_Node Spec_Text Spec_Peg.
Import ListNotations.
Open Scope list_scope.

Inductive closure := Clo (g : gmodule) (rho : list (text * closure)) (e : parse_expr).

(** The first value of a name. *)
Inductive assoc {A : Type} (k : text) : list (text * A) -> A -> Prop :=
| As_here v l : assoc k ((k, v) :: l) v
| As_there k' v' l v : k <> k' -> assoc k l v -> assoc k ((k', v') :: l) v.

(** Built-in rules that match one character. *)
Definition between (a b : N) (c : char) : Prop := (a <= c <= b)%N.
Inductive char_class : text -> (char -> Prop) -> Prop :=
| CC_any : char_class (lit "any") (fun _ => True)
| CC_digit : char_class (lit "ascii_digit") (between 48 57)
| CC_nonzero : char_class (lit "ascii_nonzero_digit") (between 49 57)
| CC_bin : char_class (lit "ascii_bin_digit") (between 48 49)
| CC_oct : char_class (lit "ascii_oct_digit") (between 48 55)
| CC_hex : char_class (lit "ascii_hex_digit") (fun c => between 48 57 c \/ between 97 102 c \/ between 65 70 c)
| CC_lower : char_class (lit "ascii_alpha_lower") (between 97 122)
| CC_upper : char_class (lit "ascii_alpha_upper") (between 65 90)
| CC_alpha : char_class (lit "ascii_alpha") (fun c => between 97 122 c \/ between 65 90 c)
| CC_alphanumeric :
    char_class (lit "ascii_alphanumeric") (fun c => between 97 122 c \/ between 65 90 c \/ between 48 57 c)
| CC_ascii : char_class (lit "ascii") (between 0 127).

Section Names.
(** The names of the Unicode properties, as pest2 lists them. *)
Variable unicode : list text.

(** The properties are named in lower case; later names take precedence. *)
Definition folded (s : text) : text := map ascii_fold s.
Definition property_number (name : text) (i : nat) : Prop :=
  exists u, nth_error unicode i = Some u /\ folded u = name.

(** The rules and the groups of rules below [pest]. *)
Inductive builtin : list text -> Prop :=
| B_class x P : char_class x P -> builtin [x]
| B_plain x : In x (map lit ["soi"; "eoi"; "newline"]%string) -> builtin [x]
| B_stack x : In x (map lit ["peek"; "peek_all"; "drop"; "push"; "pop"; "pop_all"]%string) -> builtin [lit "stack"; x]
| B_unicode x i : property_number x i -> builtin [lit "unicode"; x].
Definition builtin_group (p : list text) : Prop := p = [] \/ p = [lit "stack"] \/ p = [lit "unicode"].

(** What a path names. *)
Inductive entity := E_builtin (path : list text) | E_rule (g : gmodule) (r : parse_rule).

(** The names of a module itself: its rules, the built-in rules that it imports, and what the modules
    that it imports name. The rules called [~] and [^] cannot be named. *)
Definition is_trivia_rule (r : parse_rule) : Prop := pr_name r = lit "~" \/ pr_name r = lit "^".
Inductive own_name : gmodule -> list text -> entity -> Prop :=
| O_rule g r : In r (g_rules g) -> ~ is_trivia_rule r -> own_name g [pr_name r] (E_rule g r)
| O_builtin g alias p rest :
    In (Builtin alias (lit "pest" :: p)) (g_imports g) -> builtin (p ++ rest) ->
    own_name g (alias :: rest) (E_builtin (p ++ rest))
| O_file g alias g' rest x :
    In (File alias g') (g_imports g) -> own_name g' rest x -> own_name g (alias :: rest) x.

(** A path that begins with [pest] names a built-in rule if there is one. *)
Inductive names (g : gmodule) : list text -> entity -> Prop :=
| N_builtin p : builtin p -> names g (lit "pest" :: p) (E_builtin p)
| N_own p x : own_name g p x -> (forall q, p = lit "pest" :: q -> ~ builtin q /\ ~ builtin_group q) -> names g p x.

(** The trivia of a module: the last rule with that name. *)
Definition trivia_name (t : trivia) : option text :=
  match t with TriviaNone => None | TriviaOptional => Some (lit "~") | TriviaMandatory => Some (lit "^") end.
Definition last_rule (g : gmodule) (name : text) (r : parse_rule) : Prop :=
  exists a b, g_rules g = a ++ r :: b /\ pr_name r = name /\ forall r', In r' b -> pr_name r' <> name.

(** The bounds of a repetition: without an upper bound it ends after [usize::MAX] rounds. *)
Definition repetition (e : parse_expr) (n : parse_node) (min max : N) : Prop :=
  (e = PRep n /\ min = 0%N /\ max = usize_max) \/
  (e = PRepOnce n /\ min = 1%N /\ max = usize_max) \/
  (exists range, e = PRepRange n range /\
     (r_start range = Some min \/ (r_start range = None /\ min = 0%N)) /\
     (r_end range = Some max \/ (r_end range = None /\ max = usize_max))).
(** The trivia between the rounds: [e~*] and [e^*] ask for it. *)
Definition round_trivia (e : parse_expr) (t : trivia) : Prop :=
  (exists n, e = PSeparated n t) \/ ((forall n t', e <> PSeparated n t') /\ t = TriviaNone).

(** The arguments of a call; a rule without parameters needs no parentheses. *)
Definition call_arguments (args : option path_args) (l : list parse_node) : Prop :=
  args = Some (PCall l) \/ (args = None /\ l = []).

(** What is tried in turn: an expression or a trivia. *)
Inductive item := It_expr (e : parse_expr) | It_trivia (t : trivia).

Variable property : N -> char -> bool.

(** Built-in rules without arguments. *)
Inductive gpeg_builtin : list text -> text -> text -> list text -> result -> Prop :=
| GB_class x P pre post K r : char_class x P -> one_char P pre post K r -> gpeg_builtin [x] pre post K r
| GB_soi pre post K r : terminal property pre post K Soi r -> gpeg_builtin [lit "soi"] pre post K r
| GB_eoi pre post K r : terminal property pre post K Eoi r -> gpeg_builtin [lit "eoi"] pre post K r
| GB_newline pre post K r : terminal property pre post K Newline r -> gpeg_builtin [lit "newline"] pre post K r
| GB_peek pre post K r : terminal property pre post K Peek r -> gpeg_builtin [lit "stack"; lit "peek"] pre post K r
| GB_peek_all pre post K r : terminal property pre post K PeekAll r -> gpeg_builtin [lit "stack"; lit "peek_all"] pre post K r
| GB_drop pre post K r : terminal property pre post K Drop r -> gpeg_builtin [lit "stack"; lit "drop"] pre post K r
| GB_pop pre post K r : terminal property pre post K Pop r -> gpeg_builtin [lit "stack"; lit "pop"] pre post K r
| GB_pop_all pre post K r : terminal property pre post K PopAll r -> gpeg_builtin [lit "stack"; lit "pop_all"] pre post K r
| GB_unicode x i pre post K r :
    property_number x i -> one_char (fun c => property (N.of_nat i) c = true) pre post K r ->
    gpeg_builtin [lit "unicode"; x] pre post K r.

Inductive gpeg : gmodule -> list (text * closure) -> parse_expr -> text -> text -> list text -> result -> Prop :=
| G_str g rho s pre post K r : one_text s pre post K r -> gpeg g rho (PStr s) pre post K r
| G_insens g rho s pre post K r : terminal property pre post K (Insens s) r -> gpeg g rho (PInsens s) pre post K r
| G_range g rho a b pre post K r : one_char (between a b) pre post K r -> gpeg g rho (PRange a b) pre post K r
(* A parameter is its argument; a parameter has no arguments itself (they are ignored). *)
| G_param g rho x args g' rho' e pre post K r :
    assoc x rho (Clo g' rho' e) -> gpeg g' rho' e pre post K r -> gpeg g rho (PPath [x] args) pre post K r
| G_rule g rho path args l g' r' pre post K r :
    (forall x c, path = [x] -> ~ assoc x rho c) ->
    names g path (E_rule g' r') -> call_arguments args l -> length l = length (pr_args r') ->
    gpeg g' (combine (pr_args r') (map (fun n => Clo g rho (n_expr n)) l)) (n_expr (pr_node r')) pre post K r ->
    gpeg g rho (PPath path args) pre post K r
| G_builtin g rho path args q pre post K r :
    (forall x c, path = [x] -> ~ assoc x rho c) ->
    names g path (E_builtin q) -> (args = None \/ args = Some (PCall []) /\ exists x, q = [lit "unicode"; x]) ->
    gpeg_builtin q pre post K r -> gpeg g rho (PPath path args) pre post K r
| G_slice g rho path range a n pre post K r :
    (forall x c, path = [x] -> ~ assoc x rho c) ->
    names g path (E_builtin [lit "stack"; lit "peek"]) ->
    (r_start range = Some a \/ r_start range = None /\ a = 0%Z) ->
    (n = PeekSlice1 a /\ r_end range = None \/ exists b, n = PeekSlice2 a b /\ r_end range = Some b) ->
    terminal property pre post K n r -> gpeg g rho (PPath path (Some (PSlice range))) pre post K r
| G_push_ok g rho path n pre post K m post' K' :
    (forall x c, path = [x] -> ~ assoc x rho c) ->
    names g path (E_builtin [lit "stack"; lit "push"]) ->
    gpeg g rho (n_expr n) pre post K (Ok (pre ++ m) post' K') ->
    gpeg g rho (PPath path (Some (PCall [n]))) pre post K (Ok (pre ++ m) post' (m :: K'))
| G_push_fail g rho path n pre post K :
    (forall x c, path = [x] -> ~ assoc x rho c) ->
    names g path (E_builtin [lit "stack"; lit "push"]) ->
    gpeg g rho (n_expr n) pre post K Fail ->
    gpeg g rho (PPath path (Some (PCall [n]))) pre post K Fail
| G_positive_ok g rho n pre post K pre' post' K' :
    gpeg g rho (n_expr n) pre post K (Ok pre' post' K') -> gpeg g rho (PPosPred n) pre post K (Ok pre post K)
| G_positive_fail g rho n pre post K :
    gpeg g rho (n_expr n) pre post K Fail -> gpeg g rho (PPosPred n) pre post K Fail
| G_negative_ok g rho n pre post K :
    gpeg g rho (n_expr n) pre post K Fail -> gpeg g rho (PNegPred n) pre post K (Ok pre post K)
| G_negative_fail g rho n pre post K pre' post' K' :
    gpeg g rho (n_expr n) pre post K (Ok pre' post' K') -> gpeg g rho (PNegPred n) pre post K Fail
| G_seq g rho l r t pre post K res :
    gpeg_items g rho [It_expr (n_expr l); It_trivia t; It_expr (n_expr r)] pre post K res ->
    gpeg g rho (PSeq l r t) pre post K res
| G_choice_left g rho l r pre post K pre' post' K' :
    gpeg g rho (n_expr l) pre post K (Ok pre' post' K') -> gpeg g rho (PChoice l r) pre post K (Ok pre' post' K')
| G_choice_right g rho l r pre post K res :
    gpeg g rho (n_expr l) pre post K Fail -> gpeg g rho (n_expr r) pre post K res ->
    gpeg g rho (PChoice l r) pre post K res
| G_opt_some g rho n pre post K pre' post' K' :
    gpeg g rho (n_expr n) pre post K (Ok pre' post' K') -> gpeg g rho (POpt n) pre post K (Ok pre' post' K')
| G_opt_none g rho n pre post K :
    gpeg g rho (n_expr n) pre post K Fail -> gpeg g rho (POpt n) pre post K (Ok pre post K)
| G_repeat g rho e n min max t pre post K r :
    repetition e n min max -> round_trivia (n_expr n) t ->
    gpeg_rounds g rho (n_expr n) t min max 0 pre post K r -> gpeg g rho e pre post K r
| G_separated g rho n t pre post K r : gpeg g rho (n_expr n) pre post K r -> gpeg g rho (PSeparated n t) pre post K r

(** Expressions and trivia one after the other. The trivia is that of the module of the rule. *)
with gpeg_items : gmodule -> list (text * closure) -> list item -> text -> text -> list text -> result -> Prop :=
| GI_nil g rho pre post K : gpeg_items g rho [] pre post K (Ok pre post K)
| GI_expr g rho e l pre post K pre' post' K' r :
    gpeg g rho e pre post K (Ok pre' post' K') -> gpeg_items g rho l pre' post' K' r ->
    gpeg_items g rho (It_expr e :: l) pre post K r
| GI_expr_fail g rho e l pre post K :
    gpeg g rho e pre post K Fail -> gpeg_items g rho (It_expr e :: l) pre post K Fail
| GI_none g rho l pre post K r :
    gpeg_items g rho l pre post K r -> gpeg_items g rho (It_trivia TriviaNone :: l) pre post K r
| GI_trivia g rho t name r' l pre post K pre' post' K' r :
    trivia_name t = Some name -> last_rule g name r' ->
    gpeg g [] (n_expr (pr_node r')) pre post K (Ok pre' post' K') -> gpeg_items g rho l pre' post' K' r ->
    gpeg_items g rho (It_trivia t :: l) pre post K r
| GI_trivia_fail g rho t name r' l pre post K :
    trivia_name t = Some name -> last_rule g name r' ->
    gpeg g [] (n_expr (pr_node r')) pre post K Fail -> gpeg_items g rho (It_trivia t :: l) pre post K Fail

(** Rounds of a repetition, [i] of them being done; all but the first begin with the trivia. Reaching the
    maximum ends the repetition. *)
with gpeg_rounds : gmodule -> list (text * closure) -> parse_expr -> trivia -> N -> N -> N ->
    text -> text -> list text -> result -> Prop :=
| GR_max g rho e t min max i pre post K :
    (max <= i)%N -> gpeg_rounds g rho e t min max i pre post K (Ok pre post K)
| GR_round g rho e t min max i pre post K pre' post' K' r :
    (i < max)%N -> gpeg_round g rho e t i pre post K (Ok pre' post' K') ->
    gpeg_rounds g rho e t min max (i + 1) pre' post' K' r -> gpeg_rounds g rho e t min max i pre post K r
| GR_stop g rho e t min max i pre post K :
    (i < max)%N -> (min <= i)%N -> gpeg_round g rho e t i pre post K Fail ->
    gpeg_rounds g rho e t min max i pre post K (Ok pre post K)
| GR_fail g rho e t min max i pre post K :
    (i < max)%N -> (i < min)%N -> gpeg_round g rho e t i pre post K Fail ->
    gpeg_rounds g rho e t min max i pre post K Fail
with gpeg_round : gmodule -> list (text * closure) -> parse_expr -> trivia -> N ->
    text -> text -> list text -> result -> Prop :=
| GR_first g rho e t pre post K r :
    gpeg_items g rho [It_expr e] pre post K r -> gpeg_round g rho e t 0 pre post K r
| GR_later g rho e t i pre post K r :
    (0 < i)%N -> gpeg_items g rho [It_trivia t; It_expr e] pre post K r -> gpeg_round g rho e t i pre post K r.

(** The first of the expressions that matches. *)
Inductive gpeg_first (g : gmodule) (rho : list (text * closure)) (pre post : text) (K : list text) : list parse_expr -> result -> Prop :=
| GF_nil : gpeg_first g rho pre post K [] Fail
| GF_here e l pre' post' K' : gpeg g rho e pre post K (Ok pre' post' K') -> gpeg_first g rho pre post K (e :: l) (Ok pre' post' K')
| GF_next e l r : gpeg g rho e pre post K Fail -> gpeg_first g rho pre post K l r -> gpeg_first g rho pre post K (e :: l) r.
End Names.

(** A list of expressions, each but the first after its trivia. *)
Definition separated_items (l : list (trivia * parse_expr)) : list item :=
  match l with
  | [] => []
  | (_, e) :: r => It_expr e :: flat_map (fun te => [It_trivia (fst te); It_expr (snd te)]) r
  end.

Scheme gpeg_mut := Induction for gpeg Sort Prop
with gpeg_items_mut := Induction for gpeg_items Sort Prop
with gpeg_rounds_mut := Induction for gpeg_rounds Sort Prop
with gpeg_round_mut := Induction for gpeg_round Sort Prop.
Combined Scheme gpeg_mutind from gpeg_mut, gpeg_items_mut, gpeg_rounds_mut, gpeg_round_mut.
