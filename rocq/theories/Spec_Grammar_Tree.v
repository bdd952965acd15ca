(** The tree that a grammar describes: for an expression that matches, the rules that were used, each with
    the offsets between which it matched and with those used inside it.

    [gtree g rho e pre post K pre' post' K' ps]: the expression [e] matches as in Spec_Grammar_Peg.v, and [ps]
    are the trees of the rules that it refers to, from left to right. What predicates and trivia try does not
    show; a silent rule hides itself and, unless it is [open], all that is inside it. Nothing refers to generated types. *)
From Coq Require Import String List NArith ZArith Arith Bool.
From Verif Require Import Model_Text Model_Message Model_Meta Model_Import Model_Tracker Model_Node Model_Pairs Spec_Text Spec_Peg Spec_Grammar_Peg Spec_Inline.
Import ListNotations.
Open Scope list_scope.

(** A rule, with the grammar in which it is written. *)
Definition label : Type := (gmodule * parse_rule)%type.

Section Tree.
Variable unicode : list text.
Variable property : N -> char -> bool.
Variable open : gmodule -> parse_rule -> Prop.
Notation gpeg := (gpeg unicode property).
Notation gpeg_round := (gpeg_round unicode property).
Notation names := (names unicode).

Inductive gtree : gmodule -> list (text * closure) -> parse_expr -> text -> text -> list text -> text -> text -> list text ->
    list (pair label) -> Prop :=
| GT_text g rho e pre post K pre' post' K' :
    ((exists s, e = PStr s) \/ (exists s, e = PInsens s) \/ (exists a b, e = PRange a b)) ->
    gpeg g rho e pre post K (Ok pre' post' K') -> gtree g rho e pre post K pre' post' K' []
| GT_builtin g rho path args q pre post K pre' post' K' :
    (forall x c, path = [x] -> ~ assoc x rho c) -> names g path (E_builtin q) -> q <> [lit "stack"; lit "push"] ->
    gpeg g rho (PPath path args) pre post K (Ok pre' post' K') -> gtree g rho (PPath path args) pre post K pre' post' K' []
| GT_predicate g rho e pre post K pre' post' K' :
    ((exists n, e = PPosPred n) \/ (exists n, e = PNegPred n)) ->
    gpeg g rho e pre post K (Ok pre' post' K') -> gtree g rho e pre post K pre' post' K' []
| GT_param g rho x args g' rho' e pre post K pre' post' K' ps :
    assoc x rho (Clo g' rho' e) -> gtree g' rho' e pre post K pre' post' K' ps ->
    gtree g rho (PPath [x] args) pre post K pre' post' K' ps
| GT_rule g rho path args l g' r pre post K pre' post' K' ps :
    (forall x c, path = [x] -> ~ assoc x rho c) ->
    names g path (E_rule g' r) -> call_arguments args l -> length l = length (pr_args r) -> pr_silent r = false ->
    gtree g' (combine (pr_args r) (map (fun n => Clo g rho (n_expr n)) l)) (n_expr (pr_node r)) pre post K pre' post' K' ps ->
    gtree g rho (PPath path args) pre post K pre' post' K' [mkPair (g', r) (blen pre) (blen pre') ps]
| GT_silent g rho path args l g' r pre post K pre' post' K' :
    (forall x c, path = [x] -> ~ assoc x rho c) ->
    names g path (E_rule g' r) -> call_arguments args l -> length l = length (pr_args r) -> pr_silent r = true -> ~ open g' r ->
    gpeg g' (combine (pr_args r) (map (fun n => Clo g rho (n_expr n)) l)) (n_expr (pr_node r)) pre post K (Ok pre' post' K') ->
    gtree g rho (PPath path args) pre post K pre' post' K' []
| GT_open g rho path args l g' r pre post K pre' post' K' ps :
    (forall x c, path = [x] -> ~ assoc x rho c) ->
    names g path (E_rule g' r) -> call_arguments args l -> length l = length (pr_args r) -> pr_silent r = true -> open g' r ->
    gtree g' (combine (pr_args r) (map (fun n => Clo g rho (n_expr n)) l)) (n_expr (pr_node r)) pre post K pre' post' K' ps ->
    gtree g rho (PPath path args) pre post K pre' post' K' ps
| GT_push g rho path n pre post K m post' K' ps :
    (forall x c, path = [x] -> ~ assoc x rho c) -> names g path (E_builtin [lit "stack"; lit "push"]) ->
    gtree g rho (n_expr n) pre post K (pre ++ m) post' K' ps ->
    gtree g rho (PPath path (Some (PCall [n]))) pre post K (pre ++ m) post' (m :: K') ps
| GT_seq g rho l r t pre post K pre' post' K' ps :
    gtree_items g rho [It_expr (n_expr l); It_trivia t; It_expr (n_expr r)] pre post K pre' post' K' ps ->
    gtree g rho (PSeq l r t) pre post K pre' post' K' ps
| GT_left g rho l r pre post K pre' post' K' ps :
    gtree g rho (n_expr l) pre post K pre' post' K' ps -> gtree g rho (PChoice l r) pre post K pre' post' K' ps
| GT_right g rho l r pre post K pre' post' K' ps :
    gpeg g rho (n_expr l) pre post K Fail -> gtree g rho (n_expr r) pre post K pre' post' K' ps ->
    gtree g rho (PChoice l r) pre post K pre' post' K' ps
| GT_some g rho n pre post K pre' post' K' ps :
    gtree g rho (n_expr n) pre post K pre' post' K' ps -> gtree g rho (POpt n) pre post K pre' post' K' ps
| GT_none g rho n pre post K :
    gpeg g rho (n_expr n) pre post K Fail -> gtree g rho (POpt n) pre post K pre post K []
| GT_repeat g rho e n min max t pre post K pre' post' K' ps :
    repetition e n min max -> round_trivia (n_expr n) t ->
    gtree_rounds g rho (n_expr n) t min max 0 pre post K pre' post' K' ps -> gtree g rho e pre post K pre' post' K' ps
| GT_separated g rho n t pre post K pre' post' K' ps :
    gtree g rho (n_expr n) pre post K pre' post' K' ps -> gtree g rho (PSeparated n t) pre post K pre' post' K' ps

(** One after the other; the trivia between them does not show. *)
with gtree_items : gmodule -> list (text * closure) -> list item -> text -> text -> list text -> text -> text -> list text ->
    list (pair label) -> Prop :=
| GTI_nil g rho pre post K : gtree_items g rho [] pre post K pre post K []
| GTI_expr g rho e l pre post K pre1 post1 K1 ps pre' post' K' qs :
    gtree g rho e pre post K pre1 post1 K1 ps -> gtree_items g rho l pre1 post1 K1 pre' post' K' qs ->
    gtree_items g rho (It_expr e :: l) pre post K pre' post' K' (ps ++ qs)
| GTI_none g rho l pre post K pre' post' K' qs :
    gtree_items g rho l pre post K pre' post' K' qs -> gtree_items g rho (It_trivia TriviaNone :: l) pre post K pre' post' K' qs
| GTI_trivia g rho t name r l pre post K pre1 post1 K1 pre' post' K' qs :
    trivia_name t = Some name -> last_rule g name r ->
    gpeg g [] (n_expr (pr_node r)) pre post K (Ok pre1 post1 K1) -> gtree_items g rho l pre1 post1 K1 pre' post' K' qs ->
    gtree_items g rho (It_trivia t :: l) pre post K pre' post' K' qs

(** The rounds of a repetition, [i] of them being done. *)
with gtree_rounds : gmodule -> list (text * closure) -> parse_expr -> trivia -> N -> N -> N ->
    text -> text -> list text -> text -> text -> list text -> list (pair label) -> Prop :=
| GTR_max g rho e t min max i pre post K :
    (max <= i)%N -> gtree_rounds g rho e t min max i pre post K pre post K []
| GTR_round g rho e t min max i pre post K pre1 post1 K1 ps pre' post' K' qs :
    (i < max)%N -> gtree_round g rho e t i pre post K pre1 post1 K1 ps ->
    gtree_rounds g rho e t min max (i + 1) pre1 post1 K1 pre' post' K' qs ->
    gtree_rounds g rho e t min max i pre post K pre' post' K' (ps ++ qs)
| GTR_stop g rho e t min max i pre post K :
    (i < max)%N -> (min <= i)%N -> gpeg_round g rho e t i pre post K Fail ->
    gtree_rounds g rho e t min max i pre post K pre post K []
with gtree_round : gmodule -> list (text * closure) -> parse_expr -> trivia -> N ->
    text -> text -> list text -> text -> text -> list text -> list (pair label) -> Prop :=
| GTR_first g rho e t pre post K pre' post' K' ps :
    gtree_items g rho [It_expr e] pre post K pre' post' K' ps -> gtree_round g rho e t 0 pre post K pre' post' K' ps
| GTR_later g rho e t i pre post K pre' post' K' ps :
    (0 < i)%N -> gtree_items g rho [It_trivia t; It_expr e] pre post K pre' post' K' ps ->
    gtree_round g rho e t i pre post K pre' post' K' ps.
End Tree.

Scheme gtree_mut := Induction for gtree Sort Prop
with gtree_items_mut := Induction for gtree_items Sort Prop
with gtree_rounds_mut := Induction for gtree_rounds Sort Prop
with gtree_round_mut := Induction for gtree_round Sort Prop.
Combined Scheme gtree_mutind from gtree_mut, gtree_items_mut, gtree_rounds_mut, gtree_round_mut.

(** Trees with the same offsets and related rules. *)
Inductive matched {A B : Type} (R : A -> B -> Prop) : pair A -> pair B -> Prop :=
| Matched a b start stop ps qs :
    R a b -> matched_all R ps qs -> matched R (mkPair a start stop ps) (mkPair b start stop qs)
with matched_all {A B : Type} (R : A -> B -> Prop) : list (pair A) -> list (pair B) -> Prop :=
| Matched_nil : matched_all R [] []
| Matched_cons p q ps qs : matched R p q -> matched_all R ps qs -> matched_all R (p :: ps) (q :: qs).

(** The number [r] stands for the rule [q] of the grammar [h], which is [top] or imported from it. *)
Definition numbered_as (located : list text -> gmodule -> Prop) (id : list text -> text -> rule) (r : rule) (l : label) : Prop :=
  exists m, located m (fst l) /\ In (snd l) (g_rules (fst l)) /\ r = id m (pr_name (snd l)).

(** The trees in a tree. *)
Inductive within {A : Type} (p : pair A) : list (pair A) -> Prop :=
| Within_here qs : within p (p :: qs)
| Within_child x a b ps qs : within p ps -> within p (mkPair x a b ps :: qs)
| Within_later q qs : within p qs -> within p (q :: qs).

(** Which silent rules hide nothing: none; the ones of the grammar [g] that have parameters. *)
Definition none_open (h : gmodule) (q : parse_rule) : Prop := False.
Definition open_own (g h : gmodule) (q : parse_rule) : Prop := h = g /\ macro g q.

(** Of the rules [l] and [l'], one is of the grammar [g] and the other the one with its name and parameters of [g'], or they are the same rule of another grammar. *)
Definition counterpart (g g' : gmodule) (l l' : label) : Prop :=
  l = l' /\ fst l <> g /\ fst l <> g' \/
  fst l = g /\ fst l' = g' /\ In (snd l) (g_rules g) /\ In (snd l') (g_rules g') /\ pr_name (snd l') = pr_name (snd l) /\ pr_args (snd l') = pr_args (snd l).
