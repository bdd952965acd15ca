(** Which rules a grammar tries, and where: what an error report is about, in terms of the grammar.

    [gtry chain positive g rho e pre post K r tr]: the expression [e], tried inside the rules [chain] (innermost
    first, each with the offset at which it began), has the result [r] as in Spec_Grammar_Peg.v; [tr] are the
    rules that were tried and the misuses of the stack, oldest first. [positive] says whether a match is wanted.
    Only rules in which no other rule was tried are recorded. Calls of the rules in [open] are as if the body were written instead: neither are
    they recorded nor is anything inside them. Nothing refers to generated types. *)
From Coq Require Import String List NArith ZArith Arith Bool.
From Verif Require Import Model_Text Model_Message Model_Meta Model_Import Model_Tracker Model_Node Model_Pairs
  Spec_Text Spec_Peg Spec_Run Spec_Tracker Spec_Grammar_Peg Spec_Grammar_Tree.
Import ListNotations.
Open Scope list_scope.

Inductive gevent :=
| G_attempt (chain : list (label * nat)) (l : label) (at_ : nat) (positive succeeded : bool)
| G_misuse (chain : list (label * nat)) (at_ : nat) (e : special_error).

Definition tried_grammar_rule (tr : list gevent) : bool :=
  existsb (fun e => match e with G_attempt _ _ _ _ _ => true | G_misuse _ _ _ => false end) tr.
Definition succeeded (r : result) : bool := match r with Ok _ _ _ => true | Fail => false end.

(** The built-in rules that need something on the stack. *)
Definition takes_top (q : list text) : Prop :=
  q = [lit "stack"; lit "peek"] \/ q = [lit "stack"; lit "pop"] \/ q = [lit "stack"; lit "drop"].

(** The bounds of a slice are within a stack of [len] elements. *)
Definition slice_from (range : mrange Z) : Z := match r_start range with Some a => a | None => 0%Z end.
Definition in_bounds (range : mrange Z) (len : nat) : bool :=
  admissible len (slice_from range) && match r_end range with Some b => admissible len b | None => true end.

Section Trace.
Variable unicode : list text.
Variable property : N -> char -> bool.
Variable open : gmodule -> parse_rule -> Prop.
Notation gpeg := (gpeg unicode property).
Notation names := (names unicode).

Inductive gtry : list (label * nat) -> bool -> gmodule -> list (text * closure) -> parse_expr -> text -> text -> list text -> result ->
    list gevent -> Prop :=
| GA_text chain pol g rho e pre post K r :
    ((exists s, e = PStr s) \/ (exists s, e = PInsens s) \/ (exists a b, e = PRange a b)) ->
    gpeg g rho e pre post K r -> gtry chain pol g rho e pre post K r []
(* A built-in rule, used as it should be. *)
| GA_builtin chain pol g rho path args q pre post K r :
    (forall x c, path = [x] -> ~ assoc x rho c) -> names g path (E_builtin q) -> q <> [lit "stack"; lit "push"] ->
    (forall range, args <> Some (PSlice range)) -> ~ (takes_top q /\ K = []) ->
    gpeg g rho (PPath path args) pre post K r -> gtry chain pol g rho (PPath path args) pre post K r []
| GA_empty chain pol g rho path args q pre post r :
    (forall x c, path = [x] -> ~ assoc x rho c) -> names g path (E_builtin q) ->
    (forall range, args <> Some (PSlice range)) -> takes_top q ->
    gpeg g rho (PPath path args) pre post [] r ->
    gtry chain pol g rho (PPath path args) pre post [] r [G_misuse chain (blen pre) EmptyStack]
| GA_slice chain pol g rho path range q pre post K r :
    (forall x c, path = [x] -> ~ assoc x rho c) -> names g path (E_builtin q) -> in_bounds range (length K) = true ->
    gpeg g rho (PPath path (Some (PSlice range))) pre post K r -> gtry chain pol g rho (PPath path (Some (PSlice range))) pre post K r []
| GA_bounds chain pol g rho path range q pre post K r :
    (forall x c, path = [x] -> ~ assoc x rho c) -> names g path (E_builtin q) -> in_bounds range (length K) = false ->
    gpeg g rho (PPath path (Some (PSlice range))) pre post K r ->
    gtry chain pol g rho (PPath path (Some (PSlice range))) pre post K r
      [G_misuse chain (blen pre) (SliceOutOfBound (slice_from range) (r_end range))]
| GA_param chain pol g rho x args g' rho' e pre post K r tr :
    assoc x rho (Clo g' rho' e) -> gtry chain pol g' rho' e pre post K r tr -> gtry chain pol g rho (PPath [x] args) pre post K r tr
(* A rule is recorded if no rule was tried in it. *)
| GA_rule chain pol g rho path args l g' q pre post K r tr :
    (forall x c, path = [x] -> ~ assoc x rho c) ->
    names g path (E_rule g' q) -> call_arguments args l -> length l = length (pr_args q) -> ~ open g' q ->
    gtry (((g', q), blen pre) :: chain) pol g' (combine (pr_args q) (map (fun n => Clo g rho (n_expr n)) l)) (n_expr (pr_node q)) pre post K r tr ->
    gtry chain pol g rho (PPath path args) pre post K r
      (tr ++ (if tried_grammar_rule tr then [] else [G_attempt chain (g', q) (blen pre) pol (succeeded r)]))
| GA_open chain pol g rho path args l g' q pre post K r tr :
    (forall x c, path = [x] -> ~ assoc x rho c) ->
    names g path (E_rule g' q) -> call_arguments args l -> length l = length (pr_args q) -> open g' q ->
    gtry chain pol g' (combine (pr_args q) (map (fun n => Clo g rho (n_expr n)) l)) (n_expr (pr_node q)) pre post K r tr ->
    gtry chain pol g rho (PPath path args) pre post K r tr
| GA_push_ok chain pol g rho path n pre post K m post' K' tr :
    (forall x c, path = [x] -> ~ assoc x rho c) -> names g path (E_builtin [lit "stack"; lit "push"]) ->
    gtry chain pol g rho (n_expr n) pre post K (Ok (pre ++ m) post' K') tr ->
    gtry chain pol g rho (PPath path (Some (PCall [n]))) pre post K (Ok (pre ++ m) post' (m :: K')) tr
| GA_push_fail chain pol g rho path n pre post K tr :
    (forall x c, path = [x] -> ~ assoc x rho c) -> names g path (E_builtin [lit "stack"; lit "push"]) ->
    gtry chain pol g rho (n_expr n) pre post K Fail tr -> gtry chain pol g rho (PPath path (Some (PCall [n]))) pre post K Fail tr
(* A predicate says whether a match is wanted. *)
| GA_positive_ok chain pol g rho n pre post K pre' post' K' tr :
    gtry chain true g rho (n_expr n) pre post K (Ok pre' post' K') tr -> gtry chain pol g rho (PPosPred n) pre post K (Ok pre post K) tr
| GA_positive_fail chain pol g rho n pre post K tr :
    gtry chain true g rho (n_expr n) pre post K Fail tr -> gtry chain pol g rho (PPosPred n) pre post K Fail tr
| GA_negative_ok chain pol g rho n pre post K tr :
    gtry chain false g rho (n_expr n) pre post K Fail tr -> gtry chain pol g rho (PNegPred n) pre post K (Ok pre post K) tr
| GA_negative_fail chain pol g rho n pre post K pre' post' K' tr :
    gtry chain false g rho (n_expr n) pre post K (Ok pre' post' K') tr -> gtry chain pol g rho (PNegPred n) pre post K Fail tr
| GA_seq chain pol g rho l r t pre post K res tr :
    gtry_items chain pol g rho [It_expr (n_expr l); It_trivia t; It_expr (n_expr r)] pre post K res tr ->
    gtry chain pol g rho (PSeq l r t) pre post K res tr
| GA_left chain pol g rho l r pre post K pre' post' K' tr :
    gtry chain pol g rho (n_expr l) pre post K (Ok pre' post' K') tr -> gtry chain pol g rho (PChoice l r) pre post K (Ok pre' post' K') tr
| GA_right chain pol g rho l r pre post K res tr tr' :
    gtry chain pol g rho (n_expr l) pre post K Fail tr -> gtry chain pol g rho (n_expr r) pre post K res tr' ->
    gtry chain pol g rho (PChoice l r) pre post K res (tr ++ tr')
| GA_some chain pol g rho n pre post K pre' post' K' tr :
    gtry chain pol g rho (n_expr n) pre post K (Ok pre' post' K') tr -> gtry chain pol g rho (POpt n) pre post K (Ok pre' post' K') tr
| GA_none chain pol g rho n pre post K tr :
    gtry chain pol g rho (n_expr n) pre post K Fail tr -> gtry chain pol g rho (POpt n) pre post K (Ok pre post K) tr
| GA_repeat chain pol g rho e n min max t pre post K r tr :
    repetition e n min max -> round_trivia (n_expr n) t ->
    gtry_rounds chain pol g rho (n_expr n) t min max 0 pre post K r tr -> gtry chain pol g rho e pre post K r tr
| GA_separated chain pol g rho n t pre post K r tr :
    gtry chain pol g rho (n_expr n) pre post K r tr -> gtry chain pol g rho (PSeparated n t) pre post K r tr

(** One after the other. What is tried in trivia counts, the trivia itself does not. *)
with gtry_items : list (label * nat) -> bool -> gmodule -> list (text * closure) -> list item -> text -> text -> list text -> result ->
    list gevent -> Prop :=
| GAI_nil chain pol g rho pre post K : gtry_items chain pol g rho [] pre post K (Ok pre post K) []
| GAI_expr chain pol g rho e l pre post K pre' post' K' r tr tr' :
    gtry chain pol g rho e pre post K (Ok pre' post' K') tr -> gtry_items chain pol g rho l pre' post' K' r tr' ->
    gtry_items chain pol g rho (It_expr e :: l) pre post K r (tr ++ tr')
| GAI_expr_fail chain pol g rho e l pre post K tr :
    gtry chain pol g rho e pre post K Fail tr -> gtry_items chain pol g rho (It_expr e :: l) pre post K Fail tr
| GAI_none chain pol g rho l pre post K r tr :
    gtry_items chain pol g rho l pre post K r tr -> gtry_items chain pol g rho (It_trivia TriviaNone :: l) pre post K r tr
| GAI_trivia chain pol g rho t name q l pre post K pre' post' K' r tr tr' :
    trivia_name t = Some name -> last_rule g name q ->
    gtry chain pol g [] (n_expr (pr_node q)) pre post K (Ok pre' post' K') tr -> gtry_items chain pol g rho l pre' post' K' r tr' ->
    gtry_items chain pol g rho (It_trivia t :: l) pre post K r (tr ++ tr')
| GAI_trivia_fail chain pol g rho t name q l pre post K tr :
    trivia_name t = Some name -> last_rule g name q ->
    gtry chain pol g [] (n_expr (pr_node q)) pre post K Fail tr -> gtry_items chain pol g rho (It_trivia t :: l) pre post K Fail tr

(** The rounds of a repetition, [i] of them being done. What the round that ends it tried counts. *)
with gtry_rounds : list (label * nat) -> bool -> gmodule -> list (text * closure) -> parse_expr -> trivia -> N -> N -> N ->
    text -> text -> list text -> result -> list gevent -> Prop :=
| GAR_max chain pol g rho e t min max i pre post K :
    (max <= i)%N -> gtry_rounds chain pol g rho e t min max i pre post K (Ok pre post K) []
| GAR_round chain pol g rho e t min max i pre post K pre' post' K' r tr tr' :
    (i < max)%N -> gtry_round chain pol g rho e t i pre post K (Ok pre' post' K') tr ->
    gtry_rounds chain pol g rho e t min max (i + 1) pre' post' K' r tr' -> gtry_rounds chain pol g rho e t min max i pre post K r (tr ++ tr')
| GAR_stop chain pol g rho e t min max i pre post K tr :
    (i < max)%N -> (min <= i)%N -> gtry_round chain pol g rho e t i pre post K Fail tr ->
    gtry_rounds chain pol g rho e t min max i pre post K (Ok pre post K) tr
| GAR_fail chain pol g rho e t min max i pre post K tr :
    (i < max)%N -> (i < min)%N -> gtry_round chain pol g rho e t i pre post K Fail tr ->
    gtry_rounds chain pol g rho e t min max i pre post K Fail tr
with gtry_round : list (label * nat) -> bool -> gmodule -> list (text * closure) -> parse_expr -> trivia -> N ->
    text -> text -> list text -> result -> list gevent -> Prop :=
| GAR_first chain pol g rho e t pre post K r tr :
    gtry_items chain pol g rho [It_expr e] pre post K r tr -> gtry_round chain pol g rho e t 0 pre post K r tr
| GAR_later chain pol g rho e t i pre post K r tr :
    (0 < i)%N -> gtry_items chain pol g rho [It_trivia t; It_expr e] pre post K r tr -> gtry_round chain pol g rho e t i pre post K r tr.
End Trace.

Scheme gtry_mut := Induction for gtry Sort Prop
with gtry_items_mut := Induction for gtry_items Sort Prop
with gtry_rounds_mut := Induction for gtry_rounds Sort Prop
with gtry_round_mut := Induction for gtry_round Sort Prop.
Combined Scheme gtry_mutind from gtry_mut, gtry_items_mut, gtry_rounds_mut, gtry_round_mut.

(** The same attempts, with numbers for rules. *)
Definition frame_of (R : rule -> label -> Prop) (a : rule * nat) (b : label * nat) : Prop := R (fst a) (fst b) /\ snd a = snd b.
Inductive event_of (R : rule -> label -> Prop) : event -> gevent -> Prop :=
| Ev_attempt chain gchain r l p pol ok :
    Forall2 (frame_of R) chain gchain -> R r l -> event_of R (Attempt chain r p pol ok) (G_attempt gchain l p pol ok)
| Ev_misuse chain gchain p x : Forall2 (frame_of R) chain gchain -> event_of R (Special chain p x) (G_misuse gchain p x).

(** What a parse that starts with the rule [r] of [h] tries. *)
Definition gtry_rule (unicode : list text) (property : N -> char -> bool) (open : gmodule -> parse_rule -> Prop) (h : gmodule) (r : parse_rule) (pre post : text) (K : list text)
  (res : result) (gtr : list gevent) : Prop :=
  exists tr, gtry unicode property open [((h, r), blen pre)] true h [] (n_expr (pr_node r)) pre post K res tr /\
    gtr = tr ++ (if tried_grammar_rule tr then [] else [G_attempt [] (h, r) (blen pre) true (succeeded res)]).

(** The offset of an attempt, the furthest one, and the nearest enclosing rule that began elsewhere. *)
Definition tried_at (e : gevent) : nat := match e with G_attempt _ _ p _ _ => p | G_misuse _ p _ => p end.
Definition furthest_try (tr : list gevent) : nat := fold_right Nat.max 0 (map tried_at tr).
Definition begun_elsewhere (chain : list (label * nat)) (p : nat) : option label :=
  match find (fun lp => negb (snd lp =? p)) chain with Some (l, _) => Some l | None => None end.

(** What a report lists. *)
Definition lists_expected (rep : nat * list (option rule * tracked)) (u : option rule) (x : rule) : Prop :=
  exists a b c, lookup (snd rep) u = Some (a, b, c) /\ In x a.
Definition lists_unexpected (rep : nat * list (option rule * tracked)) (u : option rule) (x : rule) : Prop :=
  exists a b c, lookup (snd rep) u = Some (a, b, c) /\ In x b.
Definition lists_misuse (rep : nat * list (option rule * tracked)) (u : option rule) (x : special_error) : Prop :=
  exists a b c, lookup (snd rep) u = Some (a, b, c) /\ In x c.
Inductive same_group (R : rule -> label -> Prop) : option rule -> option label -> Prop :=
| SG_none : same_group R None None
| SG_some r l : R r l -> same_group R (Some r) (Some l).

(** The report is about the furthest attempts: its entries are the rules that failed there where they were wanted, the rules that matched
    where they were not, and the misuses of the stack, each under the nearest enclosing rule that began elsewhere. *)
Record tells (R : rule -> label -> Prop) (tr : list gevent) (rep : nat * list (option rule * tracked)) : Prop := mkTells {
  tells_at : fst rep = furthest_try tr;
  tells_expected : forall u x, lists_expected rep u x ->
    exists chain l, In (G_attempt chain l (furthest_try tr) true false) tr /\ R x l /\ same_group R u (begun_elsewhere chain (furthest_try tr));
  tells_all_expected : forall chain l, In (G_attempt chain l (furthest_try tr) true false) tr ->
    exists u x, lists_expected rep u x /\ R x l /\ same_group R u (begun_elsewhere chain (furthest_try tr));
  tells_unexpected : forall u x, lists_unexpected rep u x ->
    exists chain l, In (G_attempt chain l (furthest_try tr) false true) tr /\ R x l /\ same_group R u (begun_elsewhere chain (furthest_try tr));
  tells_all_unexpected : forall chain l, In (G_attempt chain l (furthest_try tr) false true) tr ->
    exists u x, lists_unexpected rep u x /\ R x l /\ same_group R u (begun_elsewhere chain (furthest_try tr));
  tells_misuse : forall u x, lists_misuse rep u x ->
    exists chain, In (G_misuse chain (furthest_try tr) x) tr /\ same_group R u (begun_elsewhere chain (furthest_try tr));
  tells_all_misuse : forall chain x, In (G_misuse chain (furthest_try tr) x) tr ->
    exists u, lists_misuse rep u x /\ same_group R u (begun_elsewhere chain (furthest_try tr)) }.

(** If the rule matches up to [p] and the text goes on, its end is expected at [p], along with what was tried there; what was tried further on comes
    first. *)
Record tells_rest (R : rule -> label -> Prop) (tr : list gevent) (p : nat) (rep : nat * list (option rule * tracked)) : Prop := mkTellsRest {
  rest_before : p < furthest_try tr -> tells R tr rep;
  rest_at : furthest_try tr <= p -> fst rep = p;
  rest_same : furthest_try tr = p -> exists rep', tells R tr rep' /\
    (forall u x, lists_expected rep u x <-> lists_expected rep' u x \/ (u = None /\ x = EOI)) /\
    (forall u x, lists_unexpected rep u x <-> lists_unexpected rep' u x) /\
    (forall u x, lists_misuse rep u x <-> lists_misuse rep' u x);
  rest_after : furthest_try tr < p ->
    (forall u x, lists_expected rep u x <-> u = None /\ x = EOI) /\
    (forall u x, ~ lists_unexpected rep u x) /\ (forall u x, ~ lists_misuse rep u x) }.
