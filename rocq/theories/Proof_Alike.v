(** Nothing that is generated depends on the places of the expressions in the files. *)
From Coq Require Import String List NArith ZArith Arith Bool Lia.
From Verif Require Import Model_Text Model_Message Model_Meta Model_Import Model_Generator Model_Output Model_Inline
  Spec_Import Spec_Written Proof_Box Proof_Raw.
Import ListNotations.
Open Scope list_scope.

(** * Expressions without places. *)
Definition nowhere : mspan := mkMSpan [] 0 0.
Definition at_nowhere (e : parse_expr) : parse_node := mkNode e nowhere.
Fixpoint embed (t : tree) : parse_expr :=
  match t with
  | T_str s => PStr s
  | T_insens s => PInsens s
  | T_range a b => PRange a b
  | T_name p => PPath p None
  | T_call p l => PPath p (Some (PCall (map (fun t => at_nowhere (embed t)) l)))
  | T_slice p x y => PPath p (Some (PSlice (mkRange x y)))
  | T_pos t => PPosPred (at_nowhere (embed t))
  | T_neg t => PNegPred (at_nowhere (embed t))
  | T_seq a b k => PSeq (at_nowhere (embed a)) (at_nowhere (embed b)) k
  | T_choice a b => PChoice (at_nowhere (embed a)) (at_nowhere (embed b))
  | T_opt t => POpt (at_nowhere (embed t))
  | T_rep t => PRep (at_nowhere (embed t))
  | T_once t => PRepOnce (at_nowhere (embed t))
  | T_times t x y => PRepRange (at_nowhere (embed t)) (mkRange x y)
  | T_sep t k => PSeparated (at_nowhere (embed t)) k
  end.
Definition bare (e : parse_expr) : parse_expr := embed (tree_expr e).
Definition bare_node (n : parse_node) : parse_node := at_nowhere (bare (n_expr n)).
Lemma tree_node : forall n, tree_of n = tree_expr (n_expr n).
Proof. intros [e s]. reflexivity. Qed.

Lemma bare_eq : forall e, bare e =
  match e with
  | PPath p (Some (PCall l)) => PPath p (Some (PCall (map bare_node l)))
  | PPosPred n => PPosPred (bare_node n)
  | PNegPred n => PNegPred (bare_node n)
  | PSeq a b k => PSeq (bare_node a) (bare_node b) k
  | PChoice a b => PChoice (bare_node a) (bare_node b)
  | POpt n => POpt (bare_node n)
  | PRep n => PRep (bare_node n)
  | PRepOnce n => PRepOnce (bare_node n)
  | PRepRange n r => PRepRange (bare_node n) r
  | PSeparated n k => PSeparated (bare_node n) k
  | e => e
  end.
Proof.
  intros e. unfold bare, bare_node.
  destruct e as [s|s|a b|p [[l|[x y]]|]|n|n|a b k|a b|n|n|n|n [x y]|n k]; try reflexivity; cbn [tree_expr tree_args embed r_start r_end];
    rewrite ?tree_node; try reflexivity.
  rewrite map_map. do 3 f_equal. apply map_ext. intros m. rewrite tree_node. reflexivity.
Qed.
Definition bare_rule (r : parse_rule) : parse_rule :=
  mkParseRule (pr_doc r) (pr_name r) (pr_args r) nowhere (bare_node (pr_node r)) (pr_silent r).

(** * What is read off a rule. *)
Lemma bare_used : forall e, used_names (bare e) = used_names e.
Proof.
  apply (expr_rect (fun e => used_names (bare e) = used_names e)); intros; rewrite bare_eq; try reflexivity;
    cbn [used_names used_names_args used_names_node bare_node at_nowhere]; rewrite ?used_node; try congruence.
  f_equal. induction args as [|n l IH]; [reflexivity|]. cbn [map]. rewrite !used_node. cbn [bare_node at_nowhere n_expr].
  rewrite H; [|left; reflexivity]. f_equal. apply IH. intros m I. apply H. right. exact I.
Qed.
Lemma bare_uses : forall t e, uses_trivia t (bare e) = uses_trivia t e.
Proof.
  intro t. apply (expr_rect (fun e => uses_trivia t (bare e) = uses_trivia t e)); intros; rewrite bare_eq; try reflexivity;
    cbn [uses_trivia uses_trivia_args uses_trivia_node bare_node at_nowhere]; rewrite ?uses_node; try congruence.
  induction args as [|n l IH]; [reflexivity|]. cbn [map]. rewrite !uses_node. cbn [bare_node at_nowhere n_expr].
  rewrite H; [|left; reflexivity]. f_equal. apply IH. intros m I. apply H. right. exact I.
Qed.
Lemma bare_find : forall x rules, find_rule x (map bare_rule rules) = option_map bare_rule (find_rule x rules).
Proof. intros x. unfold find_rule. induction rules as [|r l IH]; [reflexivity|]. cbn [map find bare_rule pr_name]. destruct (text_eqb (pr_name r) x); [reflexivity|exact IH]. Qed.
Lemma bare_used_rule : forall rules r, collect_used_rule (map bare_rule rules) (bare_rule r) = collect_used_rule rules r.
Proof.
  intros rules r. unfold collect_used_rule. cbn [bare_rule pr_node bare_node at_nowhere n_expr]. rewrite !bare_find, !bare_uses, bare_used.
  destruct (find_rule (lit "~") rules), (find_rule (lit "^") rules); reflexivity.
Qed.
Lemma bare_direct : forall all rules res, collect_direct (map bare_rule all) (map bare_rule rules) res = collect_direct all rules res.
Proof.
  intros all. induction rules as [|r l IH]; intros res; [reflexivity|]. cbn [map collect_direct]. rewrite bare_used_rule.
  destruct (collect_used_rule all r); [|reflexivity|reflexivity]. cbn [obind]. apply IH.
Qed.
Lemma bare_reach : forall rules, collect_reachability (map bare_rule rules) = collect_reachability rules.
Proof. intros rules. unfold collect_reachability. rewrite bare_direct, map_map, map_length. reflexivity. Qed.

(** * Expressions and rules. *)
Lemma bare_sequence : forall e t, sequence_rest t (bare e) = map (fun p => (fst p, bare (snd p))) (sequence_rest t e).
Proof.
  apply (expr_rect (fun e => forall t, sequence_rest t (bare e) = map (fun p => (fst p, bare (snd p))) (sequence_rest t e)));
    try (intros; rewrite bare_eq; cbn [sequence_rest map fst snd]; try rewrite bare_eq; reflexivity).
  intros [l sl] [r sr] k _ IH t. rewrite bare_eq. cbn [sequence_rest bare_node at_nowhere map fst snd n_expr]. f_equal. apply IH.
Qed.
Lemma bare_choices : forall e, choices_rest (bare e) = map bare (choices_rest e).
Proof.
  apply (expr_rect (fun e => choices_rest (bare e) = map bare (choices_rest e)));
    try (intros; rewrite bare_eq; cbn [choices_rest map]; try rewrite bare_eq; reflexivity).
  intros [l sl] [r sr] _ IH. rewrite bare_eq. cbn [choices_rest bare_node at_nowhere map n_expr]. f_equal. apply IH.
Qed.
Lemma bare_list : forall f l tr, (forall e tr, f (bare e) tr = f e tr) -> process_list f (map bare l) tr = process_list f l tr.
Proof.
  intros f l tr H. revert tr. induction l as [|e l IH]; intros tr; [reflexivity|]. cbn [map process_list]. rewrite H.
  destruct (f e tr) as [(i, tr')| |]; [|reflexivity|reflexivity]. cbn [obind]. rewrite IH. reflexivity.
Qed.
Lemma bare_process : forall params sys root fuel e tr, process_expr params sys root fuel (bare e) tr = process_expr params sys root fuel e tr.
Proof.
  intros params sys root fuel. induction fuel as [|fuel IH]; intros e tr; [reflexivity|]. rewrite bare_eq.
  destruct e as [s|s|a b|p [[l|[x y]]|]|n|n|a b k|a b|n|n|n|n [x y]|n k]; try reflexivity; cbn [process_expr bare_node at_nowhere n_expr].
  - destruct (match p with [x] => if text_in x params then Some x else None | _ => None end); [reflexivity|].
    rewrite map_map. rewrite <- (map_map n_expr bare). rewrite bare_list by exact IH. reflexivity.
  - rewrite IH. reflexivity.
  - rewrite IH. reflexivity.
  - unfold collect_sequence. cbn [map fst snd]. rewrite bare_sequence, !map_map. cbn [fst snd].
    change (bare (n_expr a) :: map (fun x => bare (snd x)) (sequence_rest k (n_expr b))) with (map bare (n_expr a :: [] ) ++ map (fun x => bare (snd x)) (sequence_rest k (n_expr b))).
    rewrite <- (map_map snd bare), <- map_app. rewrite bare_list by exact IH. reflexivity.
  - unfold collect_choices. rewrite bare_choices. change (bare (n_expr a) :: map bare (choices_rest (n_expr b))) with (map bare (n_expr a :: choices_rest (n_expr b))).
    rewrite bare_list by exact IH. reflexivity.
  - rewrite IH. reflexivity.
  - rewrite IH. assert (T : get_trivia (bare (n_expr n)) = get_trivia (n_expr n)) by (rewrite bare_eq; destruct (n_expr n) as [| | |? [[]|]| | | | | | | | |]; reflexivity). rewrite T. reflexivity.
  - rewrite IH. assert (T : get_trivia (bare (n_expr n)) = get_trivia (n_expr n)) by (rewrite bare_eq; destruct (n_expr n) as [| | |? [[]|]| | | | | | | | |]; reflexivity). rewrite T. reflexivity.
  - rewrite IH. assert (T : get_trivia (bare (n_expr n)) = get_trivia (n_expr n)) by (rewrite bare_eq; destruct (n_expr n) as [| | |? [[]|]| | | | | | | | |]; reflexivity). rewrite T. reflexivity.
  - apply IH.
Qed.
Lemma bare_process_rule : forall config fuel sys reach root depth r tr o,
  process_rule config fuel sys reach root depth (bare_rule r) tr o = process_rule config fuel sys reach root depth r tr o.
Proof.
  intros. unfold process_rule. cbn [bare_rule pr_node pr_args pr_name bare_node at_nowhere n_expr]. rewrite bare_process. reflexivity.
Qed.
Lemma bare_process_all : forall config fuel sys reach root depth rules tr o,
  process_all config fuel sys reach root depth (map bare_rule rules) tr o = process_all config fuel sys reach root depth rules tr o.
Proof.
  intros config fuel sys reach root depth. induction rules as [|r l IH]; intros tr o; [reflexivity|]. cbn [map process_all]. rewrite bare_process_rule.
  destruct (process_rule config fuel sys reach root depth r tr o) as [(o', tr')| |]; [|reflexivity|reflexivity]. cbn [obind]. apply IH.
Qed.
Lemma bare_insert_rules : forall rules sys, insert_rules (map bare_rule rules) sys = insert_rules rules sys.
Proof.
  induction rules as [|r l IH]; intros sys; [reflexivity|]. cbn [map insert_rules]. change (pr_name (bare_rule r)) with (pr_name r).
  destruct (is_trivia_name (pr_name r)); [apply IH|]. change (sys_insert_rule sys (bare_rule r)) with (sys_insert_rule sys r).
  destruct (sys_insert_rule sys r); [|reflexivity|reflexivity]. apply IH.
Qed.

(** * Grammars. *)
Fixpoint bare_module (g : gmodule) : gmodule :=
  match g with
  | mkModule _ rules doc imports =>
      mkModule [] (map bare_rule rules) doc (map (fun i => match i with Builtin a n => Builtin a n | File a g => File a (bare_module g) end) imports)
  end.
Definition bare_import (i : import) : import := match i with Builtin a n => Builtin a n | File a g => File a (bare_module g) end.
Section Module_ind.
Variable P : gmodule -> Prop.
Hypothesis step : forall g, (forall alias g', In (File alias g') (g_imports g) -> P g') -> P g.
Fixpoint module_rect (g : gmodule) : P g.
Proof.
  destruct g as [deps rules doc imports]. apply step. cbn [g_imports].
  induction imports as [|i l IH]; intros alias g' I; [destruct I|].
  destruct I as [E|I]; [|exact (IH alias g' I)]. destruct i as [a n|a m]; [discriminate|]. injection E as _ E. rewrite <- E. apply module_rect.
Defined.
End Module_ind.
Definition embed_rule (e : w_entry) : parse_rule :=
  let '(ds, n, l, b, t) := e in mkParseRule ds n l nowhere (at_nowhere (embed t)) b.
Fixpoint embed_module (t : wtree) : gmodule :=
  match t with
  | WTree rules doc imports => mkModule [] (map embed_rule rules) doc (map (fun i => match i with WI_builtin a n => Builtin a n | WI_file a t => File a (embed_module t) end) imports)
  end.
Lemma embed_forget : forall g, embed_module (forget (shape g)) = bare_module g.
Proof.
  apply module_rect. intros [deps rules doc imports] IH. cbn [shape forget embed_module bare_module g_imports] in *. f_equal.
  - rewrite map_map. apply map_ext. intros r. unfold embed_rule, forget_rule, bare_rule, bare_node, bare. rewrite tree_node. reflexivity.
  - rewrite !map_map. apply map_ext_in. intros [a n|a g] I; [reflexivity|]. f_equal. eapply IH. exact I.
Qed.
Lemma forget_embed : forall t, forget (shape (embed_module t)) = t.
Proof.
  assert (E : forall t, tree_expr (embed t) = t).
  { fix IH 1. intros [s|s|a b|p|p l|p x y|t|t|a b k|a b|t|t|t|t x y|t k]; cbn [embed tree_expr tree_args tree_of at_nowhere r_start r_end]; rewrite ?IH; try reflexivity.
    rewrite map_map. f_equal. induction l as [|t l IHl]; [reflexivity|]. cbn [map]. f_equal; [apply IH|exact IHl]. }
  fix IH 1. intros [rules doc imports]. cbn [embed_module shape forget]. f_equal.
  - rewrite map_map. rewrite <- (map_id rules) at 2. apply map_ext. intros [[[[ds n] l] b] t]. unfold embed_rule, forget_rule. cbn [pr_doc pr_name pr_args pr_silent pr_node tree_of at_nowhere]. rewrite E. reflexivity.
  - rewrite !map_map. induction imports as [|[a n|a t] l IHl]; cbn [map]; [reflexivity|f_equal; exact IHl|]. rewrite IHl, IH. reflexivity.
Qed.
Lemma forget_bare : forall g, forget (shape (bare_module g)) = forget (shape g).
Proof.
  assert (E : forall e, tree_expr (bare e) = tree_expr e).
  { apply (expr_rect (fun e => tree_expr (bare e) = tree_expr e)); intros; rewrite bare_eq; try reflexivity; cbn [tree_expr tree_args]; rewrite ?tree_node;
      cbn [bare_node at_nowhere n_expr]; try congruence.
    rewrite map_map. f_equal. apply map_ext_in. intros m I. rewrite !tree_node. apply H. exact I. }
  apply module_rect. intros [deps rules doc imports] IH. cbn [shape forget bare_module g_imports] in *. f_equal.
  - rewrite map_map. apply map_ext. intros r. unfold forget_rule. cbn [bare_rule pr_doc pr_name pr_args pr_silent pr_node]. rewrite !tree_node. cbn [bare_node at_nowhere n_expr]. rewrite E. reflexivity.
  - rewrite !map_map. apply map_ext_in. intros [a n|a g] I; [reflexivity|]. f_equal. eapply IH. exact I.
Qed.
Lemma bare_enum : forall g, rule_enum (bare_module g) = rule_enum g.
Proof.
  intros [deps rules doc imports]. unfold rule_enum. cbn [bare_module g_rules g_imports]. f_equal. f_equal.
  - induction rules as [|r l IH]; [reflexivity|]. cbn [map filter]. change (pr_name (bare_rule r)) with (pr_name r).
    destruct (negb (is_trivia_name (pr_name r))); [|exact IH]. cbn [map]. change (pr_name (bare_rule r)) with (pr_name r). f_equal. exact IH.
  - induction imports as [|[a n|a g] l IH]; [reflexivity|exact IH|]. cbn [map flat_map app]. f_equal. exact IH.
Qed.
Lemma bare_rules : forall config fuel global g root depth tr,
  process_rules config fuel global root depth (bare_module g) tr = process_rules config fuel global root depth g tr.
Proof.
  intros config fuel global. apply (module_rect (fun g => forall root depth tr, process_rules config fuel global root depth (bare_module g) tr = process_rules config fuel global root depth g tr)).
  intros g IH root depth tr. assert (En := bare_enum g). destruct g as [deps rules doc imports]. cbn [process_rules bare_module g_imports g_rules] in *.
  cbn [bare_module] in En. rewrite En, bare_reach.
  assert (H : forall sys tr, (fix imports (l : list import) (sys : mod_system) (tr : gtracker) : outcome (list (text * output) * mod_system * gtracker) :=
       match l with
       | [] => Ret ([], sys, tr)
       | Builtin name path :: rest =>
           let! sys := sys_alias sys path name in
           imports rest sys tr
       | File name g' :: rest =>
           let! (o, imported, tr) := process_rules config fuel global ([lit "super"; lit "super"] ++ root) (S depth) g' tr in
           let! (modules, sys, tr) := imports rest (sys_insert sys name (M_collection imported)) tr in
           Ret ((name, o) :: modules, sys, tr)
       end) (map (fun i => match i with Builtin a n => Builtin a n | File a g => File a (bare_module g) end) imports) sys tr =
     (fix imports (l : list import) (sys : mod_system) (tr : gtracker) : outcome (list (text * output) * mod_system * gtracker) :=
       match l with
       | [] => Ret ([], sys, tr)
       | Builtin name path :: rest =>
           let! sys := sys_alias sys path name in
           imports rest sys tr
       | File name g' :: rest =>
           let! (o, imported, tr) := process_rules config fuel global ([lit "super"; lit "super"] ++ root) (S depth) g' tr in
           let! (modules, sys, tr) := imports rest (sys_insert sys name (M_collection imported)) tr in
           Ret ((name, o) :: modules, sys, tr)
       end) imports sys tr).
  { clear En. induction imports as [|[a n|a m] l IHl]; intros sys t; [reflexivity| |].
    - cbn [map]. destruct (sys_alias sys n a); [|reflexivity|reflexivity]. cbn [obind]. apply IHl. intros alias g' I. eapply IH. right. exact I.
    - cbn [map]. rewrite (IH a m); [|left; reflexivity].
      destruct (process_rules config fuel global ([lit "super"; lit "super"] ++ root) (S depth) m t) as [((o, imported), t')| |]; [|reflexivity|reflexivity]. cbn [obind].
      rewrite IHl; [reflexivity|]. intros alias g' I. eapply IH. right. exact I. }
  rewrite H. clear H.
  match goal with |- obind ?a _ = obind ?a _ => destruct a as [((modules, sys), tr')| |]; [|reflexivity|reflexivity] end. cbn [obind].
  destruct (collect_reachability rules) as [reach| |]; [|reflexivity|reflexivity]. cbn [obind]. rewrite bare_insert_rules.
  destruct (insert_rules rules sys) as [sys'| |]; [|reflexivity|reflexivity]. cbn [obind]. rewrite bare_process_all. reflexivity.
Qed.
Lemma bare_raw : forall g, raw_names (bare_module g) = raw_names g.
Proof.
  apply module_rect. intros g IH. rewrite !raw_names_eq. destruct g as [deps rules doc imports]. cbn [bare_module g_rules g_imports] in *. f_equal.
  - clear IH. induction rules as [|r l IHl]; [reflexivity|]. cbn [map flat_map]. rewrite IHl. f_equal. destruct r as [d n a sp [e sp'] si]. cbn [bare_rule pr_name pr_args pr_node n_expr bare_node].
    change (n_expr (bare_node (mkNode e sp'))) with (bare e). rewrite bare_used. reflexivity.
  - induction imports as [|[a p|a g'] l IHl]; [reflexivity| |]; cbn [map flat_map].
    + rewrite IHl; [reflexivity|]. intros alias g0 I. eapply IH. right. exact I.
    + rewrite (IH a g') by (left; reflexivity). rewrite IHl; [reflexivity|]. intros alias g0 I. eapply IH. right. exact I.
Qed.
Lemma bare_items : forall config fuel names g, generate_items config fuel names (bare_module g) = generate_items config fuel names g.
Proof. intros. unfold generate_items, generate_output. rewrite bare_raw, bare_rules. reflexivity. Qed.

(** * Inlining. *)
Lemma bare_replace : forall x a e, replace x (bare a) (bare e) = (bare (fst (replace x a e)), snd (replace x a e)).
Proof.
  intros x a. remember (bare a) as a' eqn:Ea. assert (N : forall n, replace x a' (bare (n_expr n)) = (bare (fst (replace x a (n_expr n))), snd (replace x a (n_expr n))) ->
    (let (e', b) := replace x a' (bare (n_expr n)) in (mkNode e' nowhere, b)) =
    (bare_node (fst (match n with mkNode e s => let (e', b) := replace x a e in (mkNode e' s, b) end)),
     snd (match n with mkNode e s => let (e', b) := replace x a e in (mkNode e' s, b) end))).
  { intros [e s] H. cbn [n_expr] in *. rewrite H. destruct (replace x a e). reflexivity. }
  apply (expr_rect (fun e => replace x a' (bare e) = (bare (fst (replace x a e)), snd (replace x a e)))); intros;
    try (rewrite bare_eq; cbn [replace bare_node at_nowhere]; try rewrite N by assumption;
         match goal with |- context [match ?n with mkNode _ _ => _ end] => destruct (match n with mkNode e s => let (e', b) := replace x a e in (mkNode e' s, b) end) end;
         cbn [fst snd]; rewrite (bare_eq (_ _)); reflexivity).
  - rewrite bare_eq. reflexivity.
  - rewrite bare_eq. reflexivity.
  - rewrite bare_eq. reflexivity.
  - rewrite bare_eq. destruct path as [|y [|z path]]; try reflexivity. cbn [replace]. destruct (text_eqb y x); [rewrite Ea; reflexivity|reflexivity].
  - rewrite bare_eq. destruct range, path as [|y [|z path]]; reflexivity.
  - rewrite bare_eq. cbn [replace].
    set (any := fix any (l : list parse_node) : list parse_node * bool := match l with [] => ([], false)
      | n :: r => let (n0, b) := match n with mkNode e s => let (e', b) := replace x a' e in (mkNode e' s, b) end in
                  if b then (n0 :: r, true) else let (r0, b0) := any r in (n0 :: r0, b0) end).
    set (any' := fix any (l : list parse_node) : list parse_node * bool := match l with [] => ([], false)
      | n :: r => let (n0, b) := match n with mkNode e s => let (e', b) := replace x a e in (mkNode e' s, b) end in
                  if b then (n0 :: r, true) else let (r0, b0) := any r in (n0 :: r0, b0) end).
    assert (A : any (map bare_node args) = (map bare_node (fst (any' args)), snd (any' args))).
    { clear - H N. induction args as [|n l IH]; [reflexivity|]. cbn [map any any' bare_node at_nowhere]. fold any any'. rewrite N by (apply H; left; reflexivity).
      destruct (match n with mkNode e s => let (e', b) := replace x a e in (mkNode e' s, b) end) as (n', b) eqn:E. cbn [fst snd].
      destruct b; [reflexivity|]. rewrite IH by (intros m I; apply H; right; exact I). destruct (any' l) as (l', b'). reflexivity. }
    destruct path as [|y [|z path]]; rewrite A; destruct (any' args) as (l, b); cbn [fst snd]; rewrite (bare_eq (_ _ _)); reflexivity.
  - rewrite bare_eq. cbn [replace bare_node at_nowhere]. rewrite !N by assumption.
    destruct (match l with mkNode e s => let (e', b) := replace x a e in (mkNode e' s, b) end), (match r with mkNode e s => let (e', b) := replace x a e in (mkNode e' s, b) end).
    cbn [fst snd]. rewrite (bare_eq (_ _ _ _)). reflexivity.
  - rewrite bare_eq. cbn [replace bare_node at_nowhere]. rewrite !N by assumption.
    destruct (match l with mkNode e s => let (e', b) := replace x a e in (mkNode e' s, b) end), (match r with mkNode e s => let (e', b) := replace x a e in (mkNode e' s, b) end).
    cbn [fst snd]. rewrite (bare_eq (_ _ _)). reflexivity.
Qed.
Lemma bare_replace_all : forall l e, replace_all (map (fun p => (bare (fst p), snd p)) l) (bare e) = (bare (fst (replace_all l e)), snd (replace_all l e)).
Proof.
  induction l as [|(a, x) l IH]; intros e; [reflexivity|]. cbn [map replace_all fst snd]. rewrite bare_replace.
  destruct (replace x a e) as (e', b). cbn [fst snd]. rewrite IH. destruct (replace_all l e'). reflexivity.
Qed.
Definition bare_map (l : list (text * parse_rule)) : list (text * parse_rule) := map (fun nr => (fst nr, bare_rule (snd nr))) l.
Definition bare_macros (l : list (option text * list (text * parse_rule))) := map (fun kv => (fst kv, bare_map (snd kv))) l.
Lemma bare_lookup : forall x l, lookup x (bare_map l) = option_map bare_rule (lookup x l).
Proof. intros x. induction l as [|(k, r) l IH]; [reflexivity|]. cbn [bare_map map lookup fst snd]. destruct (text_eqb x k); [reflexivity|exact IH]. Qed.
Lemma bare_remove : forall x l, remove x (bare_map l) = bare_map (remove x l).
Proof. intros x. induction l as [|(k, r) l IH]; [reflexivity|]. cbn [bare_map map remove fst snd]. destruct (text_eqb x k); [exact IH|]. cbn [map fst snd]. f_equal. exact IH. Qed.
Lemma bare_is_macro : forall r, is_macro (bare_rule r) = is_macro r.
Proof. reflexivity. Qed.
Lemma bare_filter : forall f rules, (forall r, f (bare_rule r) = f r) -> filter f (map bare_rule rules) = map bare_rule (filter f rules).
Proof. intros f rules H. induction rules as [|r l IH]; [reflexivity|]. cbn [map filter]. rewrite H, IH. destruct (f r); reflexivity. Qed.
Lemma bare_macro_map : forall rules, macro_map (map bare_rule rules) = bare_map (macro_map rules).
Proof.
  intros rules. unfold macro_map. rewrite (bare_filter is_macro rules bare_is_macro). change (@nil (text * parse_rule)) with (bare_map []) at 1. generalize (@nil (text * parse_rule)) as acc.
  induction (filter is_macro rules) as [|r l IH]; intros acc; [reflexivity|]. cbn [map fold_left]. rewrite <- IH. f_equal.
  unfold insert. rewrite bare_remove. reflexivity.
Qed.
Lemma bare_key_insert : forall k m l, key_insert k (bare_map m) (bare_macros l) = bare_macros (key_insert k m l).
Proof.
  intros k m. induction l as [|(k', m') l IH]; [reflexivity|]. cbn [bare_macros map key_insert fst snd].
  destruct (key_ltb k k'); [reflexivity|]. destruct (key_ltb k' k); [|reflexivity]. cbn [map fst snd]. f_equal. exact IH.
Qed.
Lemma bare_collect : forall g key, collect_macros key (bare_module g) = bare_macros (collect_macros key g).
Proof.
  apply (module_rect (fun g => forall key, collect_macros key (bare_module g) = bare_macros (collect_macros key g))).
  intros [deps rules doc imports] IH key. cbn [g_imports] in IH. cbn [bare_module collect_macros]. rewrite bare_macro_map.
  change [(key, bare_map (macro_map rules))] with (bare_macros [(key, macro_map rules)]). generalize [(key, macro_map rules)] as acc.
  induction imports as [|[a n|a m] l IHl]; intros acc; [reflexivity| |].
  - cbn [map]. apply IHl. intros alias g' I. eapply IH. right. exact I.
  - cbn [map]. rewrite (IH a m) by (left; reflexivity). rewrite <- IHl; [|intros alias g' I; eapply IH; right; exact I]. f_equal.
    revert acc. induction (collect_macros (Some a) m) as [|(k, v) r IHr]; intros acc; [reflexivity|]. cbn [bare_macros map fold_left fst snd].
    fold (bare_macros r). rewrite bare_key_insert. apply IHr.
Qed.
Lemma bare_find_macro : forall ms x, find_macro (bare_macros ms) x = option_map bare_rule (find_macro ms x).
Proof. intros ms x. induction ms as [|(k, m) l IH]; [reflexivity|]. cbn [bare_macros map find_macro fst snd]. rewrite bare_lookup. destruct (lookup x m); [reflexivity|exact IH]. Qed.

Definition omap {A B} (f : A -> B) (o : outcome A) : outcome B := match o with Ret a => Ret (f a) | Panic => Panic | OutOfFuel => OutOfFuel end.
Lemma bare_here : forall ms k e, inline_here (bare_macros ms) k (bare e) = omap bare (inline_here ms k e).
Proof.
  intros ms. induction k as [|k IH]; intros e; [reflexivity|].
  assert (Z : forall e', bare e' = bare e -> Ret (bare e) = omap bare (Ret e)) by reflexivity.
  rewrite (bare_eq e). destruct e as [s|s|a b|p [[l|[x y]]|]|n|n|a b t|a b|n|n|n|n [x y]|n t]; try reflexivity; cbn [inline_here omap]; try (rewrite bare_eq; reflexivity).
  destruct p as [|y p]; [cbn [omap]; rewrite bare_eq; reflexivity|]. rewrite bare_find_macro. destruct (find_macro ms (last (y :: p) [])) as [s|]; cbn [option_map].
  - rewrite map_length. cbn [bare_rule pr_args pr_node bare_node at_nowhere n_expr]. destruct (Nat.eqb (length (pr_args s)) (length l)); [|reflexivity].
    assert (C : combine (map n_expr (map bare_node l)) (pr_args s) = map (fun p => (bare (fst p), snd p)) (combine (map n_expr l) (pr_args s))).
    { generalize (pr_args s) as xs. clear. induction l as [|n l IH]; intros xs; [reflexivity|]. destruct xs as [|x xs]; [reflexivity|]. cbn [map combine fst snd bare_node at_nowhere n_expr]. f_equal. apply IH. }
    rewrite C, bare_replace_all. destruct (replace_all (combine (map n_expr l) (pr_args s)) (n_expr (pr_node s))) as (e', b). cbn [fst snd].
    destruct b; [apply IH|]. cbn [omap]. rewrite bare_eq. reflexivity.
  - cbn [omap]. rewrite bare_eq. reflexivity.
Qed.
Lemma bare_inline : forall ms k e, inline_expr (bare_macros ms) k (bare e) = omap bare (inline_expr ms k e).
Proof.
  intros ms. induction k as [|k IH]; intros e; [reflexivity|]. cbn [inline_expr]. rewrite bare_here.
  destruct (inline_here ms (S k) e) as [e'| |]; [|reflexivity|reflexivity]. cbn [omap obind].
  assert (N : forall n, (let! e := inline_expr (bare_macros ms) k (n_expr (bare_node n)) in Ret (mkNode e (n_span (bare_node n)))) =
    omap bare_node (let! e := inline_expr ms k (n_expr n) in Ret (mkNode e (n_span n)))).
  { intros n. cbn [bare_node at_nowhere n_expr n_span]. rewrite IH. destruct (inline_expr ms k (n_expr n)); reflexivity. }
  rewrite (bare_eq e'). destruct e' as [s|s|a b|p [[l|[x y]]|]|n|n|a b t|a b|n|n|n|n [x y]|n t]; try reflexivity;
    try (cbn [omap]; rewrite bare_eq; reflexivity); rewrite ?N.
  all: try (destruct (let! e := inline_expr ms k (n_expr n) in Ret (mkNode e (n_span n))); cbn [omap obind]; try reflexivity; rewrite (bare_eq (_ _)); reflexivity).
  - destruct (let! e := inline_expr ms k (n_expr b) in Ret (mkNode e (n_span b))); cbn [omap obind]; try reflexivity.
    destruct (let! e := inline_expr ms k (n_expr a) in Ret (mkNode e (n_span a))); cbn [omap obind]; try reflexivity. rewrite (bare_eq (_ _ _ _)). reflexivity.
  - destruct (let! e := inline_expr ms k (n_expr b) in Ret (mkNode e (n_span b))); cbn [omap obind]; try reflexivity.
    destruct (let! e := inline_expr ms k (n_expr a) in Ret (mkNode e (n_span a))); cbn [omap obind]; try reflexivity. rewrite (bare_eq (_ _ _)). reflexivity.
Qed.
Lemma bare_inline_rules : forall ms k rules, inline_rules (bare_macros ms) k (map bare_rule rules) = omap (map bare_rule) (inline_rules ms k rules).
Proof.
  intros ms k. induction rules as [|r l IH]; [reflexivity|]. cbn [map inline_rules]. cbn [bare_rule pr_node bare_node at_nowhere n_expr].
  rewrite bare_inline. destruct (inline_expr ms k (n_expr (pr_node r))); [|reflexivity|reflexivity]. cbn [omap obind]. rewrite IH.
  destruct (inline_rules ms k l); reflexivity.
Qed.
Lemma bare_inlined : forall k g, inline_macros k (bare_module g) = omap bare_module (inline_macros k g).
Proof.
  intros k g. unfold inline_macros. rewrite bare_collect. destruct g as [deps rules doc imports]. cbn [bare_module g_rules g_deps g_doc g_imports].
  rewrite bare_filter by reflexivity. rewrite bare_inline_rules. destruct (inline_rules _ k (filter _ rules)); reflexivity.
Qed.
Lemma bare_typed : forall config k names g, generate_typed config k names (bare_module g) = generate_typed config k names g.
Proof.
  intros config k names g. unfold generate_typed. rewrite bare_inlined. destruct (inline_macros k g); [|reflexivity|reflexivity]. cbn [omap obind]. apply bare_items.
Qed.
Lemma alike_typed : forall config k names g g', forget (shape g) = forget (shape g') -> generate_typed config k names g = generate_typed config k names g'.
Proof. intros config k names g g' E. rewrite <- (bare_typed config k names g), <- (bare_typed config k names g'), <- !embed_forget, E. reflexivity. Qed.

(** * Several sources. *)
Lemma merged_parts : forall l, g_rules (merge_modules l) = flat_map g_rules l /\ g_doc (merge_modules l) = flat_map g_doc l /\ g_imports (merge_modules l) = flat_map g_imports l.
Proof.
  intros l. unfold merge_modules.
  assert (H : forall l m, let r := fold_left (fun m i => mkModule (set_extend (g_deps m) (g_deps i)) (g_rules m ++ g_rules i) (g_doc m ++ g_doc i) (g_imports m ++ g_imports i)) l m in
    g_rules r = g_rules m ++ flat_map g_rules l /\ g_doc r = g_doc m ++ flat_map g_doc l /\ g_imports r = g_imports m ++ flat_map g_imports l).
  { clear. induction l as [|i l IH]; intros m; cbn [fold_left flat_map]; [rewrite !app_nil_r; repeat split; reflexivity|].
    destruct (IH (mkModule (set_extend (g_deps m) (g_deps i)) (g_rules m ++ g_rules i) (g_doc m ++ g_doc i) (g_imports m ++ g_imports i))) as (A & B & C).
    cbn [g_rules g_doc g_imports] in A, B, C. rewrite A, B, C, <- !app_assoc. repeat split; reflexivity. }
  exact (H l empty_module).
Qed.
