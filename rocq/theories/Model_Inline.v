(** The inlining of silent rules with arguments: meta/src/parser.rs L218-246 and
    generator/src/typed/generator.rs L849-943. *)
From Coq Require Import String List NArith ZArith Arith Bool.
From Verif Require Import Model_Text Model_Message Model_Meta Model_Import Model_Generator Model_Output.
Import ListNotations.
Open Scope list_scope.

(** meta/src/parser.rs L218-246 [ParseExpr::replace]: the new expression, and whether anything was
    replaced. The arguments of a call are visited by [any], which stops at the first that was changed. *)
Fixpoint replace (x : text) (a : parse_expr) (e : parse_expr) : parse_expr * bool :=
  let at_node (n : parse_node) : parse_node * bool :=
    match n with mkNode e s => let (e', b) := replace x a e in (mkNode e' s, b) end in
  match e with
  | PPath [y] None => if text_eqb y x then (a, true) else (e, false)
  | PPosPred n => let (n, b) := at_node n in (PPosPred n, b)
  | PNegPred n => let (n, b) := at_node n in (PNegPred n, b)
  | POpt n => let (n, b) := at_node n in (POpt n, b)
  | PRep n => let (n, b) := at_node n in (PRep n, b)
  | PRepOnce n => let (n, b) := at_node n in (PRepOnce n, b)
  | PRepRange n range => let (n, b) := at_node n in (PRepRange n range, b)
  | PSeparated n t => let (n, b) := at_node n in (PSeparated n t, b)
  | PSeq l r t => let (l, bl) := at_node l in let (r, br) := at_node r in (PSeq l r t, bl || br)
  | PChoice l r => let (l, bl) := at_node l in let (r, br) := at_node r in (PChoice l r, bl || br)
  | PPath p (Some (PCall args)) =>
      let (args, b) :=
        (fix any (l : list parse_node) : list parse_node * bool :=
           match l with
           | [] => ([], false)
           | n :: r =>
               let (n, b) := at_node n in
               if b then (n :: r, true) else let (r, b) := any r in (n :: r, b)
           end) args in
      (PPath p (Some (PCall args)), b)
  | _ => (e, false)
  end.

(** The order of strings: that of their bytes, which is that of their characters. [None] comes first.
    (The order of the keys of the [BTreeMap] at generator/src/typed/generator.rs L852.) *)
Fixpoint text_ltb (a b : text) : bool :=
  match a, b with
  | [], [] => false
  | [], _ :: _ => true
  | _ :: _, [] => false
  | c :: a, d :: b => N.ltb c d || (N.eqb c d && text_ltb a b)
  end.
Definition key_ltb (a b : option text) : bool :=
  match a, b with
  | None, Some _ => true
  | Some a, Some b => text_ltb a b
  | _, None => false
  end.
(** [BTreeMap::insert] (generator/src/typed/generator.rs L854, and L866 by [extend]): in order; an equal
    key is replaced. *)
Fixpoint key_insert {A : Type} (k : option text) (v : A) (l : list (option text * A)) : list (option text * A) :=
  match l with
  | [] => [(k, v)]
  | (k', v') :: r =>
      if key_ltb k k' then (k, v) :: l
      else if key_ltb k' k then (k', v') :: key_insert k v r
      else (k, v) :: r
  end.

(** [rule.silent && !rule.args.is_empty()] (generator/src/typed/generator.rs L859, L877). *)
Definition is_macro (r : parse_rule) : bool := pr_silent r && match pr_args r with [] => false | _ => true end.
(** The inner map (generator/src/typed/generator.rs L856-861): a later rule replaces an earlier one with
    the same name. *)
Definition macro_map (rules : list parse_rule) : list (text * parse_rule) :=
  fold_left (fun l r => insert (pr_name r) r l) (filter is_macro rules) [].
(** generator/src/typed/generator.rs L849-870 [collect_silent_rules_with_args]. *)
Fixpoint collect_macros (key : option text) (g : gmodule) : list (option text * list (text * parse_rule)) :=
  match g with
  | mkModule _ rules _ imports =>
      (fix go (l : list import) (res : list (option text * list (text * parse_rule))) :=
         match l with
         | [] => res
         | Builtin _ _ :: r => go r res
         | File alias g' :: r => go r (fold_left (fun res kv => key_insert (fst kv) (snd kv) res) (collect_macros (Some alias) g') res)
         end) imports [(key, macro_map rules)]
  end.

(** [silent_rules.iter().find_map(..)] (generator/src/typed/generator.rs L888-890). *)
Fixpoint find_macro (macros : list (option text * list (text * parse_rule))) (name : text) : option parse_rule :=
  match macros with
  | [] => None
  | (_, m) :: r => match lookup name m with Some s => Some s | None => find_macro r name end
  end.
(** The loop at generator/src/typed/generator.rs L894-900: replace the parameters one after the other. *)
Fixpoint replace_all (l : list (parse_expr * text)) (e : parse_expr) : parse_expr * bool :=
  match l with
  | [] => (e, false)
  | (a, x) :: r => let (e, b) := replace x a e in let (e, b') := replace_all r e in (e, b || b')
  end.

Section Inline.
Variable macros : list (option text * list (text * parse_rule)).

(** The inner loop at generator/src/typed/generator.rs L881-914, on the last node of the stack. The fuel
    bounds the number of rounds. *)
Fixpoint inline_here (fuel : nat) (e : parse_expr) : outcome parse_expr :=
  match fuel with
  | 0 => OutOfFuel
  | S fuel =>
      match e with
      | PPath path (Some (PCall args)) =>
          match path with
          | [] => Ret e
          | _ =>
              match find_macro macros (last path []) with
              | Some s =>
                  if Nat.eqb (length (pr_args s)) (length args) then
                    let (e', replaced) := replace_all (combine (map n_expr args) (pr_args s)) (n_expr (pr_node s)) in
                    if replaced then inline_here fuel e' else Ret e
                  else Panic
              | None => Ret e
              end
          end
      | _ => Ret e
      end
  end.

(** The outer loop at generator/src/typed/generator.rs L880-940. The work list is a stack, so all parts
    of the right operand are treated before the left one. *)
Fixpoint inline_expr (fuel : nat) (e : parse_expr) : outcome parse_expr :=
  match fuel with
  | 0 => OutOfFuel
  | S fuel =>
      let at_node (n : parse_node) : outcome parse_node :=
        let! e := inline_expr fuel (n_expr n) in Ret (mkNode e (n_span n)) in
      let! e := inline_here (S fuel) e in
      match e with
      | PSeq l r t => let! r := at_node r in let! l := at_node l in Ret (PSeq l r t)
      | PChoice l r => let! r := at_node r in let! l := at_node l in Ret (PChoice l r)
      | POpt n => let! n := at_node n in Ret (POpt n)
      | PRep n => let! n := at_node n in Ret (PRep n)
      | PRepOnce n => let! n := at_node n in Ret (PRepOnce n)
      | PSeparated n t => let! n := at_node n in Ret (PSeparated n t)
      | PRepRange n range => let! n := at_node n in Ret (PRepRange n range)
      | PPosPred n => let! n := at_node n in Ret (PPosPred n)
      | PNegPred n => let! n := at_node n in Ret (PNegPred n)
      | _ => Ret e
      end
  end.

(** The loop over the rules (generator/src/typed/generator.rs L878-941). *)
Fixpoint inline_rules (fuel : nat) (rules : list parse_rule) : outcome (list parse_rule) :=
  match rules with
  | [] => Ret []
  | r :: rest =>
      let! e := inline_expr fuel (n_expr (pr_node r)) in
      let! rest := inline_rules fuel rest in
      Ret (mkParseRule (pr_doc r) (pr_name r) (pr_args r) (pr_span r) (mkNode e (n_span (pr_node r))) (pr_silent r) :: rest)
  end.
End Inline.

(** generator/src/typed/generator.rs L872-943 [inline_silent_rules_with_args]: only the rules of the main
    grammar are changed. *)
Definition inline_macros (fuel : nat) (g : gmodule) : outcome gmodule :=
  let! rules := inline_rules (collect_macros None g) fuel (filter (fun r => negb (is_macro r)) (g_rules g)) in
  Ret (mkModule (g_deps g) rules (g_doc g) (g_imports g)).

(** generator/src/typed/generator.rs L946-983 [generate_typed]: the items of the expansion. Left out as
    in [generate_items]: the included grammar files and [impl TypedParser]. *)
Definition generate_typed (config : gconfig) (fuel : nat) (names : list text) (g : gmodule) : outcome (list (text * ritem)) :=
  let! g := inline_macros fuel g in
  generate_items config fuel names g.
