(** Model of the pair API: core/src/typed/traits.rs L172-220, core/src/token/mod.rs and the pair
    containers of the node types. Visitors [f] that push on a vector become the list of visited
    pairs. *)
From Coq Require Import String List NArith ZArith Arith Bool.
From Verif Require Import Model_Text Model_Position Model_Span Model_Tracker Model_Node.
Import ListNotations.
Open Scope list_scope.

(** core/src/token/mod.rs L9-18 [Pair]. *)
Inductive pair (R : Type) : Type := mkPair (r : R) (start stop : nat) (children : list (pair R)).
Arguments mkPair {R}.

(** core/src/token/mod.rs L21-41 [Pair::convert]. *)
Fixpoint convert {R S : Type} (f : R -> S) (p : pair R) : pair S :=
  match p with
  | mkPair r start stop children => mkPair (f r) start stop (map (convert f) children)
  end.

(** [a, b, c] separated by [", "]: the loop of core/src/token/mod.rs L46-52. *)
Fixpoint comma_separated (l : list text) : text :=
  match l with
  | [] => []
  | [x] => x
  | x :: r => x ++ lit ", " ++ comma_separated r
  end.

(** core/src/token/mod.rs L43-56 [Display for Pair]. [debug] is the derived [Debug] of the rule,
    [number] the [Display] of [usize]. *)
Fixpoint display_pair {R : Type} (debug : R -> text) (number : nat -> text) (p : pair R) : text :=
  match p with
  | mkPair r start stop children =>
      debug r ++ lit "(" ++ number start ++ lit ", " ++ number stop ++ lit ", [" ++
      comma_separated (map (display_pair debug number) children) ++ lit "])"
  end.

Section Pairs.
Variable env : rule -> rule_def.

(** [for_each_child_pair] ([self = false]) and [for_self_or_for_each_child_pair] ([self = true]):
    - no pairs in leaves and predicates: core/src/typed/traits.rs L197-200 [EmptyPairContainer],
      implemented at core/src/typed/template/mod.rs L71, L134, L178, L225, L261, L396, L459, L498,
      L521, L552, L584, L618, L675, L712, L769, L807, L863, L904, L994, L1021, core/src/lib.rs L67;
    - push: mod.rs L958-961; repetition.rs L204-212; Option: traits.rs L188-194;
      core/src/sequence.rs L87-100; core/src/choice.rs L85-100;
    - both visitors agree except on rules: traits.rs L175-177;
    - rules: generator/src/typed/generator.rs L180-195 (silent) and L196-231 (not silent), with
      [as_pair_tree] of traits.rs L203-220 in place; its [vec_children_pairs] is the default one
      (traits.rs L181-185), which collects [for_each_child_pair]. *)
Fixpoint pairs (self : bool) (v : value) : list (pair rule) :=
  match v with
  | VUnit | VInsens _ | VSpan _ | VChar _ | VNewline _ | VPositive _ => []
  | VPush c => pairs true c
  | VRep l => flat_map (pairs true) l
  | VSeq l => flat_map (pairs true) l
  | VOpt o => match o with Some c => pairs true c | None => [] end
  | VChoice _ c => pairs true c
  | VRule r c sp =>
      if rd_silent (env r) then []
      else if self then [mkPair r (sp_start sp) (sp_end sp) (pairs true c)]
      else pairs true c
  end.
Definition for_each_child_pair : value -> list (pair rule) := pairs false.
Definition for_self_or_for_each_child_pair : value -> list (pair rule) := pairs true.

(** [vec_children_pairs]: core/src/typed/traits.rs L181-185; push overrides it at
    core/src/typed/template/mod.rs L962-964. *)
Fixpoint vec_children_pairs (v : value) : list (pair rule) :=
  match v with
  | VPush c => vec_children_pairs c
  | _ => for_each_child_pair v
  end.

(** core/src/typed/traits.rs L208-219 [as_pair_tree] of a rule struct with content [c] and span [sp];
    [get_rule] and [get_span] are generator.rs L219-226. It exists for non-silent rules only. *)
Definition as_pair_tree (r : rule) (c : value) (sp : span) : pair rule :=
  mkPair r (sp_start sp) (sp_end sp) (vec_children_pairs (VRule r c sp)).
End Pairs.

(** core/src/choice.rs L74-84: the getter of variant number [i]. *)
Definition choice_getter (i : nat) (v : value) : option value :=
  match v with
  | VChoice j c => if j =? i then Some c else None
  | _ => None
  end.
