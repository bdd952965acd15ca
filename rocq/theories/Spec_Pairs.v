(** What the pairs of a parse result must be. *)
From Coq Require Import String List NArith Arith Bool.
From Verif Require Import Model_Text Model_Position Model_Tracker Model_Node Model_Pairs Spec_Text Spec_Run.
Import ListNotations.
Open Scope list_scope.

(** [outer v ws]: the rule nodes found in [v] from left to right without entering a rule node or a
    predicate are [ws]. *)
Inductive outer : value -> list value -> Prop :=
| O_rule r c sp : outer (VRule r c sp) [VRule r c sp]
| O_leaf v : match v with
             | VUnit | VInsens _ | VSpan _ | VChar _ | VNewline _ | VPositive _ => True
             | _ => False
             end -> outer v []
| O_push c ws : outer c ws -> outer (VPush c) ws
| O_some c ws : outer c ws -> outer (VOpt (Some c)) ws
| O_none : outer (VOpt None) []
| O_choice i c ws : outer c ws -> outer (VChoice i c) ws
| O_rep l ws : outer_list l ws -> outer (VRep l) ws
| O_seq l ws : outer_list l ws -> outer (VSeq l) ws
with outer_list : list value -> list value -> Prop :=
| OL_nil : outer_list [] []
| OL_cons v l ws ws' : outer v ws -> outer_list l ws' -> outer_list (v :: l) (ws ++ ws').

(** [tree env w t]: the pair [t] represents the rule node [w]: same rule, the offsets of its span,
    and as children, in order, the trees of the outer non-silent rule nodes of its content. *)
Inductive tree (env : rule -> rule_def) : value -> pair rule -> Prop :=
| T_rule r c sp ws ts :
    rd_silent (env r) = false -> outer c ws -> trees env ws ts ->
    tree env (VRule r c sp) (mkPair r (sp_start sp) (sp_end sp) ts)
with trees (env : rule -> rule_def) : list value -> list (pair rule) -> Prop :=
| TS_nil : trees env [] []
| TS_silent r c sp ws ts :
    rd_silent (env r) = true -> trees env ws ts -> trees env (VRule r c sp :: ws) ts
| TS_cons w t ws ts : tree env w t -> trees env ws ts -> trees env (w :: ws) (t :: ts).

(** The pairs [l] lie between [lo] and [hi], in order and without overlap, and so do the children of
    each of them inside its own range. *)
Inductive nested {R : Type} : nat -> nat -> list (pair R) -> Prop :=
| N_nil lo hi : lo <= hi -> nested lo hi []
| N_cons lo hi r a b cs l :
    lo <= a -> nested a b cs -> nested b hi l -> nested lo hi (mkPair r a b cs :: l).

(** All rule nodes inside a value, outside predicates. *)
Fixpoint rule_nodes (v : value) : list (rule * span) :=
  match v with
  | VUnit | VInsens _ | VSpan _ | VChar _ | VNewline _ | VPositive _ => []
  | VPush c => rule_nodes c
  | VRep l => flat_map rule_nodes l
  | VSeq l => flat_map rule_nodes l
  | VOpt o => match o with Some c => rule_nodes c | None => [] end
  | VChoice _ c => rule_nodes c
  | VRule r c sp => (r, sp) :: rule_nodes c
  end.

(** [q] is [p] with every rule replaced through [f]: same offsets, same children in the same order. *)
Inductive same_shape {R S : Type} (f : R -> S) : pair R -> pair S -> Prop :=
| SS r a b cs ds : Forall2 (same_shape f) cs ds -> same_shape f (mkPair r a b cs) (mkPair (f r) a b ds).

(** The texts [l] with [", "] between neighbours. *)
Inductive listing : list text -> text -> Prop :=
| L_nil : listing [] []
| L_one x : listing [x] x
| L_more x y l t : listing (y :: l) t -> listing (x :: y :: l) (x ++ lit ", " ++ t).

(** How a pair is displayed. *)
Inductive displayed {R : Type} (debug : R -> text) (number : nat -> text) : pair R -> text -> Prop :=
| D_pair r a b cs ts t :
    Forall2 (displayed debug number) cs ts -> listing ts t ->
    displayed debug number (mkPair r a b cs)
      (debug r ++ lit "(" ++ number a ++ lit ", " ++ number b ++ lit ", [" ++ t ++ lit "])").

(** Expressions without subexpressions. *)
Definition leaf (n : node) : Prop :=
  match n with
  | Positive _ | Negative _ | Push _ | RepMinMax _ _ _ _ | Opt _ | Seq _ | Choice _ | Rule _ _ => False
  | _ => True
  end.

(** What a leaf keeps of the text [m]. *)
Definition stores (v : value) (m : text) : Prop :=
  match v with
  | VChar c => m = [c]
  | VInsens x => m = x
  | VSpan sp => span_text sp m
  | VNewline NL_LF => m = [LF]
  | VNewline NL_CR => m = [CR]
  | VNewline NL_CRLF => m = [CR; LF]
  | _ => True
  end.

(** [v] is [w], pushed any number of times. *)
Inductive pushed : value -> value -> Prop :=
| P_zero w : pushed w w
| P_push v w : pushed v w -> pushed (VPush v) w.
