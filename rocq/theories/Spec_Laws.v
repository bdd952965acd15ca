(** Laws of grammar expressions, and what can be made with them by replacing parts of expressions. *)
From Coq Require Import String List NArith.
From Verif Require Import Model_Text Model_Message Model_Meta Model_Import Spec_Peg Spec_Grammar_Peg.
Import ListNotations.
Open Scope list_scope.

(** [e] has no separator of its own: repeated, there is no trivia between the rounds. *)
Definition unseparated (e : parse_expr) : Prop := forall n t, e <> PSeparated n t.
Definition bounds (a : parse_node) (min max : N) : parse_expr := PRepRange a (mkRange (Some min) (Some max)).

(** Expressions that match the same. The spans of the nodes do not matter. *)
Inductive law : parse_expr -> parse_expr -> Prop :=
| L_opt_choice a sp : law (POpt a) (PChoice a (mkNode (PStr []) sp))
| L_opt_bounds a : law (POpt a) (bounds a 0 1)
| L_positive a sp : law (PPosPred a) (PNegPred (mkNode (PNegPred a) sp))
| L_not_positive a sp : law (PNegPred (mkNode (PPosPred a) sp)) (PNegPred a)
| L_not_not_not a sp sp' : law (PNegPred (mkNode (PNegPred (mkNode (PNegPred a) sp)) sp')) (PNegPred a)
| L_seq a b c t u sp sp' : law (PSeq (mkNode (PSeq a b t) sp) c u) (PSeq a (mkNode (PSeq b c u) sp') t)
| L_choice a b c sp sp' : law (PChoice (mkNode (PChoice a b) sp) c) (PChoice a (mkNode (PChoice b c) sp'))
| L_same a b : n_expr a = n_expr b -> law (PChoice a b) (n_expr a)
| L_empty_left a sp : law (PSeq (mkNode (PStr []) sp) a TriviaNone) (n_expr a)
| L_empty_right a sp : law (PSeq a (mkNode (PStr []) sp) TriviaNone) (n_expr a)
| L_strings x y sp sp' : law (PSeq (mkNode (PStr x) sp) (mkNode (PStr y) sp') TriviaNone) (PStr (x ++ y))
| L_prefix x y sp sp' : law (PChoice (mkNode (PStr x) sp) (mkNode (PStr (x ++ y)) sp')) (PStr x)
| L_char c : law (PRange c c) (PStr [c])
| L_ranges a b c sp sp' : (a <= b + 1)%N -> (b <= c)%N ->
    law (PChoice (mkNode (PRange a b) sp) (mkNode (PRange (b + 1)%N c) sp')) (PRange a c)
| L_separated a t : law (PSeparated a t) (n_expr a)
| L_look a b sp : n_expr a = n_expr b -> law (PSeq (mkNode (PPosPred a) sp) b TriviaNone) (n_expr b)
| L_star a sp sp' : law (PRep a) (PChoice (mkNode (PRepOnce a) sp) (mkNode (PStr []) sp'))
| L_star_bounds a range : r_start range = None -> r_end range = None -> law (PRep a) (PRepRange a range)
| L_plus_bounds a range : r_start range = Some 1%N -> r_end range = None -> law (PRepOnce a) (PRepRange a range)
| L_once a : law (bounds a 1 1) (n_expr a)
| L_more a min max sp : unseparated (n_expr a) ->
    law (bounds a (min + 1) (max + 1)) (PSeq a (mkNode (bounds a min max) sp) TriviaNone)
| L_some a max sp sp' : unseparated (n_expr a) ->
    law (bounds a 0 (max + 1)) (POpt (mkNode (PSeq a (mkNode (bounds a 0 max) sp) TriviaNone) sp')).

(** A law of grammars in which a path has one meaning only. *)
Inductive law_det : parse_expr -> parse_expr -> Prop :=
| L_factor a a' a'' b c t sp sp' sp'' : n_expr a' = n_expr a -> n_expr a'' = n_expr a ->
    law_det (PChoice (mkNode (PSeq a' b t) sp) (mkNode (PSeq a'' c t) sp')) (PSeq a (mkNode (PChoice b c) sp'') t).

(** Both or none are separated by the same trivia. *)
Definition separator_alike (e e' : parse_expr) : Prop := forall t, (exists n, e = PSeparated n t) <-> (exists n, e' = PSeparated n t).

(** [rewritten L e e']: [e'] is made from [e] by replacing parts by means of [L], in both directions and any number of times. What is repeated
    may not lose or gain a separator. *)
Inductive rewritten (L : parse_expr -> parse_expr -> Prop) : parse_expr -> parse_expr -> Prop :=
| RW_law e e' : L e e' -> rewritten L e e'
| RW_refl e : rewritten L e e
| RW_sym e e' : rewritten L e e' -> rewritten L e' e
| RW_trans e1 e2 e3 : rewritten L e1 e2 -> rewritten L e2 e3 -> rewritten L e1 e3
| RW_positive a b : rewritten L (n_expr a) (n_expr b) -> rewritten L (PPosPred a) (PPosPred b)
| RW_negative a b : rewritten L (n_expr a) (n_expr b) -> rewritten L (PNegPred a) (PNegPred b)
| RW_opt a b : rewritten L (n_expr a) (n_expr b) -> rewritten L (POpt a) (POpt b)
| RW_seq a b c d t : rewritten L (n_expr a) (n_expr b) -> rewritten L (n_expr c) (n_expr d) -> rewritten L (PSeq a c t) (PSeq b d t)
| RW_choice a b c d : rewritten L (n_expr a) (n_expr b) -> rewritten L (n_expr c) (n_expr d) -> rewritten L (PChoice a c) (PChoice b d)
| RW_separated a b t : rewritten L (n_expr a) (n_expr b) -> rewritten L (PSeparated a t) (PSeparated b t)
| RW_star a b : rewritten L (n_expr a) (n_expr b) -> separator_alike (n_expr a) (n_expr b) -> rewritten L (PRep a) (PRep b)
| RW_plus a b : rewritten L (n_expr a) (n_expr b) -> separator_alike (n_expr a) (n_expr b) -> rewritten L (PRepOnce a) (PRepOnce b)
| RW_bounds a b range : rewritten L (n_expr a) (n_expr b) -> separator_alike (n_expr a) (n_expr b) -> rewritten L (PRepRange a range) (PRepRange b range)
| RW_argument path l a b k : rewritten L (n_expr a) (n_expr b) ->
    rewritten L (PPath path (Some (PCall (l ++ a :: k)))) (PPath path (Some (PCall (l ++ b :: k)))).

(** [g'] has the rules of [g] in the same order, with rewritten bodies, and the same imports. *)
Definition rewritten_rule (L : parse_expr -> parse_expr -> Prop) (r r' : parse_rule) : Prop :=
  pr_name r' = pr_name r /\ pr_args r' = pr_args r /\ rewritten L (n_expr (pr_node r)) (n_expr (pr_node r')).
Definition rewritten_grammar (L : parse_expr -> parse_expr -> Prop) (g g' : gmodule) : Prop :=
  Forall2 (rewritten_rule L) (g_rules g) (g_rules g') /\ g_imports g' = g_imports g.
(** The same rules are silent. *)
Definition silent_alike (g g' : gmodule) : Prop := Forall2 (fun r r' => pr_silent r' = pr_silent r) (g_rules g) (g_rules g').
