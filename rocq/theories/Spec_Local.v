(** What a rule of a grammar refers to, and when two grammars agree on it. *)
From Coq Require Import String List NArith.
From Verif Require Import Model_Text Model_Message Model_Meta Model_Import Model_Tracker Model_Node Model_Pairs Spec_Grammar_Peg Spec_Occur Spec_Generator Spec_Grammar_Tree Spec_Grammar_Trace.
Import ListNotations.
Open Scope list_scope.

(** All paths in the expression [e] of a rule with the given parameters begin with a parameter or with a name in [P]; the trivia asked for
    are in [P]. *)
Definition refers (P : text -> Prop) (params : list text) (e : parse_expr) : Prop :=
  (forall x path args, part (PPath (x :: path) args) e -> P x \/ path = [] /\ In x params) /\
  (forall t name, asks e t -> trivia_name t = Some name -> P name).

(** The rules of [g] with names in [P] refer to such names only. *)
Definition closed_under (P : text -> Prop) (g : gmodule) : Prop :=
  forall r, In r (g_rules g) -> P (pr_name r) -> refers P (pr_args r) (n_expr (pr_node r)).

(** The grammars have the same rules, trivia and imports with names in [P]. *)
Definition agree (P : text -> Prop) (g g' : gmodule) : Prop :=
  (forall r, P (pr_name r) -> In r (g_rules g) <-> In r (g_rules g')) /\
  (forall t name r, P name -> trivia_name t = Some name -> last_rule g name r <-> last_rule g' name r) /\
  (forall i, P (import_alias i) -> In i (g_imports g) <-> In i (g_imports g')).

(** The same rule: of a module that is neither, or of [g] and of [g']. *)
Definition kept (g g' : gmodule) (l l' : label) : Prop := counterpart g g' l l' /\ snd l' = snd l.

(** The same events, of the rules of another grammar. *)
Definition frame_alike (R : label -> label -> Prop) (a b : label * nat) : Prop := R (fst a) (fst b) /\ snd b = snd a.
Inductive event_alike (R : label -> label -> Prop) : gevent -> gevent -> Prop :=
| EA_attempt chain chain' l l' p pol ok : Forall2 (frame_alike R) chain chain' -> R l l' -> event_alike R (G_attempt chain l p pol ok) (G_attempt chain' l' p pol ok)
| EA_misuse chain chain' p x : Forall2 (frame_alike R) chain chain' -> event_alike R (G_misuse chain p x) (G_misuse chain' p x).

(** Two reports that say the same: about the same place, and each rule, rule it is listed under, and misuse of the stack that one has, the other has too,
    where [R] says which numbers stand for the same rule in both programs. *)
Definition same_heading (R : rule -> rule -> Prop) (u u' : option rule) : Prop :=
  match u, u' with Some x, Some x' => R x x' | None, None => True | _, _ => False end.
Record report_says (R : rule -> rule -> Prop) (rep rep' : nat * list (option rule * tracked)) : Prop := mkReportSays {
  says_at : fst rep' = fst rep;
  says_expected : forall u x, lists_expected rep u x -> exists u' x', lists_expected rep' u' x' /\ R x x' /\ same_heading R u u';
  says_unexpected : forall u x, lists_unexpected rep u x -> exists u' x', lists_unexpected rep' u' x' /\ R x x' /\ same_heading R u u';
  says_misuse : forall u x, lists_misuse rep u x -> exists u', lists_misuse rep' u' x /\ same_heading R u u' }.

(** Two parses that return the same: trees with the same offsets and the same rules, or reports that say the same. The end of the text is [EOI] in all programs. *)
Definition or_end (R : rule -> rule -> Prop) (x x' : rule) : Prop := R x x' \/ x = EOI /\ x' = EOI.
Definition returns_alike (R : rule -> rule -> Prop) (env env' : rule -> rule_def) (o o' : value + tracker) : Prop :=
  match o, o' with
  | inl v, inl v' => matched_all R (for_self_or_for_each_child_pair env v) (for_self_or_for_each_child_pair env' v')
  | inr t, inr t' => report_says (or_end R) (finish t) (finish t') /\ report_says (fun x' x => or_end R x x') (finish t') (finish t)
  | _, _ => False
  end.
