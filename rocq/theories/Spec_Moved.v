(** The same text in two places: what of a parse changes, and what stays the same.

    The text [rest] lies at the address [addr] after [front] and at the address [addr2] after [front2].
    Everything is said in terms of parts of [rest]: nothing here mentions how a parser works. *)
From Coq Require Import List NArith ZArith Arith Bool.
From Coq Require Import String.
From Verif Require Import Model_Text Model_Message Model_Meta Model_Import Model_Position Model_Span Model_Tracker Model_Node Model_Pairs
  Spec_Text Spec_Peg Spec_Run Spec_Terminate Spec_Grammar_Peg Spec_Occur.
Import ListNotations.
Open Scope list_scope.

Section Moved.
Variables addr addr2 : N.
Variables front front2 rest : text.

(** Two offsets stand at the same place of [rest]. *)
Definition moved_offset (a b : nat) : Prop :=
  exists x y, rest = x ++ y /\ a = blen (front ++ x) /\ b = blen (front2 ++ x).
(** Two spans cover the same part of [rest]. *)
Definition moved_span (a b : span) : Prop :=
  exists x m y, rest = x ++ m ++ y /\
    a = mkSpan addr (front ++ rest) (blen (front ++ x)) (blen (front ++ x ++ m)) /\
    b = mkSpan addr2 (front2 ++ rest) (blen (front2 ++ x)) (blen (front2 ++ x ++ m)).

(** Spans that were pushed before [rest] was reached; they are somewhere else. *)
Variable before : span -> span -> Prop.
Definition moved_entry (a b : span) : Prop := moved_span a b \/ before a b.

(** The same trees, but for the place. *)
Inductive moved : value -> value -> Prop :=
| M_unit : moved VUnit VUnit
| M_insens x : moved (VInsens x) (VInsens x)
| M_span a b : moved_entry a b -> moved (VSpan a) (VSpan b)
| M_char c : moved (VChar c) (VChar c)
| M_positive v w : moved v w -> moved (VPositive v) (VPositive w)
| M_newline c : moved (VNewline c) (VNewline c)
| M_push v w : moved v w -> moved (VPush v) (VPush w)
| M_rep l k : Forall2 moved l k -> moved (VRep l) (VRep k)
| M_none : moved (VOpt None) (VOpt None)
| M_some v w : moved v w -> moved (VOpt (Some v)) (VOpt (Some w))
| M_seq l k : Forall2 moved l k -> moved (VSeq l) (VSeq k)
| M_choice i v w : moved v w -> moved (VChoice i v) (VChoice i w)
| M_rule r v w a b : moved v w -> moved_span a b -> moved (VRule r v a) (VRule r w b).

(** The same result, but for the place. *)
Definition moved_end (o o2 : option (nat * value)) : Prop :=
  match o, o2 with
  | None, None => True
  | Some (p, v), Some (p2, v2) => moved_offset p p2 /\ moved v v2
  | _, _ => False
  end.

(** The same pairs, but for the place. *)
Inductive moved_pair : pair rule -> pair rule -> Prop :=
| MP r a b a2 b2 l l2 : moved_offset a a2 -> moved_offset b b2 -> Forall2 moved_pair l l2 ->
    moved_pair (mkPair r a b l) (mkPair r a2 b2 l2).

(** The same records of a tracker, but for the place. *)
Definition moved_frame (a b : rule * nat * bool) : Prop :=
  fst (fst a) = fst (fst b) /\ moved_offset (snd (fst a)) (snd (fst b)) /\ snd a = snd b.
Definition moved_tracker (t t2 : tracker) : Prop :=
  moved_offset (tk_position t) (tk_position t2) /\ tk_positive t = tk_positive t2 /\
  tk_attempts t = tk_attempts t2 /\ Forall2 moved_frame (tk_stack t) (tk_stack t2).
End Moved.

(** Spans with the same text, wherever they are. *)
Definition same_text (a b : span) : Prop := exists m, span_text a m /\ span_text b m.
(** Nothing was pushed before. *)
Definition nothing (a b : span) : Prop := False.

(** The expression does not ask whether it stands at the start of the input; or both places are at the
    start, or none is. *)
Definition place_hidden (env : rule -> rule_def) (front front2 : text) (n : node) : Prop :=
  (front = [] <-> front2 = []) \/ ~ reaches env n Soi.

(** Nothing in the expression [e] of a rule of [g] names [pest::soi]. *)
Definition soi_none (unicode : list text) (g : gmodule) (e : parse_expr) : Prop :=
  forall path args, Spec_Occur.part (PPath path args) e -> ~ names unicode g path (E_builtin [lit "soi"]).
