(** What a syntax tree says about the text it was made from. Nothing here mentions positions, fuel,
    trackers or the stack: only expressions, trees and texts. *)
From Coq Require Import List NArith ZArith Arith Bool.
From Verif Require Import Model_Text Model_Meta Model_Position Model_Tracker Model_Node Spec_Text Spec_Peg Spec_Run Spec_Occur.
Import ListNotations.
Open Scope list_scope.

Section Lossless.
Variable env : rule -> rule_def.

(** [spells gap n v m]: read from left to right, the tree [v] of the expression [n] says [m]. Between
    two fields of a sequence and between two rounds of a repetition it says nothing: any text that
    [gap] admits for the trivia may be there. A slice of the stack says nothing either. *)
Inductive spells (gap : node -> text -> Prop) : node -> value -> text -> Prop :=
| W_str t : spells gap (Str t) VUnit t
| W_char c : spells gap (Char c) VUnit [c]
| W_insens t x : spells gap (Insens t) (VInsens x) x
| W_skip k sp m : span_text sp m -> spells gap (SkipChar k) (VSpan sp) m
| W_range lo hi c : spells gap (CharRange lo hi) (VChar c) [c]
| W_any c : spells gap Any (VChar c) [c]
| W_property p c : spells gap (Property p) (VChar c) [c]
| W_empty : spells gap Empty VUnit []
| W_soi : spells gap Soi VUnit []
| W_eoi : spells gap Eoi VUnit []
| W_drop : spells gap Drop VUnit []
| W_crlf : spells gap Newline (VNewline NL_CRLF) [CR; LF]
| W_lf : spells gap Newline (VNewline NL_LF) [LF]
| W_cr : spells gap Newline (VNewline NL_CR) [CR]
| W_peek sp m : span_text sp m -> spells gap Peek (VSpan sp) m
| W_pop sp m : span_text sp m -> spells gap Pop (VSpan sp) m
| W_peek_all sp m : span_text sp m -> spells gap PeekAll (VSpan sp) m
| W_pop_all sp m : span_text sp m -> spells gap PopAll (VSpan sp) m
| W_slice2 a b m : spells gap (PeekSlice2 a b) VUnit m
| W_slice1 a m : spells gap (PeekSlice1 a) VUnit m
| W_positive t v : spells gap (Positive t) (VPositive v) []
| W_negative t : spells gap (Negative t) VUnit []
| W_push t v m : spells gap t v m -> spells gap (Push t) (VPush v) m
| W_none t : spells gap (Opt t) (VOpt None) []
| W_some t v m : spells gap t v m -> spells gap (Opt t) (VOpt (Some v)) m
| W_choice ts i t v m : nth_error ts i = Some t -> spells gap t v m -> spells gap (Choice ts) (VChoice i v) m
| W_rule r args v sp m :
    spells gap (rd_body (env r) args) v m -> span_text sp m -> spells gap (Rule r args) (VRule r v sp) m
| W_seq fields vs m : spells_fields gap true fields vs m -> spells gap (Seq fields) (VSeq vs) m
| W_rep t trivia min max vs m :
    spells_rounds gap t trivia true vs m -> spells gap (RepMinMax t trivia min max) (VRep vs) m
with spells_fields (gap : node -> text -> Prop) : bool -> list (node * node) -> list value -> text -> Prop :=
| WF_nil first : spells_fields gap first [] [] []
| WF_first t trivia fields v vs m ms :
    spells gap t v m -> spells_fields gap false fields vs ms ->
    spells_fields gap true ((t, trivia) :: fields) (v :: vs) (m ++ ms)
| WF_next t trivia fields v vs g m ms :
    gap trivia g -> spells gap t v m -> spells_fields gap false fields vs ms ->
    spells_fields gap false ((t, trivia) :: fields) (v :: vs) (g ++ m ++ ms)
with spells_rounds (gap : node -> text -> Prop) : node -> node -> bool -> list value -> text -> Prop :=
| WR_nil t trivia first : spells_rounds gap t trivia first [] []
| WR_first t trivia v vs m ms :
    spells gap t v m -> spells_rounds gap t trivia false vs ms ->
    spells_rounds gap t trivia true (v :: vs) (m ++ ms)
| WR_next t trivia v vs g m ms :
    gap trivia g -> spells gap t v m -> spells_rounds gap t trivia false vs ms ->
    spells_rounds gap t trivia false (v :: vs) (g ++ m ++ ms).

(** The expressions whose trees are in a tree of [n]: not those below predicates, not the trivia. *)
Inductive within (x : node) : node -> Prop :=
| X_here : within x x
| X_push t : within x t -> within x (Push t)
| X_opt t : within x t -> within x (Opt t)
| X_choice ts t : In t ts -> within x t -> within x (Choice ts)
| X_seq fields t trivia : In (t, trivia) fields -> within x t -> within x (Seq fields)
| X_rep t trivia min max : within x t -> within x (RepMinMax t trivia min max)
| X_rule r args : within x (rd_body (env r) args) -> within x (Rule r args).

(** No trivia is skipped and no slice of the stack is matched in making a tree of [n]. *)
Definition keeps_all (n : node) : Prop :=
  forall x, within x n ->
    match x with
    | PeekSlice1 _ | PeekSlice2 _ _ => False
    | Seq fields => Forall (fun f => snd f = Empty) (tl fields)
    | RepMinMax _ trivia _ _ => trivia = Empty
    | _ => True
    end.
(** No trivia is skipped in making a tree of [n]. *)
Definition no_gaps (n : node) : Prop :=
  forall x, within x n ->
    match x with
    | Seq fields => Forall (fun f => snd f = Empty) (tl fields)
    | RepMinMax _ trivia _ _ => trivia = Empty
    | _ => True
    end.
End Lossless.

Scheme spells_mut := Induction for spells Sort Prop
with spells_fields_mut := Induction for spells_fields Sort Prop
with spells_rounds_mut := Induction for spells_rounds Sort Prop.
Combined Scheme spells_mutind from spells_mut, spells_fields_mut, spells_rounds_mut.

(** The same tree, but for where it was found: the spans stored in leaves have the same text, those of
    rules are not compared. *)
Inductive same_tree : value -> value -> Prop :=
| ST_unit : same_tree VUnit VUnit
| ST_insens x : same_tree (VInsens x) (VInsens x)
| ST_span a b m : span_text a m -> span_text b m -> same_tree (VSpan a) (VSpan b)
| ST_char c : same_tree (VChar c) (VChar c)
| ST_positive v w : same_tree v w -> same_tree (VPositive v) (VPositive w)
| ST_newline c : same_tree (VNewline c) (VNewline c)
| ST_push v w : same_tree v w -> same_tree (VPush v) (VPush w)
| ST_rep l k : Forall2 same_tree l k -> same_tree (VRep l) (VRep k)
| ST_none : same_tree (VOpt None) (VOpt None)
| ST_some v w : same_tree v w -> same_tree (VOpt (Some v)) (VOpt (Some w))
| ST_seq l k : Forall2 same_tree l k -> same_tree (VSeq l) (VSeq k)
| ST_choice i v w : same_tree v w -> same_tree (VChoice i v) (VChoice i w)
| ST_rule r v w a b : same_tree v w -> same_tree (VRule r v a) (VRule r w b).

(** The trivia expression [t] matches [g] somewhere in the text [s]. *)
Definition skipped (s : text) (env : rule -> rule_def) (property : N -> char -> bool) (t : node) (g : text) : Prop :=
  exists pre post K K', s = pre ++ g ++ post /\
    peg env property t pre (g ++ post) K (Ok (pre ++ g) post K').

(** The expression [e] of a grammar asks for no trivia. *)
Definition asks_none (e : parse_expr) : Prop := forall t, asks e t -> t = TriviaNone.
(** No slice of the stack is matched in [e]. *)
Definition slices_none (e : parse_expr) : Prop := forall path range, ~ part (PPath path (Some (PSlice range))) e.
