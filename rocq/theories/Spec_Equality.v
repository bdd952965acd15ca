(** When two values of a syntax tree are to be equal. *)
From Coq Require Import String List NArith ZArith Arith Bool.
From Verif Require Import Model_Text Model_Position Model_Span Model_Tracker Model_Node Spec_Text Spec_Peg Spec_Run.
Import ListNotations.
Open Scope list_scope.

(** The spans inside a value, in the order of its fields. *)
Fixpoint spans (v : value) : list span :=
  match v with
  | VUnit | VInsens _ | VChar _ | VNewline _ | VOpt None => []
  | VSpan sp => [sp]
  | VPositive c | VPush c | VChoice _ c | VOpt (Some c) => spans c
  | VRep l | VSeq l => flat_map spans l
  | VRule _ c sp => spans c ++ [sp]
  end.
(** All rest of a value: the value with every span replaced. *)
Fixpoint with_span (sp : span) (v : value) : value :=
  match v with
  | VUnit | VInsens _ | VChar _ | VNewline _ | VOpt None => v
  | VSpan _ => VSpan sp
  | VPositive c => VPositive (with_span sp c)
  | VPush c => VPush (with_span sp c)
  | VChoice i c => VChoice i (with_span sp c)
  | VOpt (Some c) => VOpt (Some (with_span sp c))
  | VRep l => VRep (map (with_span sp) l)
  | VSeq l => VSeq (map (with_span sp) l)
  | VRule r c _ => VRule r (with_span sp c) sp
  end.

(** The same part of the same memory: the input has the same address and the same length. *)
Definition same_place (a b : span) : Prop :=
  sp_addr a = sp_addr b /\ blen (sp_input a) = blen (sp_input b) /\ sp_start a = sp_start b /\ sp_end a = sp_end b.

(** A span of the input [s] at the address [addr]. *)
Definition in_input (addr : N) (s : text) (sp : span) : Prop :=
  sp_addr sp = addr /\ sp_input sp = s /\ exists m, span_text sp m.

(** There is a struct of a rule inside a value. *)
Inductive has_rule : value -> Prop :=
| HR_rule r c sp : has_rule (VRule r c sp)
| HR_positive c : has_rule c -> has_rule (VPositive c)
| HR_push c : has_rule c -> has_rule (VPush c)
| HR_choice i c : has_rule c -> has_rule (VChoice i c)
| HR_some c : has_rule c -> has_rule (VOpt (Some c))
| HR_rep l c : In c l -> has_rule c -> has_rule (VRep l)
| HR_seq l c : In c l -> has_rule c -> has_rule (VSeq l).
