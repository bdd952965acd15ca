(** Model of [==] and [Hash] of the node types and of the structs of rules. *)
From Coq Require Import String List NArith ZArith Arith Bool.
From Verif Require Import Model_Text Model_Position Model_Span Model_Tracker Model_Node.
Import ListNotations.
Open Scope list_scope.

(** [PartialEq] of [NewLineType], derived at core/src/typed/template/mod.rs L621. *)
Definition newline_eqb (a b : newline_type) : bool :=
  match a, b with NL_CRLF, NL_CRLF | NL_LF, NL_LF | NL_CR, NL_CR => true | _, _ => false end.

(** [PartialEq] of the node types, derived at core/src/typed/template/mod.rs L30, L81, L137, L182, L228, L333, L401, L462, L501,
    L524, L555, L589, L633, L680, L716, L774, L810, L867, L907, L968, L997, repetition.rs L40, core/src/lib.rs L35,
    core/src/sequence.rs L20, core/src/choice.rs L17, and of the structs of rules, derived at
    generator/src/typed/generator.rs L261: the fields one after the other, the variants of a choice first. Spans are compared by
    core/src/span.rs L302-306, texts by their contents; [PhantomData] and [Phantom] (repetition.rs L32-36) are always equal; a
    [Box] is compared by its content. Rust compares values of one type only; of other values the model says [false]. *)
Fixpoint value_eqb (v w : value) {struct v} : bool :=
  let list_eqb := fix list_eqb (l k : list value) {struct l} : bool :=
    match l, k with
    | [], [] => true
    | x :: l', y :: k' => value_eqb x y && list_eqb l' k'
    | _, _ => false
    end in
  match v, w with
  | VUnit, VUnit => true
  | VInsens x, VInsens y => text_eqb x y
  | VSpan a, VSpan b => span_eqb a b
  | VChar c, VChar d => (c =? d)%N
  | VPositive a, VPositive b => value_eqb a b
  | VNewline a, VNewline b => newline_eqb a b
  | VPush a, VPush b => value_eqb a b
  | VRep l, VRep k => list_eqb l k
  | VOpt None, VOpt None => true
  | VOpt (Some a), VOpt (Some b) => value_eqb a b
  | VSeq l, VSeq k => list_eqb l k
  | VChoice i a, VChoice j b => (i =? j) && value_eqb a b
  | VRule r a sp, VRule q b sq => (r =? q)%N && value_eqb a b && span_eqb sp sq
  | _, _ => false
  end.

(** The calls of a [Hasher]: [write_usize], [write_isize] (the number of a variant), [write_u32] (a [char]), [write_str]. *)
Inductive hash_call := H_usize (n : N) | H_isize (n : N) | H_u32 (c : char) | H_str (t : text).

(** core/src/position.rs L533-538 [Hash for Position]; a pointer to a text is hashed as its address and its length. *)
Definition hash_position (p : position) : list hash_call :=
  [H_usize (p_addr p); H_usize (N.of_nat (blen (p_input p))); H_usize (N.of_nat (p_pos p))].
(** core/src/span.rs L310-316 [Hash for Span]. *)
Definition hash_span (sp : span) : list hash_call :=
  [H_usize (sp_addr sp); H_usize (N.of_nat (blen (sp_input sp))); H_usize (N.of_nat (sp_start sp)); H_usize (N.of_nat (sp_end sp))].
(** [Hash] of [NewLineType], derived at core/src/typed/template/mod.rs L621. *)
Definition hash_newline (x : newline_type) : list hash_call :=
  [H_isize (match x with NL_CRLF => 0 | NL_LF => 1 | NL_CR => 2 end)].

(** [Hash] of the node types, derived at the places given for [value_eqb]; for [Phantom] repetition.rs L29-31. The structs of rules
    have no [Hash] (generator.rs L261), nor has a type that contains one: [None]. A [Vec] hashes its length first, an enum the number
    of its variant (a choice has at least two variants). *)
Fixpoint hash_calls (v : value) : option (list hash_call) :=
  let list_calls := fix list_calls (l : list value) : option (list hash_call) :=
    match l with
    | [] => Some []
    | x :: r =>
        match hash_calls x, list_calls r with
        | Some a, Some b => Some (a ++ b)
        | _, _ => None
        end
    end in
  match v with
  | VUnit => Some []
  | VInsens x => Some [H_str x]
  | VSpan sp => Some (hash_span sp)
  | VChar c => Some [H_u32 c]
  | VPositive c => hash_calls c
  | VNewline x => Some (hash_newline x)
  | VPush c => hash_calls c
  | VRep l => option_map (cons (H_usize (N.of_nat (length l)))) (list_calls l)
  | VOpt None => Some [H_isize 0]
  | VOpt (Some c) => option_map (cons (H_isize 1)) (hash_calls c)
  | VSeq l => list_calls l
  | VChoice i c => option_map (cons (H_isize (N.of_nat i))) (hash_calls c)
  | VRule _ _ _ => None
  end.
