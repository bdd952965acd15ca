(** Model of core/src/span.rs. *)
From Coq Require Import List NArith Arith Bool.
From Verif Require Import Model_Text Model_Position.
Import ListNotations.

(** core/src/span.rs L65-71 [Span::new] (with the address of the input as an extra argument). *)
Definition span_new (addr : N) (s : text) (start stop : nat) : option span :=
  match get_range s start stop with
  | Some _ => Some (mkSpan addr s start stop)
  | None => None
  end.

(** core/src/span.rs L218-221 [Span::as_str]. *)
Definition as_str (sp : span) : outcome text :=
  or_panic (get_range (sp_input sp) (sp_start sp) (sp_end sp)).

(** core/src/position.rs L44-47 [Position::new_unchecked] with its debug assertion as a panic. *)
Definition position_new_unchecked (addr : N) (s : text) (pos : nat) : outcome position :=
  match get_from s pos with
  | Some _ => Ret (mkPosition addr s pos)
  | None => Panic
  end.

(** core/src/span.rs L154-157 [Span::start_pos]. *)
Definition start_pos (sp : span) : outcome position :=
  position_new_unchecked (sp_addr sp) (sp_input sp) (sp_start sp).

(** core/src/span.rs L173-176 [Span::end_pos]. *)
Definition end_pos (sp : span) : outcome position :=
  position_new_unchecked (sp_addr sp) (sp_input sp) (sp_end sp).

(** core/src/span.rs L192-198 [Span::split]. *)
Definition split (sp : span) : outcome (position * position) :=
  let! pos1 := position_new_unchecked (sp_addr sp) (sp_input sp) (sp_start sp) in
  let! pos2 := position_new_unchecked (sp_addr sp) (sp_input sp) (sp_end sp) in
  Ret (pos1, pos2).

(** [core::ops::Bound<usize>], the argument of core/src/span.rs L85. *)
Inductive bound := Included (offset : nat) | Excluded (offset : nat) | Unbounded.

(** core/src/span.rs L85-102 [Span::get]. The overflow of [offset + 1] at [usize::MAX] is not
    modelled. *)
Definition span_get (sp : span) (start_bound end_bound : bound) : outcome (option span) :=
  let start :=
    match start_bound with
    | Included o => o
    | Excluded o => o + 1
    | Unbounded => 0
    end in
  let! str := as_str sp in
  let stop :=
    match end_bound with
    | Included o => o + 1
    | Excluded o => o
    | Unbounded => blen str
    end in
  match get_range str start stop with
  | Some _ =>
      Ret (Some (mkSpan (sp_addr sp) (sp_input sp) (sp_start sp + start) (sp_start sp + stop)))
  | None => Ret None
  end.

(** core/src/span.rs L406-422 [LinesSpan::next]; the iterator state is the offset [pos]. Returns
    the yielded item and the new state. *)
Definition lines_next (sp : span) (pos : nat) : option span * nat :=
  if sp_end sp <? pos then (None, pos)
  else
    match position_new (sp_input sp) pos with
    | None => (None, pos)
    | Some pos =>
        if at_end (sp_input sp) pos then (None, pos)
        else
          let line_start := find_line_start (sp_input sp) pos in
          let pos' := find_line_end (sp_input sp) pos in
          (span_new (sp_addr sp) (sp_input sp) line_start pos', pos')
    end.

(** core/src/span.rs L284-289 [Span::lines_span], iterated until [None]. *)
Fixpoint lines_loop (fuel : nat) (sp : span) (pos : nat) : outcome (list span) :=
  match fuel with
  | 0 => OutOfFuel
  | S k =>
      match lines_next sp pos with
      | (None, _) => Ret []
      | (Some l, pos') => let! r := lines_loop k sp pos' in Ret (l :: r)
      end
  end.
Definition lines_span (fuel : nat) (sp : span) : outcome (list span) :=
  lines_loop fuel sp (sp_start sp).

(** core/src/span.rs L260-264 and L433-437 [Span::lines]: the text of each yielded span. *)
Fixpoint map_as_str (l : list span) : outcome (list text) :=
  match l with
  | [] => Ret []
  | a :: r => let! t := as_str a in let! ts := map_as_str r in Ret (t :: ts)
  end.
Definition lines (fuel : nat) (sp : span) : outcome (list text) :=
  let! l := lines_span fuel sp in map_as_str l.

(** core/src/span.rs L382-394 [merge_spans]. *)
Definition merge_spans (a b : span) : option span :=
  if (sp_start b <=? sp_end a) && (sp_start a <=? sp_end b) then
    span_new (sp_addr a) (sp_input a)
      (Nat.min (sp_start a) (sp_start b)) (Nat.max (sp_end a) (sp_end b))
  else None.
