(** Model of core/src/typed/tracker.rs as a library: the public methods of [Tracker], called in any order
    and nesting by a program, on positions of any texts. Model_Tracker.v has the same functions for
    positions of one text; here [Position::cmp] may panic and [!=] looks at addresses. *)
From Coq Require Import List NArith ZArith Arith Bool.
From Verif Require Import Model_Text Model_Position Model_Stack Model_Tracker.
Import ListNotations.

(** core/src/typed/tracker.rs L48-54 [Tracker], as in Model_Tracker.v, with positions. *)
Record ptracker := mkPTracker {
  pt_position : position;
  pt_positive : bool;
  pt_attempts : list (option rule * tracked);
  pt_stack : list (rule * position * bool)
}.

(** core/src/typed/tracker.rs L57-64 [Tracker::new]. *)
Definition p_new (pos : position) : ptracker := mkPTracker pos true [] [].

(** core/src/typed/tracker.rs L68-78 [Tracker::prepare], with [Tracker::clear] (L65-67). *)
Definition p_prepare (pos : position) (t : ptracker) : outcome (bool * ptracker) :=
  let! c := position_cmp pos (pt_position t) in
  match c with
  | Lt => Ret (false, t)
  | Eq => Ret (true, t)
  | Gt => Ret (true, mkPTracker pos (pt_positive t) [] (pt_stack t))
  end.

(** core/src/typed/tracker.rs L98-105: the lowest rule on the stack that started elsewhere. *)
Fixpoint p_find_upper (stk : list (rule * position * bool)) (pos : position) : option rule :=
  match stk with
  | [] => None
  | (upper_rule, upper_pos, _) :: r =>
      if negb (position_eqb upper_pos pos) then Some upper_rule else p_find_upper r pos
  end.

(** core/src/typed/tracker.rs L94-107 [Tracker::get_entry], with the update of the entry. *)
Definition p_update_entry (pos : position) (f : tracked -> tracked) (t : ptracker) : ptracker :=
  mkPTracker (pt_position t) (pt_positive t)
    (map_update (p_find_upper (pt_stack t) pos) f (pt_attempts t)) (pt_stack t).

(** The common part of the three methods below. *)
Definition p_report_special (e : special_error) (pos : position) (t : ptracker) : outcome ptracker :=
  let! (b, t) := p_prepare pos t in
  Ret (if b then p_update_entry pos (push_special e) t else t).
(** core/src/typed/tracker.rs L109-115 [Tracker::repeat_too_many_times]. *)
Definition p_repeat_too_many_times (pos : position) := p_report_special RepeatTooManyTimes pos.
(** core/src/typed/tracker.rs L117-123 [Tracker::out_of_bound]. *)
Definition p_out_of_bound (pos : position) (start : Z) (stop : option Z) :=
  p_report_special (SliceOutOfBound start stop) pos.
(** core/src/typed/tracker.rs L125-129 [Tracker::empty_stack]. *)
Definition p_empty_stack (pos : position) := p_report_special EmptyStack pos.

(** core/src/typed/tracker.rs L137-146 [Tracker::record]. *)
Definition p_record (r : rule) (pos : position) (succeeded : bool) (t : ptracker) : outcome ptracker :=
  let! (b, t) := p_prepare pos t in
  Ret (if b && negb (Bool.eqb succeeded (pt_positive t)) then
         p_update_entry pos
           (fun v => let '(p, n, s) := v in
                     if pt_positive t then (push_rule r p, n, s) else (p, push_rule r n, s)) t
       else t).

(** core/src/typed/tracker.rs L79-93 [Tracker::during] and its two instances [positive_during] and
    [negative_during]. *)
Definition p_during (b : bool) (f : ptracker -> outcome ptracker) (t : ptracker) : outcome ptracker :=
  let original := pt_positive t in
  let! t := f (mkPTracker (pt_position t) b (pt_attempts t) (pt_stack t)) in
  Ret (mkPTracker (pt_position t) original (pt_attempts t) (pt_stack t)).

(** core/src/typed/tracker.rs L178-195 [record_option_during_with], which [record_option_during]
    (L197-206) and [record_empty_during] (L208-215) call; L149-166 [record_during_with], which
    [record_result_during] (L168-176) calls, is the same with [is_ok] for [is_some]. [succeeded] says
    what the closure returned. *)
Definition p_record_during (r : rule) (pos : position) (succeeded : bool) (f : ptracker -> outcome ptracker)
  (t : ptracker) : outcome ptracker :=
  let stk :=
    match pt_stack t with
    | (r', pos', _) :: rest => (r', pos', true) :: rest
    | [] => []
    end in
  let! t := f (mkPTracker (pt_position t) (pt_positive t) (pt_attempts t) ((r, pos, false) :: stk)) in
  match pt_stack t with
  | [] => Panic
  | (_, _, has_children) :: rest =>
      let t := mkPTracker (pt_position t) (pt_positive t) (pt_attempts t) rest in
      if has_children then Ret t else p_record r pos succeeded t
  end.

(** What a program does with a tracker: calls of its public methods, with what it does in the closures.
    Closures that put another tracker in the place of the one they are given are left out. *)
Inductive action :=
| Repeat (pos : position)
| Bound (pos : position) (start : Z) (stop : option Z)
| Bare (pos : position)
| Polarity (positive : bool) (body : list action)
| Within (r : rule) (pos : position) (succeeded : bool) (body : list action).

(** The calls one after the other; core/src/typed/tracker.rs L86-93, L109-129 and L149-215 as above. *)
Fixpoint act (a : action) : ptracker -> outcome ptracker :=
  let fix acts (l : list action) (t : ptracker) : outcome ptracker :=
    match l with
    | [] => Ret t
    | a :: l => let! t := act a t in acts l t
    end in
  match a with
  | Repeat pos => p_repeat_too_many_times pos
  | Bound pos start stop => p_out_of_bound pos start stop
  | Bare pos => p_empty_stack pos
  | Polarity b body => p_during b (acts body)
  | Within r pos succeeded body => p_record_during r pos succeeded (acts body)
  end.
Fixpoint acts (l : list action) (t : ptracker) : outcome ptracker :=
  match l with
  | [] => Ret t
  | a :: l => let! t := act a t in acts l t
  end.

(** core/src/typed/tracker.rs L305-307 [Tracker::finish]. *)
Definition p_finish (t : ptracker) : position * list (option rule * tracked) := (pt_position t, pt_attempts t).
