(** Model of core/src/typed/tracker.rs (recording of attempts; messages are in Model_Message.v).

    All positions a tracker sees during a parse belong to one input, so positions are byte offsets:
    [Position::cmp] (core/src/position.rs L523-531) is the comparison of offsets and [!=] (L509-513)
    is inequality of offsets. *)
From Coq Require Import List NArith ZArith Arith Bool.
From Verif Require Import Model_Text Model_Position Model_Stack.
Import ListNotations.

(** A value of the generated [Rule] enumeration; the order of [N] is its derived [Ord]. *)
Definition rule := N.

(** core/src/typed/traits.rs L9-12 [RuleType::EOI]; the generated enumeration declares it first
    (generator/src/typed/generator.rs L946 ff.). *)
Definition EOI : rule := 0%N.

(** core/src/typed/tracker.rs L23-30 [SpecialError]. *)
Inductive special_error :=
| SliceOutOfBound (start : Z) (stop : option Z)
| RepeatTooManyTimes
| EmptyStack.

(** core/src/typed/tracker.rs L45 [Tracked]: positives, negatives, special errors, oldest first. *)
Definition tracked : Type := list rule * list rule * list special_error.

(** core/src/typed/tracker.rs L48-54 [Tracker]. [tk_attempts] is the [BTreeMap] as an association
    list sorted by key; [tk_stack] has the innermost rule first. *)
Record tracker := mkTracker {
  tk_position : nat;
  tk_positive : bool;
  tk_attempts : list (option rule * tracked);
  tk_stack : list (rule * nat * bool)
}.

(** core/src/typed/tracker.rs L57-64 [Tracker::new]. *)
Definition tracker_new (pos : nat) : tracker := mkTracker pos true [] [].

(** core/src/typed/tracker.rs L65-67 [Tracker::clear]. *)
Definition tracker_clear (t : tracker) : tracker :=
  mkTracker (tk_position t) (tk_positive t) [] (tk_stack t).

(** core/src/typed/tracker.rs L68-78 [Tracker::prepare]. *)
Definition prepare (pos : nat) (t : tracker) : bool * tracker :=
  match Nat.compare pos (tk_position t) with
  | Lt => (false, t)
  | Eq => (true, t)
  | Gt =>
      let t := tracker_clear t in
      (true, mkTracker pos (tk_positive t) (tk_attempts t) (tk_stack t))
  end.

(** core/src/typed/tracker.rs L79-93 [Tracker::during], split in the part before and the part after
    the call: set the polarity, remembering the original one; put it back. *)
Definition set_positive (b : bool) (t : tracker) : tracker :=
  mkTracker (tk_position t) b (tk_attempts t) (tk_stack t).

(** The derived order on [Option<R>]: [None] is the least key of the map. *)
Definition key_compare (a b : option rule) : comparison :=
  match a, b with
  | None, None => Eq
  | None, Some _ => Lt
  | Some _, None => Gt
  | Some x, Some y => N.compare x y
  end.

(** [BTreeMap::entry(k).or_default()] followed by an update of the value, as used at
    core/src/typed/tracker.rs L106. *)
Fixpoint map_update (k : option rule) (f : tracked -> tracked) (m : list (option rule * tracked))
  : list (option rule * tracked) :=
  match m with
  | [] => [(k, f ([], [], []))]
  | (k', v) :: r =>
      match key_compare k k' with
      | Lt => (k, f ([], [], [])) :: (k', v) :: r
      | Eq => (k', f v) :: r
      | Gt => (k', v) :: map_update k f r
      end
  end.

(** core/src/typed/tracker.rs L98-105: the lowest rule on the stack that started elsewhere. *)
Fixpoint find_upper (stk : list (rule * nat * bool)) (pos : nat) : option rule :=
  match stk with
  | [] => None
  | (upper_rule, upper_pos, _) :: r =>
      if negb (upper_pos =? pos) then Some upper_rule else find_upper r pos
  end.

(** core/src/typed/tracker.rs L94-107 [Tracker::get_entry], with the update of the entry. *)
Definition update_entry (pos : nat) (f : tracked -> tracked) (t : tracker) : tracker :=
  mkTracker (tk_position t) (tk_positive t)
    (map_update (find_upper (tk_stack t) pos) f (tk_attempts t)) (tk_stack t).

(** Pushing on the third vector of an entry. *)
Definition push_special (e : special_error) (v : tracked) : tracked :=
  let '(p, n, s) := v in (p, n, s ++ [e]).

(** core/src/typed/tracker.rs L109-129 [repeat_too_many_times], [out_of_bound], [empty_stack]. *)
Definition report_special (e : special_error) (pos : nat) (t : tracker) : tracker :=
  let (b, t) := prepare pos t in
  if b then update_entry pos (push_special e) t else t.
Definition repeat_too_many_times := report_special RepeatTooManyTimes.
Definition out_of_bound (pos : nat) (start : Z) (stop : option Z) :=
  report_special (SliceOutOfBound start stop) pos.
Definition empty_stack := report_special EmptyStack.

(** core/src/typed/tracker.rs L130-135 [Tracker::same_with_last]. *)
Definition same_with_last (vec : list rule) (r : rule) : bool :=
  match rev vec with
  | last :: _ => (last =? r)%N
  | [] => false
  end.

(** core/src/typed/tracker.rs L142-144: push unless it repeats the last element. *)
Definition push_rule (r : rule) (vec : list rule) : list rule :=
  if negb (same_with_last vec r) then vec ++ [r] else vec.

(** core/src/typed/tracker.rs L137-146 [Tracker::record]. *)
Definition record (r : rule) (pos : nat) (succeeded : bool) (t : tracker) : tracker :=
  let (b, t) := prepare pos t in
  if b && negb (Bool.eqb succeeded (tk_positive t)) then
    update_entry pos
      (fun v => let '(p, n, s) := v in
                if tk_positive t then (push_rule r p, n, s) else (p, push_rule r n, s)) t
  else t.

(** core/src/typed/tracker.rs L184-187, before the call in [record_option_during_with]: mark the
    enclosing rule as having children and push the new rule. L155-158 is the same. *)
Definition enter_rule (r : rule) (pos : nat) (t : tracker) : tracker :=
  let stk :=
    match tk_stack t with
    | (r', pos', _) :: rest => (r', pos', true) :: rest
    | [] => []
    end in
  mkTracker (tk_position t) (tk_positive t) (tk_attempts t) ((r, pos, false) :: stk).

(** core/src/typed/tracker.rs L189-193, after the call in [record_option_during_with]: pop (the
    [unwrap] is a panic) and record if no rule was tried inside. L160-164 is the same. *)
Definition leave_rule (r : rule) (pos : nat) (succeeded : bool) (t : tracker) : outcome tracker :=
  match tk_stack t with
  | [] => Panic
  | (_, _, has_children) :: rest =>
      let t := mkTracker (tk_position t) (tk_positive t) (tk_attempts t) rest in
      Ret (if has_children then t else record r pos succeeded t)
  end.

(** core/src/typed/tracker.rs L305-307 [Tracker::finish]. *)
Definition finish (t : tracker) : nat * list (option rule * tracked) :=
  (tk_position t, tk_attempts t).
