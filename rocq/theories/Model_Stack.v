(** The stack of matched spans.

    [pest2::Stack] is an external crate (pest 2.8.2) that is not part of /repo; it is re-exported by
    core/src/lib.rs L16. It is modelled by its documented contract: a snapshot remembers the current
    contents, clearing forgets the latest snapshot, restoring goes back to it. This contract is part
    of the trusted base (see DESIGN.md).

    Contents are kept with the top of the stack first. *)
From Coq Require Import List NArith ZArith Arith Bool.
From Verif Require Import Model_Text Model_Position.
Import ListNotations.

Section Stack.
Context {A : Type}.

(** [pest2::Stack<T>]: contents (top first) and saved contents (latest snapshot first). *)
Record stack := mkStack { stk_items : list A; stk_saved : list (list A) }.

(** [Stack::new], used in core/src/typed/traits.rs L40. *)
Definition stack_new : stack := mkStack [] [].

(** [Stack::push], used in core/src/typed/template/mod.rs L927. *)
Definition stack_push (x : A) (st : stack) : stack := mkStack (x :: stk_items st) (stk_saved st).

(** [Stack::pop], used in core/src/typed/template/mod.rs L784. *)
Definition stack_pop (st : stack) : option A * stack :=
  match stk_items st with
  | x :: r => (Some x, mkStack r (stk_saved st))
  | [] => (None, st)
  end.

(** [Stack::peek], used in core/src/typed/template/mod.rs L735. *)
Definition stack_peek (st : stack) : option A :=
  match stk_items st with
  | x :: _ => Some x
  | [] => None
  end.

(** [Stack::len], used in core/src/typed/template/mod.rs L296. *)
Definition stack_len (st : stack) : nat := length (stk_items st).

(** [Index<Range<usize>> for Stack], used in core/src/typed/template/mod.rs L307 and L692: the
    elements from index [lo] to [hi], index 0 being the bottom; panics when out of range. *)
Definition stack_index (st : stack) (lo hi : nat) : outcome (list A) :=
  if (lo <=? hi) && (hi <=? length (stk_items st))
  then Ret (firstn (hi - lo) (skipn lo (rev (stk_items st))))
  else Panic.

(** [Stack::snapshot], used in core/src/typed/template/mod.rs L362. *)
Definition stack_snapshot (st : stack) : stack := mkStack (stk_items st) (stk_items st :: stk_saved st).

(** [Stack::clear_snapshot], used in core/src/typed/template/mod.rs L1087. *)
Definition stack_clear_snapshot (st : stack) : stack := mkStack (stk_items st) (tl (stk_saved st)).

(** [Stack::restore], used in core/src/typed/template/mod.rs L1088; without a snapshot the stack is
    emptied. *)
Definition stack_restore (st : stack) : stack :=
  match stk_saved st with
  | s :: r => mkStack s r
  | [] => mkStack [] []
  end.

(** core/src/typed/template/mod.rs L885 and L895 [while stack.pop().is_some() {}]; [n] bounds the
    number of iterations and is instantiated with one more than the number of elements. *)
Fixpoint stack_pop_loop (n : nat) (st : stack) : stack :=
  match n with
  | 0 => st
  | S k =>
      match stack_pop st with
      | (Some _, st') => stack_pop_loop k st'
      | (None, st') => st'
      end
  end.
End Stack.
Arguments stack : clear implicits.
