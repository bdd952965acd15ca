(** Vocabulary for statements about spans. *)
From Coq Require Import List NArith Arith Bool.
From Verif Require Import Model_Text Model_Position Model_Span.
Import ListNotations.

(** The half-open byte range denoted by two bounds on a text of [len] bytes. *)
Definition range_of (len : nat) (lo hi : bound) : nat * nat :=
  (match lo with Included o => o | Excluded o => S o | Unbounded => 0 end,
   match hi with Included o => S o | Excluded o => o | Unbounded => len end).

(** The span of the same input with another byte range. *)
Definition span_of (sp : span) (pq : nat * nat) : span :=
  mkSpan (sp_addr sp) (sp_input sp) (fst pq) (snd pq).
