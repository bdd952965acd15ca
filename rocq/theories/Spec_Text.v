(** Independent vocabulary for texts: what "starts with", "line", "column", "earliest occurrence"
    mean, on character lists. [blen] (the length in bytes, Rust's [str::len]) is the only notion
    shared with the model: it converts characters to byte offsets. *)
From Coq Require Import Ascii String List NArith Arith Bool.
From Verif Require Import Model_Text.
Import ListNotations.
Open Scope list_scope.

(** [b] begins with [l]. *)
Definition starts_with (l b : text) : Prop := exists r, b = l ++ r.

(** Byte offset [pos] is a character boundary of [s]: it is the length of some prefix. *)
Definition boundary (s : text) (pos : nat) : Prop := exists a b, s = a ++ b /\ pos = blen a.

(** Folding of the letters A-Z only. *)
Definition ascii_fold (c : char) : char :=
  if ((65 <=? c) && (c <=? 90))%N then (c + 32)%N else c.

(** Number of LF characters. *)
Fixpoint lf_count (a : text) : nat :=
  match a with
  | [] => 0
  | c :: r => (if N.eq_dec c LF then 1 else 0) + lf_count r
  end.

(** [a] ends a line: it is empty or its last character is LF. *)
Definition ends_line (a : text) : Prop := a = [] \/ exists a', a = a' ++ [LF].

(** [y] is the part of [a] after its last LF (all of [a] if there is none). *)
Definition after_last_lf (a y : text) : Prop :=
  exists x, a = x ++ y /\ ends_line x /\ ~ In LF y.

(** [y] is the part of [b] up to and including its first LF (all of [b] if there is none). *)
Definition upto_first_lf (b y : text) : Prop :=
  (exists y' r, y = y' ++ [LF] /\ ~ In LF y' /\ b = y ++ r) \/ (y = b /\ ~ In LF b).

(** One of the strings occurs at the beginning of [b]. *)
Definition occurs (strings : list text) (b : text) : Prop :=
  exists l, In l strings /\ starts_with l b.

(** The LF-delimited lines of a text, each with its terminating LF if it has one. *)
Fixpoint split_lines (s : text) : list text :=
  match s with
  | [] => []
  | c :: r =>
      if N.eq_dec c LF then [LF] :: split_lines r
      else match split_lines r with
           | [] => [[c]]
           | l :: ls => (c :: l) :: ls
           end
  end.

(** Byte ranges of consecutive pieces that start at offset [o]. *)
Fixpoint ranges_from (o : nat) (ls : list text) : list (nat * nat) :=
  match ls with
  | [] => []
  | l :: r => (o, o + blen l) :: ranges_from (o + blen l) r
  end.

(** Byte ranges of the lines of a text. *)
Definition line_ranges (s : text) : list (nat * nat) := ranges_from 0 (split_lines s).
