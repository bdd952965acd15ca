(** What the display of spans and positions must look like. *)
From Coq Require Import String List NArith Arith Bool.
From Verif Require Import Model_Text Spec_Text Spec_Message.
Import ListNotations.
Open Scope list_scope.

(** Control characters: C0 and DEL. *)
Definition is_control (c : char) : Prop := (c < 32 \/ c = 127)%N.

(** The visible form of a character: the Unicode block "Control Pictures" has the picture of the
    C0 character [c] at U+2400 + [c] and that of DEL at U+2421. *)
Definition visible_char (c v : char) : Prop :=
  ((c < 32 /\ v = 0x2400 + c) \/ (c = 127 /\ v = 0x2421) \/ (~ is_control c /\ v = c))%N.
Definition visible (t v : text) : Prop := Forall2 visible_char t v.

(** [num] writes every number in decimal. *)
Definition numbering (num : nat -> text) : Prop := forall n, notation (num n) (N.of_nat n).

Definition blanks (n : nat) : text := repeat 32%N n.

Section Rows.
(** How covered text, markers, and numbers and bars are written; how wide a text is; how numbers
    are written. *)
Variables covered marker number : text -> text.
Variable width : text -> nat.
Variable num : nat -> text.

(** A row without a line number; [w] is the width of the number column. *)
Definition plain_row (w : nat) (t : text) : text := blanks w ++ lit " " ++ number (lit "|") ++ t ++ [LF].
(** A row for line [n]. *)
Definition line_row (w n : nat) (t : text) : text :=
  number (blanks (w - length (num n)) ++ num n) ++ lit " " ++ number (lit "|") ++ lit " " ++ t ++ [LF].

(** A snippet of one line [n], in which [m] between [f] and [g] is covered. *)
Definition one_line (n : nat) (f m g : text) : text :=
  let w := length (num n) in
  plain_row w [] ++
  line_row w n (f ++ covered m ++ g) ++
  plain_row w (lit " " ++ blanks (width f) ++ marker (repeat 94%N (width m))).

(** The entries shown for the lines [ms] numbered from [n]: all of them if there are at most three,
    otherwise the first, an ellipsis and the last. *)
Fixpoint numbered (n : nat) (ms : list text) : list (option (nat * text)) :=
  match ms with [] => [] | l :: r => Some (n, l) :: numbered (S n) r end.
Definition inner_entries (n : nat) (ms : list text) : list (option (nat * text)) :=
  if length ms <=? 3 then numbered n ms
  else [Some (n, hd [] ms); None; Some (n + length ms - 1, last ms [])].
Definition entry_row (w : nat) (e : option (nat * text)) : text :=
  match e with Some (n, t) => line_row w n (covered t) | None => plain_row w (lit " ...") end.

(** A snippet from line [n], where [g1] is covered, over the fully covered lines [ms], to the line
    after them, where [f2] is covered. *)
Definition many_lines (n : nat) (f1 g1 : text) (ms : list text) (f2 g2 : text) : text :=
  let w := length (num (n + length ms + 1)) in
  plain_row w (lit " " ++ blanks (width f1) ++ marker (lit "v")) ++
  line_row w n (f1 ++ covered g1) ++
  flat_map (entry_row w) (inner_entries (n + 1) ms) ++
  line_row w (n + length ms + 1) (covered f2 ++ g2) ++
  plain_row w (lit " " ++ blanks (width f2 - 1) ++ marker (lit "^")).

(** A snippet of one line [n] with a marker between [f] and [g]. *)
Definition point (n : nat) (f g : text) : text :=
  let w := length (num n) in
  plain_row w [] ++ line_row w n (f ++ g) ++
  plain_row w (lit " " ++ blanks (width f) ++ marker (lit "^")).
End Rows.
