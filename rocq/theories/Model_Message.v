(** Model of the error message: core/src/typed/tracker.rs L32-43, L216-296. *)
From Coq Require Import String List NArith ZArith Arith Bool.
From Verif Require Import Model_Text Model_Position Model_Tracker Model_Pairs.
Import ListNotations.
Open Scope list_scope.

(** [Display] of unsigned integers (used by [format!] at core/src/typed/tracker.rs L221, L282 and
    core/src/formatter.rs L173): decimal digits. [digits k n acc] prepends the digits of [n] to
    [acc]; [k] bounds their number. *)
Fixpoint digits (k : nat) (n : N) (acc : text) : text :=
  match k with
  | 0 => acc
  | S k' =>
      let acc := (48 + n mod 10)%N :: acc in
      if (n / 10 =? 0)%N then acc else digits k' (n / 10)%N acc
  end.
Definition decimal_N (n : N) : text := digits (S (N.to_nat (N.log2 n))) n [].
Definition decimal (n : nat) : text := decimal_N (N.of_nat n).
(** [Display] of signed integers (used at core/src/typed/tracker.rs L36-37). *)
Definition decimal_Z (z : Z) : text :=
  if (z <? 0)%Z then lit "-" ++ decimal_N (Z.abs_N z) else decimal_N (Z.abs_N z).

(** [str::repeat] of a blank (core/src/typed/tracker.rs L222). *)
Definition spaces (n : nat) : text := repeat 32%N n.

(** core/src/typed/tracker.rs L32-43 [SpecialError::to_string]. *)
Definition special_text (e : special_error) : text :=
  match e with
  | SliceOutOfBound start (Some stop) =>
      lit "Peek slice " ++ decimal_Z start ++ lit ".." ++ decimal_Z stop ++ lit " out of bound."
  | SliceOutOfBound start None => lit "Peek slice " ++ decimal_Z start ++ lit ".. out of bound."
  | RepeatTooManyTimes => lit "Repeated too many times."
  | EmptyStack => lit "Nothing to pop or drop."
  end.

(** [Vec::sort] (core/src/typed/tracker.rs L239, L241): any sorting algorithm gives the same list,
    because rules that compare equal are equal. *)
Fixpoint insert (r : rule) (l : list rule) : list rule :=
  match l with
  | [] => [r]
  | x :: l' => if (r <=? x)%N then r :: l else x :: insert r l'
  end.
Definition sort (l : list rule) : list rule := fold_right insert [] l.

(** [Vec::dedup] (core/src/typed/tracker.rs L240, L242): drop elements equal to their predecessor. *)
Fixpoint dedup (l : list rule) : list rule :=
  match l with
  | x :: l' =>
      match l' with
      | y :: _ => if (x =? y)%N then dedup l' else x :: dedup l'
      | [] => [x]
      end
  | [] => []
  end.

Section Message.
(** The derived [Debug] of the generated rule type. *)
Variable debug : rule -> text.

(** core/src/typed/tracker.rs L243-245 [collect_rules]: [Debug] of a vector. *)
Definition collect_rules (l : list rule) : text :=
  lit "[" ++ comma_separated (map debug l) ++ lit "]".

(** core/src/typed/tracker.rs L237-270 [write_message]. *)
Definition write_message (spacing : text) (entry : option rule * tracked) : text :=
  let '(rule, (positives, negatives, special)) := entry in
  let positives := dedup (sort positives) in
  let negatives := dedup (sort negatives) in
  spacing ++
  match positives, negatives with
  | [], [] => lit "Unknown error (no rule tracked)"
  | _ :: _, [] => lit "Expected " ++ collect_rules positives
  | [], _ :: _ => lit "Unexpected " ++ collect_rules negatives
  | _ :: _, _ :: _ =>
      lit "Unexpected " ++ collect_rules negatives ++ lit ", expected " ++ collect_rules positives
  end ++
  match rule with Some upper_rule => lit ", by " ++ debug upper_rule | None => [] end ++
  lit "." ++
  flat_map (fun special =>
    spacing ++ special_text special ++
    match rule with Some upper_rule => lit " (By " ++ debug upper_rule ++ lit ")" | None => [] end)
    special.

(** core/src/typed/tracker.rs L216-275 [collect_to_message], on the input [s]. *)
Definition collect_to_message (s : text) (t : tracker) : outcome text :=
  let (pos, attempts) := finish t in
  let! (line, col) := line_col s pos in
  let spacing := blen (decimal line) + 3 in
  let spacing := LF :: spaces spacing in
  let! line_string := line_of s pos in
  let line_remained_index :=
    match nth_error (char_indices line_string) (col - 1) with
    | Some (i, _) => i
    | None => blen line_string
    end in
  let! line_matched := or_panic (get_to line_string line_remained_index) in
  Ret (line_matched ++ lit "^---" ++ flat_map (write_message spacing) attempts).

(** core/src/typed/tracker.rs L277-296 [collect]: the position and the message given to
    [Error::new_from_pos] (external). The conversion of the position at L292 is
    core/src/position.rs L480-484, whose [unwrap] is a panic off a character boundary. *)
Definition collect (s : text) (t : tracker) : outcome (nat * text) :=
  match position_new s (tk_position t) with
  | Some pos =>
      let! message := collect_to_message s t in
      let! pos := or_panic (position_new s pos) in
      Ret (pos, message)
  | None =>
      Ret (from_start,
           lit "Internal error (invalid character index " ++ decimal (tk_position t) ++ lit ").")
  end.
End Message.
