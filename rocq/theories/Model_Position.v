(** Model of core/src/position.rs.

    A [Position<'i>] whose input is fixed is represented by its byte offset; the [input] field is
    the argument [s] (no method of position.rs changes it). Methods taking [&mut self] return the
    new offset. Positions with explicit input identity are modelled at the end for the functions
    that compare pointers. *)
From Coq Require Import List NArith Arith Bool.
From Verif Require Import Model_Text.
Import ListNotations.

(** core/src/position.rs L61-63 [Position::new]. *)
Definition position_new (s : text) (pos : nat) : option nat :=
  match get_from s pos with
  | Some _ => Some pos
  | None => None
  end.

(** core/src/position.rs L75-78 [Position::from_start]. *)
Definition from_start : nat := 0.

(** core/src/position.rs L156-184, the loop of [line_col]. [pos -= k] with [k > pos] is an
    arithmetic panic. *)
Fixpoint line_col_loop (cs : text) (pos line col : nat) {struct cs} : outcome (nat * nat) :=
  match pos with
  | 0 => Ret (line, col)
  | S _ =>
      match cs with
      | [] => Panic
      | c :: r =>
          if (c =? CR)%N then
            match r with
            | c' :: r' =>
                if (c' =? LF)%N then
                  if pos =? 1 then line_col_loop r' (pos - 1) (line + 1) 1
                  else line_col_loop r' (pos - 2) (line + 1) 1
                else line_col_loop r (pos - 1) line (col + 1)
            | [] => line_col_loop r (pos - 1) line (col + 1)
            end
          else if (c =? LF)%N then line_col_loop r (pos - 1) (line + 1) 1
          else if len_utf8 c <=? pos then line_col_loop r (pos - len_utf8 c) line (col + 1)
          else Panic
      end
  end.

(** core/src/position.rs L146-187 [Position::line_col]. *)
Definition line_col (s : text) (pos : nat) : outcome (nat * nat) :=
  if blen s <? pos then Panic
  else
    let! slice := or_panic (get_to s pos) in
    line_col_loop slice pos 1 1.

(** core/src/position.rs L213-228 [Position::find_line_start]. *)
Definition find_line_start (s : text) (pos : nat) : nat :=
  match s with
  | [] => 0
  | _ =>
      match find (fun ic => (snd ic =? LF)%N)
              (skip_while (fun ic => pos <=? fst ic) (rev (char_indices s))) with
      | Some (i, _) => i + 1
      | None => 0
      end
  end.

(** core/src/position.rs L230-247 [Position::find_line_end]. *)
Definition find_line_end (s : text) (pos : nat) : nat :=
  match s with
  | [] => 0
  | _ =>
      if pos =? blen s - 1 then blen s
      else
        match find (fun ic => (snd ic =? LF)%N)
                (skip_while (fun ic => fst ic <? pos) (char_indices s)) with
        | Some (i, _) => i + 1
        | None => blen s
        end
  end.

(** core/src/position.rs L205-211 [Position::line_of]. *)
Definition line_of (s : text) (pos : nat) : outcome text :=
  if blen s <? pos then Panic
  else or_panic (get_range s (find_line_start s pos) (find_line_end s pos)).

(** core/src/position.rs L251-253 [Position::at_start]. *)
Definition at_start (pos : nat) : bool := pos =? 0.

(** core/src/position.rs L257-259 [Position::at_end]. *)
Definition at_end (s : text) (pos : nat) : bool := pos =? blen s.

(** core/src/position.rs L266-276 and L289-299: take [n] characters from an iterator, summing
    their lengths; [None] is the early [return false]. *)
Fixpoint take_len (cs : text) (n : nat) (len : nat) : option nat :=
  match n with
  | 0 => Some len
  | S n' =>
      match cs with
      | c :: r => take_len r n' (len + len_utf8 c)
      | [] => None
      end
  end.

(** core/src/position.rs L264-281 [Position::skip]. *)
Definition skip (s : text) (pos n : nat) : outcome (bool * nat) :=
  let! rest := or_panic (get_from s pos) in
  match take_len rest n 0 with
  | Some len => Ret (true, pos + len)
  | None => Ret (false, pos)
  end.

(** core/src/position.rs L287-304 [Position::skip_back]. [self.pos -= skipped] with
    [skipped > pos] is an arithmetic panic. *)
Definition skip_back (s : text) (pos n : nat) : outcome (bool * nat) :=
  let! before := or_panic (get_to s pos) in
  match take_len (rev before) n 0 with
  | Some len => if len <=? pos then Ret (true, pos - len) else Panic
  | None => Ret (false, pos)
  end.

(** core/src/position.rs L373-379: does one of the strings match the bytes at this point? *)
Fixpoint any_prefix (bs : list byte) (strings : list text) : bool :=
  match strings with
  | [] => false
  | t :: r =>
      match bytes_get bs 0 (blen t) with
      | Some x => if bytes_eqb (bytes t) x then true else any_prefix bs r
      | None => any_prefix bs r
      end
  end.

(** core/src/position.rs L366-380: the loop [for from in self.pos..self.input.len()]; [count] is the
    number of remaining offsets. *)
Fixpoint skip_until_loop (s : text) (strings : list text) (from count : nat) : option nat :=
  match count with
  | 0 => None
  | S k =>
      match get_from s from with
      | Some rest =>
          if any_prefix (bytes rest) strings then Some from
          else skip_until_loop s strings (from + 1) k
      | None => skip_until_loop s strings (from + 1) k
      end
  end.

(** core/src/position.rs L364-384 [Position::skip_until_basic], which is [Position::skip_until]
    L310-314 because no manifest declares the [memchr] feature. *)
Definition skip_until (s : text) (pos : nat) (strings : list text) : bool * nat :=
  match skip_until_loop s strings pos (blen s - pos) with
  | Some from => (true, from)
  | None => (false, blen s)
  end.

(** core/src/position.rs L390-394 [Position::next_char]. *)
Definition next_char (s : text) (pos : nat) : outcome (option char * nat) :=
  let! rest := or_panic (get_from s pos) in
  match rest with
  | c :: _ => Ret (Some c, pos + len_utf8 c)
  | [] => Ret (None, pos + 0)
  end.

(** core/src/position.rs L401-403 [Position::match_char]. *)
Definition match_char (s : text) (pos : nat) (c : char) : outcome bool :=
  let! rest := or_panic (get_from s pos) in
  match rest with
  | cc :: _ => Ret (c =? cc)%N
  | [] => Ret false
  end.

(** core/src/position.rs L408-422 [Position::match_char_by]. *)
Definition match_char_by (s : text) (pos : nat) (f : char -> bool) : outcome (bool * nat) :=
  let! rest := or_panic (get_from s pos) in
  match rest with
  | c :: _ => if f c then Ret (true, pos + len_utf8 c) else Ret (false, pos)
  | [] => Ret (false, pos)
  end.

(** core/src/position.rs L427-436 [Position::match_string]: comparison of byte slices. *)
Definition match_string (s : text) (pos : nat) (str : text) : bool * nat :=
  let to := pos + blen str in
  match bytes_get (bytes s) pos to with
  | Some slice => if bytes_eqb (bytes str) slice then (true, to) else (false, pos)
  | None => (false, pos)
  end.

(** core/src/position.rs L441-457 [Position::match_insensitive]. *)
Definition match_insensitive (s : text) (pos : nat) (str : text) : outcome (bool * nat) :=
  let! slice := or_panic (get_from s pos) in
  let matched :=
    match get_range slice 0 (blen str) with
    | Some x => eq_ignore_ascii_case x str
    | None => false
    end in
  if matched then Ret (true, pos + blen str) else Ret (false, pos).

(** core/src/position.rs L462-471 [Position::match_range]. *)
Definition match_range (s : text) (pos : nat) (lo hi : char) : outcome (bool * nat) :=
  let! rest := or_panic (get_from s pos) in
  match rest with
  | c :: _ =>
      if ((lo <=? c) && (c <=? hi))%N then Ret (true, pos + len_utf8 c) else Ret (false, pos)
  | [] => Ret (false, pos)
  end.

(** ** Positions and spans with input identity *)

(** core/src/position.rs L30-36 [struct Position]; [p_addr] is the address of the input. *)
Record position := mkPosition { p_addr : N; p_input : text; p_pos : nat }.

(** core/src/span.rs L31-41 [struct Span]; [sp_addr] is the address of the input. *)
Record span := mkSpan { sp_addr : N; sp_input : text; sp_start : nat; sp_end : nat }.

(** [ptr::eq] on two [&str] (core/src/position.rs L115, L511, core/src/span.rs L304): address and
    byte length agree. *)
Definition str_ptr_eq (a1 : N) (s1 : text) (a2 : N) (s2 : text) : bool :=
  (a1 =? a2)%N && (blen s1 =? blen s2).

(** core/src/position.rs L114-124 [Position::span], with the debug assertion of
    [Span::new_unchecked] (core/src/span.rs L49-52) as a panic. *)
Definition position_span (p q : position) : outcome span :=
  if str_ptr_eq (p_addr p) (p_input p) (p_addr q) (p_input q) then
    match get_range (p_input p) (p_pos p) (p_pos q) with
    | Some _ => Ret (mkSpan (p_addr p) (p_input p) (p_pos p) (p_pos q))
    | None => Panic
    end
  else Panic.

(** core/src/position.rs L509-513 [PartialEq for Position]. *)
Definition position_eqb (p q : position) : bool :=
  str_ptr_eq (p_addr p) (p_input p) (p_addr q) (p_input q) && (p_pos p =? p_pos q).

(** core/src/position.rs L523-531 [Ord for Position]; L517-521 [partial_cmp] wraps it in [Some]. *)
Definition position_cmp (p q : position) : outcome comparison :=
  if text_eqb (p_input p) (p_input q) then Ret (Nat.compare (p_pos p) (p_pos q)) else Panic.

(** core/src/span.rs L302-306 [PartialEq for Span]. *)
Definition span_eqb (a b : span) : bool :=
  str_ptr_eq (sp_addr a) (sp_input a) (sp_addr b) (sp_input b)
  && (sp_start a =? sp_start b) && (sp_end a =? sp_end b).
