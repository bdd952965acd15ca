(** Model of string literals and numbers in grammar files: meta/src/parser.rs L693-704, L880-953. *)
From Coq Require Import String List NArith ZArith Arith Bool.
From Verif Require Import Model_Text.
Import ListNotations.
Open Scope list_scope.

(** [char::to_digit] (inside [from_str_radix] and [str::parse]; used at meta/src/parser.rs L694, L915,
    L938), for radix 10 and 16. *)
Definition to_digit (radix : N) (c : char) : option N :=
  let d :=
    (if (48 <=? c) && (c <=? 57) then Some (c - 48)
     else if (97 <=? c) && (c <=? 122) then Some (c - 87)
     else if (65 <=? c) && (c <=? 90) then Some (c - 55)
     else None)%N in
  match d with
  | Some d => if (d <? radix)%N then Some d else None
  | None => None
  end.

(** The loop of [from_str_radix] of the standard library: digits from the most significant one;
    exceeding [max] is an error. *)
Fixpoint digits_value (radix max : N) (s : text) (acc : N) : option N :=
  match s with
  | [] => Some acc
  | c :: r =>
      match to_digit radix c with
      | Some d =>
          let acc := (acc * radix + d)%N in
          if (acc <=? max)%N then digits_value radix max r acc else None
      | None => None
      end
  end.

(** [from_str_radix] for unsigned integers up to [max] (used at meta/src/parser.rs L915 for [u8], L938
    for [u32], and through [str::parse] at L694 for [usize]): a leading [+] is allowed. *)
Definition from_str_radix (radix max : N) (s : text) : option N :=
  match s with
  | [] => None
  | c :: r =>
      if (c =? 43)%N then match r with [] => None | _ => digits_value radix max r 0 end
      else digits_value radix max s 0
  end.

(** [usize::MAX] and [isize::MAX] on the 64-bit platforms assumed here ([mem::size_of] at
    meta/src/parser.rs L699). *)
Definition usize_max : N := (2 ^ 64 - 1)%N.
Definition isize_max : N := (2 ^ 63 - 1)%N.

(** [str::parse::<usize>()] (meta/src/parser.rs L694). *)
Definition parse_usize (s : text) : option N := from_str_radix 10 usize_max s.

(** [str::parse::<isize>()] (meta/src/parser.rs L694). *)
Definition parse_isize (s : text) : option Z :=
  match s with
  | [] => None
  | c :: r =>
      if (c =? 45)%N then
        match r with
        | [] => None
        | _ => option_map (fun n => (- Z.of_N n)%Z) (digits_value 10 (isize_max + 1) r 0)
        end
      else option_map Z.of_N (from_str_radix 10 isize_max s)
  end.

(** [char::from_u32] (meta/src/parser.rs L944). *)
Definition char_from_u32 (n : N) : option char := if is_scalar n then Some n else None.

(** [Iterator::take_while] (meta/src/parser.rs L928). *)
Fixpoint take_while (p : char -> bool) (s : text) : text :=
  match s with
  | [] => []
  | c :: r => if p c then c :: take_while p r else []
  end.

(** [n] calls of [chars.next()?] (meta/src/parser.rs L911-913, L934-936): [None] if the end is
    reached. *)
Fixpoint advance (n : nat) (s : text) : option text :=
  match n with
  | 0 => Some s
  | S k => match s with [] => None | _ :: r => advance k r end
  end.

(** meta/src/parser.rs L890-953 [unescape], the loop: [chars] is the iterator, [result] the text built
    so far. Each round consumes a character, so the length of the text is enough fuel. *)
Fixpoint unescape_loop (fuel : nat) (chars result : text) : outcome (option text) :=
  match fuel with
  | 0 => OutOfFuel
  | S k =>
      match chars with
      | [] => Ret (Some result)
      | c :: chars =>
          if (c =? 92)%N then
            match chars with
            | [] => Ret None
            | e :: chars =>
                if (e =? 34)%N then unescape_loop k chars (result ++ [34%N])
                else if (e =? 92)%N then unescape_loop k chars (result ++ [92%N])
                else if (e =? 114)%N then unescape_loop k chars (result ++ [13%N])
                else if (e =? 110)%N then unescape_loop k chars (result ++ [10%N])
                else if (e =? 116)%N then unescape_loop k chars (result ++ [9%N])
                else if (e =? 48)%N then unescape_loop k chars (result ++ [0%N])
                else if (e =? 39)%N then unescape_loop k chars (result ++ [39%N])
                else if (e =? 120)%N then
                  let string := firstn 2 chars in
                  if negb (blen string =? 2) then Ret None
                  else
                    match advance (blen string) chars with
                    | None => Ret None
                    | Some chars =>
                        match from_str_radix 16 255 string with
                        | None => Ret None
                        | Some value =>
                            if (0x7f <? value)%N then Ret None
                            else unescape_loop k chars (result ++ [value])
                        end
                    end
                else if (e =? 117)%N then
                  match chars with
                  | [] => Ret None
                  | b :: chars =>
                      if negb (b =? 123)%N then Ret None
                      else
                        let string := take_while (fun c => negb (c =? 125)%N) chars in
                        if (match string with [] => true | _ => false end) || (6 <? blen string) then Ret None
                        else
                          match advance (blen string + 1) chars with
                          | None => Ret None
                          | Some chars =>
                              match from_str_radix 16 (2 ^ 32 - 1) string with
                              | None => Ret None
                              | Some value =>
                                  if (0x10ffff <? value)%N then Ret None
                                  else
                                    match char_from_u32 value with
                                    | None => Ret None
                                    | Some c => unescape_loop k chars (result ++ [c])
                                    end
                              end
                          end
                  end
                else Ret None
            end
          else if (c =? 34)%N then unescape_loop k chars result
          else unescape_loop k chars (result ++ [c])
      end
  end.
Definition unescape (string : text) : outcome (option text) :=
  unescape_loop (S (length string)) string [].
