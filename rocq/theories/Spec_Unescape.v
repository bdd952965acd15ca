(** The meaning of string literals in grammar files (meta/src/grammar.pest: inner_str, escape). *)
From Coq Require Import String List NArith Arith Bool.
From Verif Require Import Model_Text.
Import ListNotations.
Open Scope list_scope.

(** Hexadecimal digits and numbers. *)
Definition hex_digit (c : char) (d : N) : Prop :=
  ((48 <= c <= 57 /\ d = c - 48) \/ (97 <= c <= 102 /\ d = c - 97 + 10) \/
   (65 <= c <= 70 /\ d = c - 65 + 10))%N.
Inductive hex : text -> N -> Prop :=
| Hex_one c d : hex_digit c d -> hex [c] d
| Hex_more t n c d : hex t n -> hex_digit c d -> hex (t ++ [c]) (16 * n + d).
(** The same with a plus sign allowed in front. *)
Definition plus_hex (t : text) (n : N) : Prop := hex t n \/ exists u, t = 43%N :: u /\ hex u n.

(** Escapes of one letter: quote, backslash, apostrophe, r, n, t, 0. *)
Inductive letter_escape : char -> char -> Prop :=
| L_quote : letter_escape 34%N 34%N
| L_backslash : letter_escape 92%N 92%N
| L_apostrophe : letter_escape 39%N 39%N
| L_return : letter_escape 114%N 13%N
| L_newline : letter_escape 110%N 10%N
| L_tab : letter_escape 116%N 9%N
| L_nul : letter_escape 48%N 0%N.

(** An escape and the character it denotes, where [code] says how numbers are written:
    backslash letter, backslash x and two digits of an ASCII code, backslash u and up to six digits
    of a Unicode scalar value in braces. *)
Inductive escape (code : text -> N -> Prop) : text -> char -> Prop :=
| E_letter e c : letter_escape e c -> escape code [92%N; e] c
| E_byte h1 h2 n : code [h1; h2] n -> (n <= 127)%N -> escape code [92; 120; h1; h2]%N n
| E_unicode t n : code t n -> length t <= 6 -> is_scalar n = true ->
    escape code ([92; 117; 123]%N ++ t ++ [125]%N) n.

(** The documented meaning: escapes denote characters, other characters except the quote denote
    themselves. *)
Inductive documented : text -> text -> Prop :=
| D_nil : documented [] []
| D_plain c s r : c <> 92%N -> c <> 34%N -> documented s r -> documented (c :: s) (c :: r)
| D_escape e c s r : escape hex e c -> documented s r -> documented (e ++ s) (c :: r).

(** What is accepted in fact: quotes are dropped, and a plus sign is tolerated in front of digits. *)
Inductive tolerated : text -> text -> Prop :=
| T_nil : tolerated [] []
| T_plain c s r : c <> 92%N -> c <> 34%N -> tolerated s r -> tolerated (c :: s) (c :: r)
| T_quote s r : tolerated s r -> tolerated (34%N :: s) r
| T_escape e c s r : escape plus_hex e c -> tolerated s r -> tolerated (e ++ s) (c :: r).

(** The contents of string literals according to the grammar of grammar files (rules inner_str,
    escape, code, unicode). *)
Definition is_hex (c : char) : Prop := exists d, hex_digit c d.
Inductive escape_syntax : text -> Prop :=
| ES_letter e c : letter_escape e c -> escape_syntax [92%N; e]
| ES_byte h1 h2 : is_hex h1 -> is_hex h2 -> escape_syntax [92; 120; h1; h2]%N
| ES_unicode t : 1 <= length t <= 6 -> Forall is_hex t -> escape_syntax ([92; 117; 123]%N ++ t ++ [125]%N).
Inductive inner_str : text -> Prop :=
| IS_nil : inner_str []
| IS_plain c s : c <> 92%N -> c <> 34%N -> inner_str s -> inner_str (c :: s)
| IS_escape e s : escape_syntax e -> inner_str s -> inner_str (e ++ s).
