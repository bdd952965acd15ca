(** Texts, UTF-8 and outcomes: the parts of Rust's [char] and [str] that /repo relies on.

    These are standard-library notions rather than /repo code; the citations name the
    places in /repo where each one is used. *)
From Coq Require Import Ascii String List NArith Arith Bool.
Import ListNotations.
Open Scope list_scope.

(** A computation that may panic or (for fuelled functions) run out of fuel.
    Models: panics in /repo, e.g. core/src/position.rs L122, L148, L182, slice indexing
    [&self.input[self.pos..]] L268, [unwrap] core/src/typed/tracker.rs L190. *)
Inductive outcome (A : Type) : Type :=
| Ret (a : A)
| Panic
| OutOfFuel.
Arguments Ret {A} a.
Arguments Panic {A}.
Arguments OutOfFuel {A}.

(** Sequencing of outcomes (Rust: straight-line code; a panic aborts the rest).
    Used to model every function body of core/src/typed/template/mod.rs L40-L1091. *)
Definition obind {A B : Type} (o : outcome A) (f : A -> outcome B) : outcome B :=
  match o with
  | Ret a => f a
  | Panic => Panic
  | OutOfFuel => OutOfFuel
  end.
Notation "'let!' x ':=' o 'in' k" := (obind o (fun x => k))
  (at level 200, x pattern, o at level 100, k at level 200, right associativity).

(** [Option::unwrap] and slice indexing: [None] is a panic.
    Models: [.unwrap()] core/src/typed/template/mod.rs L198, [&self.input[..pos]]
    core/src/position.rs L151. *)
Definition or_panic {A : Type} (o : option A) : outcome A :=
  match o with Some a => Ret a | None => Panic end.

(** Rust [char]: a Unicode scalar value, represented by its code point (core/src/position.rs L408). *)
Definition char := N.
(** Rust [&str] (core/src/position.rs L31): the list of its characters. Simplification: the byte
    representation is derived by [bytes] instead of being primitive. *)
Definition text := list char.
(** Rust [u8], as seen through [as_bytes()] (core/src/position.rs L430). *)
Definition byte := N.

(** The set of values a Rust [char] can take (used by every [char] in core/src/position.rs). *)
Definition is_scalar (c : char) : bool :=
  ((c <? 0xD800) || ((0xDFFF <? c) && (c <=? 0x10FFFF)))%N.

(** Every character of the text is a scalar value: Rust's validity invariant of [str]
    (core/src/position.rs L31). *)
Definition valid_text (s : text) : Prop := Forall (fun c => is_scalar c = true) s.

(** [char::len_utf8] (used at core/src/position.rs L179, L271, L294, L392, L414, L465). *)
Definition len_utf8 (c : char) : nat :=
  if (c <? 0x80)%N then 1
  else if (c <? 0x800)%N then 2
  else if (c <? 0x10000)%N then 3
  else 4.

(** [char::encode_utf8] (used at core/src/typed/template/mod.rs L238, L250) and the byte
    representation behind [str::as_bytes] (core/src/position.rs L430). *)
Definition encode_utf8 (c : char) : list byte :=
  (if c <? 0x80 then [c]
   else if c <? 0x800 then [0xC0 + c / 0x40; 0x80 + c mod 0x40]
   else if c <? 0x10000 then
     [0xE0 + c / 0x1000; 0x80 + (c / 0x40) mod 0x40; 0x80 + c mod 0x40]
   else
     [0xF0 + c / 0x40000; 0x80 + (c / 0x1000) mod 0x40;
      0x80 + (c / 0x40) mod 0x40; 0x80 + c mod 0x40])%N.

(** [str::as_bytes] (used at core/src/position.rs L368, L375, L430). *)
Definition bytes (s : text) : list byte := flat_map encode_utf8 s.

(** [str::len], the length in bytes (used at core/src/position.rs L147, L258, L366, L428). *)
Fixpoint blen (s : text) : nat :=
  match s with
  | [] => 0
  | c :: r => len_utf8 c + blen r
  end.

(** [str::get(n..)] (used at core/src/position.rs L62, L367): the suffix from byte offset [n], if
    [n] is a character boundary. *)
Fixpoint get_from (s : text) (n : nat) {struct s} : option text :=
  match n with
  | 0 => Some s
  | _ =>
      match s with
      | [] => None
      | c :: r => if len_utf8 c <=? n then get_from r (n - len_utf8 c) else None
      end
  end.

(** [str::get(..n)] (used at core/src/position.rs L151, L291, L444): the prefix up to byte offset
    [n], if [n] is a character boundary. *)
Fixpoint get_to (s : text) (n : nat) {struct s} : option text :=
  match n with
  | 0 => Some []
  | _ =>
      match s with
      | [] => None
      | c :: r =>
          if len_utf8 c <=? n then
            match get_to r (n - len_utf8 c) with
            | Some p => Some (c :: p)
            | None => None
            end
          else None
      end
  end.

(** [str::get(a..b)] (used at core/src/span.rs L50, L66, L97). *)
Definition get_range (s : text) (a b : nat) : option text :=
  if a <=? b then
    match get_from s a with
    | Some r => get_to r (b - a)
    | None => None
    end
  else None.

(** [<[u8]>::get(a..b)] (used at core/src/position.rs L375, L430). *)
Definition bytes_get (bs : list byte) (a b : nat) : option (list byte) :=
  if (a <=? b) && (b <=? length bs) then Some (firstn (b - a) (skipn a bs)) else None.

(** Equality of byte slices (used at core/src/position.rs L375, L430). *)
Fixpoint bytes_eqb (x y : list byte) : bool :=
  match x, y with
  | [], [] => true
  | a :: x', b :: y' => (a =? b)%N && bytes_eqb x' y'
  | _, _ => false
  end.

(** Equality of strings (used at core/src/position.rs L525). *)
Fixpoint text_eqb (x y : text) : bool :=
  match x, y with
  | [], [] => true
  | a :: x', b :: y' => (a =? b)%N && text_eqb x' y'
  | _, _ => false
  end.

(** [u8::to_ascii_lowercase], through which [str::eq_ignore_ascii_case] compares
    (used at core/src/position.rs L445). *)
Definition byte_lower (b : byte) : byte :=
  (if (65 <=? b) && (b <=? 90) then b + 32 else b)%N.

(** [str::eq_ignore_ascii_case] (used at core/src/position.rs L445): bytewise comparison. *)
Definition eq_ignore_ascii_case (x y : text) : bool :=
  bytes_eqb (map byte_lower (bytes x)) (map byte_lower (bytes y)).

(** [str::char_indices] (used at core/src/position.rs L220, L239), from offset [o]. *)
Fixpoint char_indices_from (o : nat) (s : text) : list (nat * char) :=
  match s with
  | [] => []
  | c :: r => (o, c) :: char_indices_from (o + len_utf8 c) r
  end.
Definition char_indices (s : text) : list (nat * char) := char_indices_from 0 s.

(** [Iterator::skip_while] (used at core/src/position.rs L222, L240). *)
Fixpoint skip_while {A : Type} (p : A -> bool) (l : list A) : list A :=
  match l with
  | [] => []
  | x :: r => if p x then skip_while p r else l
  end.

(** The characters CR and LF written ['\r'], ['\n'] in core/src/position.rs L158-L174. *)
Definition CR : char := 13%N.
Definition LF : char := 10%N.

(** ASCII string literals, such as ["\r\n"] in core/src/position.rs L346. *)
Definition lit (s : string) : text := map N_of_ascii (list_ascii_of_string s).
