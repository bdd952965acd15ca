(** Model of the node types of core/src/typed/template, core/src/sequence.rs, core/src/choice.rs,
    core/src/typed/traits.rs and core/src/lib.rs, with their two entry points
    [check_with_partial] ([check]) and [try_parse_with_partial] ([try_parse]).

    Types are data: [node] has one constructor per generic type of the library, and its parameters
    are the type and const parameters. The mutually recursive trait implementations become two
    functions that recurse on a fuel argument; running out of fuel is [OutOfFuel], a panic is
    [Panic]. *)
From Coq Require Import List NArith ZArith Arith Bool.
From Verif Require Import Model_Text Model_Position Model_Span Model_Stack Model_Tracker.
Import ListNotations.

(** Node types. [N] stands for a [usize] const parameter, [Z] for an [isize] one. *)
Inductive node : Type :=
| Str (content : text)                       (* core/src/typed/template/mod.rs L31 *)
| Insens (content : text)                    (* mod.rs L82 *)
| SkipChar (n : nat)                         (* mod.rs L138 *)
| CharRange (lo hi : char)                   (* mod.rs L183 *)
| Char (c : char)                            (* mod.rs L229 *)
| Positive (t : node)                        (* mod.rs L334 *)
| Negative (t : node)                        (* mod.rs L402 *)
| Any                                        (* mod.rs L464 *)
| NONE                                       (* mod.rs L502 *)
| Empty                                      (* mod.rs L525 *)
| Soi                                        (* mod.rs L557 *)
| Eoi                                        (* mod.rs L591 *)
| Newline                                    (* mod.rs L635 *)
| PeekAll                                    (* mod.rs L681 *)
| Peek                                       (* mod.rs L718 *)
| Drop                                       (* mod.rs L776 *)
| Pop                                        (* mod.rs L812 *)
| PopAll                                     (* mod.rs L868 *)
| Push (t : node)                            (* mod.rs L909 *)
| PeekSlice2 (start stop : Z)                (* mod.rs L969 *)
| PeekSlice1 (start : Z)                     (* mod.rs L998 *)
| RepMinMax (t trivia : node) (min max : N)  (* repetition.rs L41 *)
| Opt (t : node)                             (* core/src/typed/traits.rs L222, Option<T> *)
| Seq (fields : list (node * node))          (* core/src/sequence.rs L21; (type, trivia) pairs *)
| Choice (variants : list node)              (* core/src/choice.rs L18 *)
| Property (p : N)                           (* core/src/lib.rs L37; the property number p *)
| Rule (r : rule) (args : list node).        (* a struct made by full_rule_struct!, traits.rs L132 *)

(** [usize::MAX] on a 64-bit target. *)
Definition usize_max : N := 18446744073709551615%N.

(** core/src/typed/template/repetition.rs L215 [RepMin]. *)
Definition RepMin (t trivia : node) (min : N) : node := RepMinMax t trivia min usize_max.
(** core/src/typed/template/repetition.rs L217 [RepMax]. *)
Definition RepMax (t trivia : node) (max : N) : node := RepMinMax t trivia 0 max.
(** core/src/typed/template/repetition.rs L219 [Rep]. *)
Definition Rep (t trivia : node) : node := RepMin t trivia 0.
(** core/src/typed/template/repetition.rs L221 [RepOnce]. *)
Definition RepOnce (t trivia : node) : node := RepMin t trivia 1.

(** core/src/typed/template/mod.rs L1025 [ascii_digit]. *)
Definition ascii_digit : node := CharRange 48%N 57%N.
(** core/src/typed/template/mod.rs L1029 [ascii_nonzero_digit]. *)
Definition ascii_nonzero_digit : node := CharRange 49%N 57%N.
(** core/src/typed/template/mod.rs L1033 [ascii_bin_digit]. *)
Definition ascii_bin_digit : node := CharRange 48%N 49%N.
(** core/src/typed/template/mod.rs L1037 [ascii_oct_digit]. *)
Definition ascii_oct_digit : node := CharRange 48%N 55%N.
(** core/src/typed/template/mod.rs L1042 [ascii_hex_digit]. *)
Definition ascii_hex_digit : node := Choice [ascii_digit; CharRange 97%N 102%N; CharRange 65%N 70%N].
(** core/src/typed/template/mod.rs L1046 [ascii_alpha_lower]. *)
Definition ascii_alpha_lower : node := CharRange 97%N 122%N.
(** core/src/typed/template/mod.rs L1050 [ascii_alpha_upper]. *)
Definition ascii_alpha_upper : node := CharRange 65%N 90%N.
(** core/src/typed/template/mod.rs L1054 [ascii_alpha]. *)
Definition ascii_alpha : node := Choice [ascii_alpha_lower; ascii_alpha_upper].
(** core/src/typed/template/mod.rs L1058 [ascii_alphanumeric]. *)
Definition ascii_alphanumeric : node := Choice [ascii_alpha; ascii_digit].
(** core/src/typed/template/mod.rs L1062 [ascii]. *)
Definition ascii : node := CharRange 0%N 127%N.

(** core/src/typed/template/mod.rs L622-629 [NewLineType]. *)
Inductive newline_type := NL_CRLF | NL_LF | NL_CR.

(** Values of the node types. The constructors follow the fields of the structs; a type without
    fields has the value [VUnit]. *)
Inductive value : Type :=
| VUnit                                      (* Str, Char, Negative, Empty, soi, eoi, drop, PeekSlice1/2 *)
| VInsens (content : text)                   (* core/src/typed/template/mod.rs L82-86 *)
| VSpan (sp : span)                          (* SkipChar, peek_all, peek, pop, pop_all *)
| VChar (content : char)                     (* CharRange, any, unicode properties *)
| VPositive (content : value)                (* mod.rs L334 *)
| VNewline (content : newline_type)          (* mod.rs L635 *)
| VPush (content : value)                    (* mod.rs L909 *)
| VRep (content : list value)                (* repetition.rs L41 *)
| VOpt (content : option value)              (* Option<T> *)
| VSeq (fields : list value)                 (* core/src/sequence.rs L21 *)
| VChoice (variant : nat) (content : value)  (* core/src/choice.rs L18 *)
| VRule (r : rule) (content : value) (sp : span). (* generator/src/typed/generator.rs L263-268 *)

(** The parser state threaded through all functions: [stack: &mut Stack] and
    [tracker: &mut Tracker] (core/src/typed/traits.rs L17-21). *)
Record state := mkState { st_stack : stack span; st_tracker : tracker }.

(** [Option<A>] results with the state; [Option]'s [?] operator is [bind]. *)
Definition res (A : Type) : Type := outcome (option A * state).
Definition bind {A B : Type} (m : res A) (k : A -> state -> res B) : res B :=
  match m with
  | Ret (Some a, st) => k a st
  | Ret (None, st) => Ret (None, st)
  | Panic => Panic
  | OutOfFuel => OutOfFuel
  end.

(** Applying stack and tracker methods to the state. *)
Definition on_stack (f : stack span -> stack span) (st : state) : state :=
  mkState (f (st_stack st)) (st_tracker st).
Definition on_tracker (f : tracker -> tracker) (st : state) : state :=
  mkState (st_stack st) (f (st_tracker st)).

(** One generated rule: is it silent, and the type of its content for given type arguments
    (generator/src/typed/generator.rs L150-281). Instantiating the generics is Rust's business, so
    the body is a function of the arguments. *)
Record rule_def := mkRule { rd_silent : bool; rd_body : list node -> node }.

(** core/src/typed/template/mod.rs L263-273 [constrain_idx]. *)
Definition constrain_idx (index : Z) (len : nat) : option nat :=
  (if index >? Z.of_nat len then None
   else if index >=? 0 then Some (Z.to_nat index)
   else if index >=? - Z.of_nat len then Some (Z.to_nat (index + Z.of_nat len))
   else None)%Z.

(** core/src/typed/template/mod.rs L275-285 [constrain_idxs]. *)
Definition constrain_idxs (start : Z) (stop : option Z) (len : nat) : option (nat * nat) :=
  let start := constrain_idx start len in
  let stop := match stop with
              | Some stop => constrain_idx stop len
              | None => Some len
              end in
  match start, stop with
  | Some start, Some stop => Some (start, stop)
  | _, _ => None
  end.

Section Interpreter.
(** The input text (with its address, see Model_Position.v), the generated rules and the table of
    Unicode properties [pest2::unicode] (external). *)
Variable addr : N.
Variable s : text.
Variable env : rule -> rule_def.
Variable property : N -> char -> bool.

(** core/src/position.rs L114-124 [Position::span] for two positions of the input. *)
Definition span_between (p q : nat) : outcome span :=
  position_span (mkPosition addr s p) (mkPosition addr s q).

(** core/src/typed/template/mod.rs L1067-1077 [match_char_by]. *)
Definition template_match_char_by (pos : nat) (pred : char -> bool) : outcome (option char * nat) :=
  let! rest := or_panic (get_from s pos) in
  let! r := match_char_by s pos pred in
  Ret (match rest with
       | c :: _ => if pred c then Some c else None
       | [] => None
       end, snd r).

(** core/src/typed/template/mod.rs L289-308 [stack_slice]. *)
Definition stack_slice (pos : nat) (start : Z) (stop : option Z) (st : state) : res (list span) :=
  match constrain_idxs start stop (stack_len (st_stack st)) with
  | Some (lo, hi) =>
      if hi <=? lo then Ret (Some [], st)
      else
        let! l := stack_index (st_stack st) lo hi in
        Ret (Some l, st)
  | None => Ret (None, on_tracker (out_of_bound pos start stop) st)
  end.

(** core/src/typed/template/mod.rs L319-326: the loop of [peek_spans]. *)
Fixpoint match_spans (pos : nat) (spans : list span) : outcome (option nat) :=
  match spans with
  | [] => Ret (Some pos)
  | sp :: r =>
      let! t := as_str sp in
      match match_string s pos t with
      | (true, pos') => match_spans pos' r
      | (false, _) => Ret None
      end
  end.

(** core/src/typed/template/mod.rs L313-328 [peek_spans]. *)
Definition peek_spans (pos : nat) (spans : list span) (st : state) : res (nat * span) :=
  let! r := match_spans pos spans in
  match r with
  | Some pos' => let! sp := span_between pos pos' in Ret (Some (pos', sp), st)
  | None => Ret (None, st)
  end.

(** core/src/typed/template/mod.rs L1080-1091 [restore_on_none]. *)
Definition restore_on_none {A : Type} (f : state -> res A) (st : state) : res A :=
  match f (on_stack stack_snapshot st) with
  | Ret (Some a, st') => Ret (Some a, on_stack stack_clear_snapshot st')
  | Ret (None, st') => Ret (None, on_stack stack_restore st')
  | Panic => Panic
  | OutOfFuel => OutOfFuel
  end.

(** core/src/typed/tracker.rs L178-195 [record_option_during_with]; L198-215 forward to it. *)
Definition record_option_during_with {A : Type} (pos : nat) (f : state -> res A) (r : rule)
  (st : state) : res A :=
  let! o := f (on_tracker (enter_rule r pos) st) in
  let (x, st') := o in
  let succeeded := match x with Some _ => true | None => false end in
  let! t := leave_rule r pos succeeded (st_tracker st') in
  Ret (x, mkState (st_stack st') t).

(** core/src/typed/tracker.rs L79-93 [positive_during] and [negative_during]. *)
Definition during {A : Type} (positive : bool) (f : state -> res A) (st : state) : res A :=
  let original := tk_positive (st_tracker st) in
  let! o := f (on_tracker (set_positive positive) st) in
  let (x, st') := o in
  Ret (x, on_tracker (set_positive original) st').

(** A [bool] result that moved the position, as an optional position: the pattern
    [if input.match_...(..) { Some(input) } else { None }]. *)
Definition moved (r : bool * nat) (st : state) : res nat :=
  let (b, pos') := r in
  if b then Ret (Some pos', st) else Ret (None, st).

(** ** [check_with_partial] *)

(** core/src/sequence.rs L75-84; [first] is [i <= 1]. *)
Fixpoint check_seq (chk : node -> nat -> state -> res nat) (first : bool)
  (fields : list (node * node)) (pos : nat) (st : state) : res nat :=
  match fields with
  | [] => Ret (Some pos, st)
  | (t, trivia) :: r =>
      bind (if first then Ret (Some pos, st) else chk trivia pos st) (fun pos st =>
      bind (chk t pos st) (fun pos st =>
      check_seq chk false r pos st))
  end.

(** core/src/choice.rs L59-71. *)
Fixpoint check_choice (chk : node -> nat -> state -> res nat) (variants : list node)
  (pos : nat) (st : state) : res nat :=
  match variants with
  | [] => Ret (None, st)
  | t :: r =>
      match chk t pos (on_stack stack_snapshot st) with
      | Ret (Some pos', st') => Ret (Some pos', on_stack stack_clear_snapshot st')
      | Ret (None, st') => check_choice chk r pos (on_stack stack_restore st')
      | Panic => Panic
      | OutOfFuel => OutOfFuel
      end
  end.

(** core/src/typed/template/repetition.rs L239-251 [check_unit]. *)
Definition check_unit (chk : node -> nat -> state -> res nat) (t trivia : node) (i : N)
  (pos : nat) (st : state) : res nat :=
  bind (if (0 <? i)%N then chk trivia pos st else Ret (Some pos, st)) (fun pos st =>
  chk t pos st).

(** core/src/typed/template/repetition.rs L145-162: the loop [for i in 0..MAX]. *)
Fixpoint check_rep (fuel : nat) (chk : node -> nat -> state -> res nat) (t trivia : node)
  (min max i : N) (pos : nat) (st : state) : res nat :=
  if (i <? max)%N then
    match fuel with
    | 0 => OutOfFuel
    | S k =>
        match restore_on_none (check_unit chk t trivia i pos) st with
        | Ret (Some next, st') => check_rep k chk t trivia min max (i + 1) next st'
        | Ret (None, st') => if (i <? min)%N then Ret (None, st') else Ret (Some pos, st')
        | Panic => Panic
        | OutOfFuel => OutOfFuel
        end
    end
  else Ret (Some pos, st).

Fixpoint check (fuel : nat) (n : node) (pos : nat) (st : state) {struct fuel} : res nat :=
  match fuel with
  | 0 => OutOfFuel
  | S k =>
      match n with
      (* core/src/typed/template/mod.rs L54-64 *)
      | Str t => moved (match_string s pos t) st
      (* mod.rs L114-124 *)
      | Insens t => let! r := match_insensitive s pos t in moved r st
      (* mod.rs L159-168 *)
      | SkipChar m => let! r := skip s pos m in moved r st
      (* mod.rs L205-214 *)
      | CharRange lo hi => let! r := match_range s pos lo hi in moved r st
      (* mod.rs L244-254 *)
      | Char c => moved (match_string s pos [c]) st
      (* mod.rs L376-394 *)
      | Positive t =>
          during true (fun st =>
            match check k t pos (on_stack stack_snapshot st) with
            | Ret (Some _, st') => Ret (Some pos, on_stack stack_restore st')
            | Ret (None, st') => Ret (None, on_stack stack_restore st')
            | Panic => Panic
            | OutOfFuel => OutOfFuel
            end) st
      (* mod.rs L434-452 *)
      | Negative t =>
          during false (fun st =>
            match check k t pos (on_stack stack_snapshot st) with
            | Ret (Some _, st') => Ret (None, on_stack stack_restore st')
            | Ret (None, st') => Ret (Some pos, on_stack stack_restore st')
            | Panic => Panic
            | OutOfFuel => OutOfFuel
            end) st
      (* mod.rs L478-491 *)
      | Any => let! r := match_char_by s pos (fun _ => true) in moved r st
      (* mod.rs L513-519 *)
      | NONE => Ret (None, st)
      (* mod.rs L536-542 *)
      | Empty => Ret (Some pos, st)
      (* mod.rs L572-582 *)
      | Soi => if at_start pos then Ret (Some pos, st) else Ret (None, st)
      (* mod.rs L606-616 *)
      | Eoi => if at_end s pos then Ret (Some pos, st) else Ret (None, st)
      (* mod.rs L658-668 *)
      | Newline =>
          match match_string s pos [CR; LF] with
          | (true, pos') => Ret (Some pos', st)
          | (false, pos) =>
              match match_string s pos [LF] with
              | (true, pos') => Ret (Some pos', st)
              | (false, pos) => moved (match_string s pos [CR]) st
              end
          end
      (* mod.rs L697-705 *)
      | PeekAll =>
          let! spans := stack_index (st_stack st) 0 (stack_len (st_stack st)) in
          bind (peek_spans pos (rev spans) st) (fun r st => Ret (Some (fst r), st))
      (* mod.rs L747-762 *)
      | Peek =>
          match stack_peek (st_stack st) with
          | Some sp => let! t := as_str sp in moved (match_string s pos t) st
          | None => Ret (None, on_tracker (empty_stack pos) st)
          end
      (* mod.rs L793-805 *)
      | Drop =>
          match stack_pop (st_stack st) with
          | (Some _, stk) => Ret (Some pos, mkState stk (st_tracker st))
          | (None, stk) => Ret (None, on_tracker (empty_stack pos) (mkState stk (st_tracker st)))
          end
      (* mod.rs L841-856 *)
      | Pop =>
          match stack_pop (st_stack st) with
          | (Some sp, stk) =>
              let! t := as_str sp in moved (match_string s pos t) (mkState stk (st_tracker st))
          | (None, stk) => Ret (None, on_tracker (empty_stack pos) (mkState stk (st_tracker st)))
          end
      (* mod.rs L889-897 *)
      | PopAll =>
          bind (check k PeekAll pos st) (fun pos st =>
          Ret (Some pos, on_stack (fun stk => stack_pop_loop (S (stack_len stk)) stk) st))
      (* mod.rs L931-940 *)
      | Push t =>
          bind (check k t pos st) (fun pos' st =>
          let! sp := span_between pos pos' in
          Ret (Some pos', on_stack (stack_push sp) st))
      (* mod.rs L984-992 *)
      | PeekSlice2 a b =>
          bind (stack_slice pos a (Some b) st) (fun spans st =>
          bind (peek_spans pos spans st) (fun r st => Ret (Some (fst r), st)))
      (* mod.rs L1011-1019 *)
      | PeekSlice1 a =>
          bind (stack_slice pos a None st) (fun spans st =>
          bind (peek_spans pos spans st) (fun r st => Ret (Some (fst r), st)))
      (* core/src/typed/template/repetition.rs L140-163 *)
      | RepMinMax t trivia min max => check_rep k (check k) t trivia min max 0 pos st
      (* core/src/typed/traits.rs L242-258 *)
      | Opt t =>
          match check k t pos (on_stack stack_snapshot st) with
          | Ret (Some pos', st') => Ret (Some pos', on_stack stack_clear_snapshot st')
          | Ret (None, st') => Ret (Some pos, on_stack stack_restore st')
          | Panic => Panic
          | OutOfFuel => OutOfFuel
          end
      (* core/src/sequence.rs L70-85 *)
      | Seq fields => check_seq (check k) true fields pos st
      (* core/src/choice.rs L54-72 *)
      | Choice variants => check_choice (check k) variants pos st
      (* core/src/lib.rs L55-65 *)
      | Property p =>
          let! r := template_match_char_by pos (property p) in
          match r with
          | (Some _, pos') => Ret (Some pos', st)
          | (None, _) => Ret (None, st)
          end
      (* core/src/typed/traits.rs L152-165 *)
      | Rule r args =>
          record_option_during_with pos (fun st => check k (rd_body (env r) args) pos st) r st
      end
  end.

(** ** [try_parse_with_partial] *)

(** core/src/sequence.rs L54-67; [first] is [i <= 1]. Values are collected in order. *)
Fixpoint parse_seq (chk : node -> nat -> state -> res nat)
  (prs : node -> nat -> state -> res (nat * value)) (first : bool)
  (fields : list (node * node)) (pos : nat) (st : state) : res (nat * list value) :=
  match fields with
  | [] => Ret (Some (pos, []), st)
  | (t, trivia) :: r =>
      bind (if first then Ret (Some pos, st) else chk trivia pos st) (fun pos st =>
      bind (prs t pos st) (fun pv st =>
      bind (parse_seq chk prs false r (fst pv) st) (fun pvs st =>
      Ret (Some (fst pvs, snd pv :: snd pvs), st))))
  end.

(** core/src/choice.rs L38-51; [i] is the number of the variant. *)
Fixpoint parse_choice (prs : node -> nat -> state -> res (nat * value)) (i : nat)
  (variants : list node) (pos : nat) (st : state) : res (nat * value) :=
  match variants with
  | [] => Ret (None, st)
  | t :: r =>
      match prs t pos (on_stack stack_snapshot st) with
      | Ret (Some (pos', v), st') =>
          Ret (Some (pos', VChoice i v), on_stack stack_clear_snapshot st')
      | Ret (None, st') => parse_choice prs (S i) r pos (on_stack stack_restore st')
      | Panic => Panic
      | OutOfFuel => OutOfFuel
      end
  end.

(** core/src/typed/template/repetition.rs L224-236 [try_parse_unit]. *)
Definition parse_unit (chk : node -> nat -> state -> res nat)
  (prs : node -> nat -> state -> res (nat * value)) (t trivia : node) (i : N)
  (pos : nat) (st : state) : res (nat * value) :=
  bind (if (0 <? i)%N then chk trivia pos st else Ret (Some pos, st)) (fun pos st =>
  prs t pos st).

(** core/src/typed/template/repetition.rs L111-137: the loop [for i in 0..MAX]; [vec] is reversed. *)
Fixpoint parse_rep (fuel : nat) (chk : node -> nat -> state -> res nat)
  (prs : node -> nat -> state -> res (nat * value)) (t trivia : node)
  (min max i : N) (vec : list value) (pos : nat) (st : state) : res (nat * value) :=
  if (i <? max)%N then
    match fuel with
    | 0 => OutOfFuel
    | S k =>
        match restore_on_none (parse_unit chk prs t trivia i pos) st with
        | Ret (Some (next, matched), st') =>
            parse_rep k chk prs t trivia min max (i + 1) (matched :: vec) next st'
        | Ret (None, st') =>
            if (i <? min)%N then Ret (None, st') else Ret (Some (pos, VRep (rev vec)), st')
        | Panic => Panic
        | OutOfFuel => OutOfFuel
        end
    end
  else Ret (Some (pos, VRep (rev vec)), st).

(** A [bool] result that moved the position, paired with a value without content. *)
Definition moved_unit (r : bool * nat) (st : state) : res (nat * value) :=
  let (b, pos') := r in
  if b then Ret (Some (pos', VUnit), st) else Ret (None, st).

Fixpoint try_parse (fuel : nat) (n : node) (pos : nat) (st : state) {struct fuel}
  : res (nat * value) :=
  match fuel with
  | 0 => OutOfFuel
  | S k =>
      match n with
      (* core/src/typed/template/mod.rs L42-52 *)
      | Str t => moved_unit (match_string s pos t) st
      (* mod.rs L100-112 *)
      | Insens t =>
          let! r := match_insensitive s pos t in
          match r with
          | (true, pos') =>
              let! sp := span_between pos pos' in
              let! content := as_str sp in
              Ret (Some (pos', VInsens content), st)
          | (false, _) => Ret (None, st)
          end
      (* mod.rs L144-157 *)
      | SkipChar m =>
          let! r := skip s pos m in
          match r with
          | (true, pos') =>
              let! sp := span_between pos pos' in
              Ret (Some (pos', VSpan sp), st)
          | (false, _) => Ret (None, st)
          end
      (* mod.rs L189-203 *)
      | CharRange lo hi =>
          let! r := match_range s pos lo hi in
          match r with
          | (true, pos') =>
              let! sp := span_between pos pos' in
              let! str := as_str sp in
              match str with
              | content :: _ => Ret (Some (pos', VChar content), st)
              | [] => Panic
              end
          | (false, _) => Ret (None, st)
          end
      (* mod.rs L232-242 *)
      | Char c => moved_unit (match_string s pos [c]) st
      (* mod.rs L356-374 *)
      | Positive t =>
          during true (fun st =>
            match try_parse k t pos (on_stack stack_snapshot st) with
            | Ret (Some (_, content), st') =>
                Ret (Some (pos, VPositive content), on_stack stack_restore st')
            | Ret (None, st') => Ret (None, on_stack stack_restore st')
            | Panic => Panic
            | OutOfFuel => OutOfFuel
            end) st
      (* mod.rs L414-432 *)
      | Negative t =>
          during false (fun st =>
            match check k t pos (on_stack stack_snapshot st) with
            | Ret (Some _, st') => Ret (None, on_stack stack_restore st')
            | Ret (None, st') => Ret (Some (pos, VUnit), on_stack stack_restore st')
            | Panic => Panic
            | OutOfFuel => OutOfFuel
            end) st
      (* mod.rs L470-476 *)
      | Any =>
          let! r := next_char s pos in
          match r with
          | (Some c, pos') => Ret (Some (pos', VChar c), st)
          | (None, _) => Ret (None, st)
          end
      (* mod.rs L505-511 *)
      | NONE => Ret (None, st)
      (* mod.rs L528-534 *)
      | Empty => Ret (Some (pos, VUnit), st)
      (* mod.rs L560-570 *)
      | Soi => if at_start pos then Ret (Some (pos, VUnit), st) else Ret (None, st)
      (* mod.rs L594-604 *)
      | Eoi => if at_end s pos then Ret (Some (pos, VUnit), st) else Ret (None, st)
      (* mod.rs L641-656 *)
      | Newline =>
          match match_string s pos [CR; LF] with
          | (true, pos') => Ret (Some (pos', VNewline NL_CRLF), st)
          | (false, pos) =>
              match match_string s pos [LF] with
              | (true, pos') => Ret (Some (pos', VNewline NL_LF), st)
              | (false, pos) =>
                  match match_string s pos [CR] with
                  | (true, pos') => Ret (Some (pos', VNewline NL_CR), st)
                  | (false, _) => Ret (None, st)
                  end
              end
          end
      (* mod.rs L687-695 *)
      | PeekAll =>
          let! spans := stack_index (st_stack st) 0 (stack_len (st_stack st)) in
          bind (peek_spans pos (rev spans) st) (fun r st => Ret (Some (fst r, VSpan (snd r)), st))
      (* mod.rs L729-745 *)
      | Peek =>
          match stack_peek (st_stack st) with
          | Some string =>
              let! t := as_str string in
              match match_string s pos t with
              | (true, pos') =>
                  let! sp := span_between pos pos' in
                  Ret (Some (pos', VSpan sp), st)
              | (false, _) => Ret (None, st)
              end
          | None => Ret (None, on_tracker (empty_stack pos) st)
          end
      (* mod.rs L779-791 *)
      | Drop =>
          match stack_pop (st_stack st) with
          | (Some _, stk) => Ret (Some (pos, VUnit), mkState stk (st_tracker st))
          | (None, stk) => Ret (None, on_tracker (empty_stack pos) (mkState stk (st_tracker st)))
          end
      (* mod.rs L824-839; the value is the popped span *)
      | Pop =>
          match stack_pop (st_stack st) with
          | (Some sp, stk) =>
              let! t := as_str sp in
              match match_string s pos t with
              | (true, pos') => Ret (Some (pos', VSpan sp), mkState stk (st_tracker st))
              | (false, _) => Ret (None, mkState stk (st_tracker st))
              end
          | (None, stk) => Ret (None, on_tracker (empty_stack pos) (mkState stk (st_tracker st)))
          end
      (* mod.rs L879-887 *)
      | PopAll =>
          bind (try_parse k PeekAll pos st) (fun pv st =>
          Ret (Some pv, on_stack (fun stk => stack_pop_loop (S (stack_len stk)) stk) st))
      (* mod.rs L920-929 *)
      | Push t =>
          bind (try_parse k t pos st) (fun pv st =>
          let! sp := span_between pos (fst pv) in
          Ret (Some (fst pv, VPush (snd pv)), on_stack (stack_push sp) st))
      (* mod.rs L974-982 *)
      | PeekSlice2 a b =>
          bind (stack_slice pos a (Some b) st) (fun spans st =>
          bind (peek_spans pos spans st) (fun r st => Ret (Some (fst r, VUnit), st)))
      (* mod.rs L1001-1009 *)
      | PeekSlice1 a =>
          bind (stack_slice pos a None st) (fun spans st =>
          bind (peek_spans pos spans st) (fun r st => Ret (Some (fst r, VUnit), st)))
      (* core/src/typed/template/repetition.rs L106-138 *)
      | RepMinMax t trivia min max =>
          parse_rep k (check k) (try_parse k) t trivia min max 0 [] pos st
      (* core/src/typed/traits.rs L224-240 *)
      | Opt t =>
          match try_parse k t pos (on_stack stack_snapshot st) with
          | Ret (Some (pos', v), st') =>
              Ret (Some (pos', VOpt (Some v)), on_stack stack_clear_snapshot st')
          | Ret (None, st') => Ret (Some (pos, VOpt None), on_stack stack_restore st')
          | Panic => Panic
          | OutOfFuel => OutOfFuel
          end
      (* core/src/sequence.rs L49-68 *)
      | Seq fields =>
          bind (parse_seq (check k) (try_parse k) true fields pos st) (fun pvs st =>
          Ret (Some (fst pvs, VSeq (snd pvs)), st))
      (* core/src/choice.rs L33-52 *)
      | Choice variants => parse_choice (try_parse k) 0 variants pos st
      (* core/src/lib.rs L43-53 *)
      | Property p =>
          let! r := template_match_char_by pos (property p) in
          match r with
          | (Some content, pos') => Ret (Some (pos', VChar content), st)
          | (None, _) => Ret (None, st)
          end
      (* core/src/typed/traits.rs L136-151 *)
      | Rule r args =>
          record_option_during_with pos (fun st =>
            bind (try_parse k (rd_body (env r) args) pos st) (fun pv st =>
            let! sp := span_between pos (fst pv) in
            Ret (Some (fst pv, VRule r (snd pv) sp), st))) r st
      end
  end.

(** core/src/typed/template/repetition.rs L65-94 [parse_with_partial] of a repetition with
    minimum 0: the loop with its own tracker; [None] does not occur. *)
Fixpoint never_failed_rep (fuel : nat) (chk : node -> nat -> state -> res nat)
  (prs : node -> nat -> state -> res (nat * value)) (t trivia : node)
  (max i : N) (vec : list value) (pos : nat) (st : state) : outcome (nat * value * state) :=
  if (i <? max)%N then
    match fuel with
    | 0 => OutOfFuel
    | S k =>
        match restore_on_none (parse_unit chk prs t trivia i pos) st with
        | Ret (Some (next, matched), st') =>
            never_failed_rep k chk prs t trivia max (i + 1) (matched :: vec) next st'
        | Ret (None, st') => Ret (pos, VRep (rev vec), st')
        | Panic => Panic
        | OutOfFuel => OutOfFuel
        end
    end
  else Ret (pos, VRep (rev vec), st).
Definition rep_parse_with_partial (fuel : nat) (t trivia : node) (max : N) (pos : nat)
  (stk : stack span) : outcome (nat * value * stack span) :=
  let! r := never_failed_rep fuel (check fuel) (try_parse fuel) t trivia max 0 [] pos
              (mkState stk (tracker_new pos)) in
  Ret (fst (fst r), snd (fst r), st_stack (snd r)).

(** core/src/typed/template/mod.rs L544-551 [parse_with_partial] of [Empty]. *)
Definition empty_parse_with_partial (pos : nat) (stk : stack span) : nat * value * stack span :=
  (pos, VUnit, stk).

(** ** Entry points on complete texts, core/src/typed/traits.rs *)

(** core/src/typed/traits.rs L24-36 [TypedNode::try_parse_with]. *)
Definition try_parse_with (fuel : nat) (n : node) (pos : nat) (st : state) : res value :=
  bind (try_parse fuel n pos st) (fun pv st =>
  bind (record_option_during_with (fst pv) (fun st => try_parse fuel Eoi (fst pv) st) EOI st)
    (fun _ st => Ret (Some (snd pv), st))).

(** core/src/typed/traits.rs L62-80 [TypedNode::check_with]. *)
Definition check_with (fuel : nat) (n : node) (pos : nat) (st : state) : res unit :=
  bind (check fuel n pos st) (fun pos st =>
  bind (record_option_during_with pos (fun st => check fuel Eoi pos st) EOI st)
    (fun _ st => Ret (Some tt, st))).

(** The initial state of a parse: core/src/typed/traits.rs L40-42 and L49-51. *)
Definition init_state : state := mkState stack_new (tracker_new from_start).

(** The four entry points on a text, core/src/typed/traits.rs L39-53 and L83-99. An error carries
    the tracker that [Tracker::collect] turns into an [Error]. *)
Definition to_result {A : Type} (m : res A) : outcome (A + tracker) :=
  match m with
  | Ret (Some a, _) => Ret (inl a)
  | Ret (None, st) => Ret (inr (st_tracker st))
  | Panic => Panic
  | OutOfFuel => OutOfFuel
  end.
Definition text_try_parse_partial (fuel : nat) (n : node) : outcome (nat * value + tracker) :=
  to_result (try_parse fuel n from_start init_state).
Definition text_try_parse (fuel : nat) (n : node) : outcome (value + tracker) :=
  to_result (try_parse_with fuel n from_start init_state).
Definition text_check_partial (fuel : nat) (n : node) : outcome (nat + tracker) :=
  to_result (check fuel n from_start init_state).
Definition text_check (fuel : nat) (n : node) : outcome (unit + tracker) :=
  to_result (check_with fuel n from_start init_state).

End Interpreter.
