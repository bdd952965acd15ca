(** What an expression yields at a position with a stack, whatever the open snapshots and the error
    tracker are. The vocabulary of the statements about single expression kinds. *)
From Coq Require Import List NArith ZArith Arith Bool.
From Verif Require Import Model_Text Model_Position Model_Stack Model_Tracker Model_Node Spec_Text.
Import ListNotations.
Open Scope list_scope.

(** The visible part of an outcome: end offset, value and stack of a success. *)
Definition visible (m : res (nat * value)) : outcome (option (nat * value * list span)) :=
  match m with
  | Ret (Some (p, v), st) => Ret (Some (p, v, stk_items (st_stack st)))
  | Ret (None, _) => Ret None
  | Panic => Panic
  | OutOfFuel => OutOfFuel
  end.

(** The visible part of a check: no value. *)
Definition visible_check (m : res nat) : outcome (option (nat * list span)) :=
  match m with
  | Ret (Some p, st) => Ret (Some (p, stk_items (st_stack st)))
  | Ret (None, _) => Ret None
  | Panic => Panic
  | OutOfFuel => OutOfFuel
  end.
Definition without_value (o : option (nat * value * list span)) : option (nat * list span) :=
  match o with Some (p, _, K) => Some (p, K) | None => None end.

Section Yield.
Variable addr : N.
Variable s : text.
Variable env : rule -> rule_def.
Variable property : N -> char -> bool.

(** Parsing and checking [n] at offset [p] with stack [K] end with [o]. *)
Definition yields (n : node) (p : nat) (K : list span) (o : option (nat * value * list span)) : Prop :=
  forall sv t, exists k0, forall k, k0 <= k ->
    visible (try_parse addr s env property k n p (mkState (mkStack K sv) t)) = Ret o /\
    visible_check (check addr s env property k n p (mkState (mkStack K sv) t)) = Ret (without_value o).

(** One after the other; values of the nodes marked [true] are kept. *)
Inductive yields_all : list (bool * node) -> nat -> list span ->
  option (nat * list value * list span) -> Prop :=
| YA_nil p K : yields_all [] p K (Some (p, [], K))
| YA_fail b n l p K : yields n p K None -> yields_all ((b, n) :: l) p K None
| YA_later b n l p K p1 v K1 :
    yields n p K (Some (p1, v, K1)) -> yields_all l p1 K1 None -> yields_all ((b, n) :: l) p K None
| YA_cons b n l p K p1 v K1 p2 vs K2 :
    yields n p K (Some (p1, v, K1)) -> yields_all l p1 K1 (Some (p2, vs, K2)) ->
    yields_all ((b, n) :: l) p K (Some (p2, (if b then v :: vs else vs), K2)).

(** Round number [i] of a repetition matches, yielding [v]; or fails. *)
Definition round_matches (t trivia : node) (i : nat) (p : nat) (K : list span) (p' : nat) (v : value)
  (K' : list span) : Prop :=
  (i = 0 /\ yields t p K (Some (p', v, K'))) \/
  (0 < i /\ exists p1 w K1, yields trivia p K (Some (p1, w, K1)) /\ yields t p1 K1 (Some (p', v, K'))).
Definition round_fails (t trivia : node) (i : nat) (p : nat) (K : list span) : Prop :=
  (i = 0 /\ yields t p K None) \/
  (0 < i /\ (yields trivia p K None \/
             exists p1 w K1, yields trivia p K (Some (p1, w, K1)) /\ yields t p1 K1 None)).

(** Rounds from number [i] on, yielding [vs]. *)
Inductive rounds (t trivia : node) : nat -> nat -> list span -> list value -> nat -> list span -> Prop :=
| RO_nil i p K : rounds t trivia i p K [] p K
| RO_cons i p K p1 v K1 vs p' K' :
    round_matches t trivia i p K p1 v K1 -> rounds t trivia (S i) p1 K1 vs p' K' ->
    rounds t trivia i p K (v :: vs) p' K'.
End Yield.

(** Parsing and checking with [k] units of fuel give the result [o] and the state [st']. *)
Definition both (addr : N) (s : text) (env : rule -> rule_def) (property : N -> char -> bool)
  (k : nat) (n : node) (p : nat) (st : state) (o : option (nat * value)) (st' : state) : Prop :=
  try_parse addr s env property k n p st = Ret (o, st') /\
  check addr s env property k n p st = Ret (option_map fst o, st').

(** A check is a parse that forgets the value. *)
Definition forget (m : res (nat * value)) : res nat :=
  match m with
  | Ret (o, st) => Ret (option_map fst o, st)
  | Panic => Panic
  | OutOfFuel => OutOfFuel
  end.
