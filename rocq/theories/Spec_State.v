(** What state machines do, without states. *)
From Coq Require Import String List NArith Arith Bool.
From Verif Require Import Model_Text Model_State.
Import ListNotations.
Open Scope list_scope.

(** Expressions that the generator knows. *)
Inductive supported : expr -> Prop :=
| S_range lo hi : supported (X_range lo hi)
| S_seq l r : supported l -> supported r -> supported (X_seq l r)
| S_choice l r : supported l -> supported r -> supported (X_choice l r)
| S_rep c : supported c -> supported (X_rep c).

(** The bytes that a range takes. Between two ASCII characters: one byte. Otherwise as many bytes as the longer end has, and what is
    compared with the ends is the number that the bytes are in base 256, the first one being the least significant. *)
Fixpoint number (l : list byte) (n : N) : Prop :=
  match l with [] => n = 0%N | b :: r => exists k, number r k /\ n = (b + 256 * k)%N end.
Definition takes (lo hi : char) (m : list byte) : Prop :=
  ((lo < 0x80 /\ hi < 0x80)%N /\ exists b, m = [b] /\ (lo <= b <= hi)%N) \/
  (~ (lo < 0x80 /\ hi < 0x80)%N /\ length m = Nat.max (len_utf8 lo) (len_utf8 hi) /\ exists n, number m n /\ (lo <= n <= hi)%N).

(** [scans e l b k]: with [l] left of the input [e] ends with [k] left, and it succeeds if [b]. What was read before a failure is not
    given back: the second alternative of a choice begins, and a repetition ends, where that failure was found. *)
Inductive scans : expr -> list byte -> bool -> list byte -> Prop :=
| Sc_take lo hi m l : takes lo hi m -> scans (X_range lo hi) (m ++ l) true l
| Sc_leave lo hi l : (forall m k, l = m ++ k -> ~ takes lo hi m) -> scans (X_range lo hi) l false l
| Sc_seq x y l k b j : scans x l true k -> scans y k b j -> scans (X_seq x y) l b j
| Sc_seq_fail x y l k : scans x l false k -> scans (X_seq x y) l false k
| Sc_first x y l k : scans x l true k -> scans (X_choice x y) l true k
| Sc_second x y l k b j : scans x l false k -> scans y k b j -> scans (X_choice x y) l b j
| Sc_stop x l k : scans x l false k -> scans (X_rep x) l true k
| Sc_again x l k b j : scans x l true k -> scans (X_rep x) k b j -> scans (X_rep x) l b j.

(** The meaning of such expressions as a parsing expression grammar: [None] is failure, [Some] the text left. Both ends
    belong to a range, as in grammars. *)
Inductive peg : expr -> text -> option text -> Prop :=
| P_range lo hi c s : (lo <= c <= hi)%N -> peg (X_range lo hi) (c :: s) (Some s)
| P_other lo hi c s : ~ (lo <= c <= hi)%N -> peg (X_range lo hi) (c :: s) None
| P_end lo hi : peg (X_range lo hi) [] None
| P_seq x y s t o : peg x s (Some t) -> peg y t o -> peg (X_seq x y) s o
| P_seq_fail x y s : peg x s None -> peg (X_seq x y) s None
| P_first x y s t : peg x s (Some t) -> peg (X_choice x y) s (Some t)
| P_second x y s o : peg x s None -> peg y s o -> peg (X_choice x y) s o
| P_stop x s : peg x s None -> peg (X_rep x) s (Some s)
| P_again x s t o : peg x s (Some t) -> peg (X_rep x) t o -> peg (X_rep x) s o.

(** Ends of ranges are ASCII characters. *)
Inductive ascii : expr -> Prop :=
| A_range lo hi : (lo < 0x80)%N -> (hi < 0x80)%N -> ascii (X_range lo hi)
| A_seq l r : ascii l -> ascii r -> ascii (X_seq l r)
| A_choice l r : ascii l -> ascii r -> ascii (X_choice l r)
| A_rep c : ascii c -> ascii (X_rep c).

(** Expressions that cannot fail: repetitions, and what is made of them. *)
Inductive sure : expr -> Prop :=
| Su_rep c : sure (X_rep c)
| Su_seq l r : sure l -> sure r -> sure (X_seq l r)
| Su_left l r : sure l -> sure (X_choice l r)
| Su_right l r : sure r -> sure (X_choice l r).
(** Expressions that fail, if they do, at their first character. *)
Inductive prompt : expr -> Prop :=
| Pr_sure e : sure e -> prompt e
| Pr_range lo hi : prompt (X_range lo hi)
| Pr_seq l r : prompt l -> sure r -> prompt (X_seq l r)
| Pr_choice l r : prompt l -> prompt r -> prompt (X_choice l r).

(** Wherever an expression may fail and another way is tried, the failure is at its first character. *)
Inductive decisive : expr -> Prop :=
| D_range lo hi : decisive (X_range lo hi)
| D_seq l r : decisive l -> decisive r -> decisive (X_seq l r)
| D_choice l r : prompt l -> decisive l -> decisive r -> decisive (X_choice l r)
| D_rep c : prompt c -> decisive c -> decisive (X_rep c).

(** No expression that cannot fail is repeated. *)
Inductive ending : expr -> Prop :=
| E_range lo hi : ending (X_range lo hi)
| E_seq l r : ending l -> ending r -> ending (X_seq l r)
| E_choice l r : ending l -> ending r -> ending (X_choice l r)
| E_rep c : ~ sure c -> ending c -> ending (X_rep c).
