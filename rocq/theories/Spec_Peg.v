(** Parsing expression grammars with a stack, as a big-step relation.

    [peg n pre post K res]: expression [n], tried between the text [pre] already consumed and the
    text [post] still to come, with the stack [K] of texts (top first), has result [res]. A failure
    carries no stack: whoever continues after a failure continues with the stack it had before.

    Nothing here mentions positions, fuel, snapshots, trackers or values. Node types are the syntax
    of expressions; of the library only [blen] and the grammar [env] (the content of each rule) and
    the table [property] of character properties are used. *)
From Coq Require Import List NArith ZArith Arith Bool.
From Verif Require Import Model_Text Model_Tracker Model_Node Spec_Text.
Import ListNotations.
Open Scope list_scope.

Inductive result := Fail | Ok (pre post : text) (K : list text).

(** The nodes of a sequence in matching order: the trivia type of every field but the first comes
    before the field. *)
Definition sequence_items (fields : list (node * node)) : list node :=
  match fields with
  | [] => []
  | (t, _) :: r => t :: flat_map (fun f => [snd f; fst f]) r
  end.

(** The nodes of round number [i] of a repetition. *)
Definition round_items (t trivia : node) (i : N) : list node :=
  if N.eq_dec i 0 then [t] else [trivia; t].

(** Stack index [i] of a stack of [len] elements denotes the index [k] counted from the bottom. *)
Definition stack_index_of (len : nat) (i : Z) (k : nat) : Prop :=
  ((0 <= i <= Z.of_nat len)%Z /\ k = Z.to_nat i) \/
  ((- Z.of_nat len <= i < 0)%Z /\ k = Z.to_nat (Z.of_nat len + i)).

(** The elements with indexes from [lo] up to but not including [hi], bottom-most first. *)
Definition slice {A : Type} (K : list A) (lo hi : nat) : list A :=
  firstn (hi - lo) (skipn lo (rev K)).

Section Peg.
Variable env : rule -> rule_def.
Variable property : N -> char -> bool.

(** One character satisfying [P]. *)
Inductive one_char (P : char -> Prop) (pre post : text) (K : list text) : result -> Prop :=
| OC_ok c r : post = c :: r -> P c -> one_char P pre post K (Ok (pre ++ [c]) r K)
| OC_fail : (forall c r, post = c :: r -> ~ P c) -> one_char P pre post K Fail.

(** The text [t], leaving the stack [K']. *)
Inductive one_text (t pre post : text) (K' : list text) : result -> Prop :=
| OT_ok r : post = t ++ r -> one_text t pre post K' (Ok (pre ++ t) r K')
| OT_fail : ~ starts_with t post -> one_text t pre post K' Fail.

(** Expressions without subexpressions. *)
Inductive terminal (pre post : text) (K : list text) : node -> result -> Prop :=
| T_str t r : one_text t pre post K r -> terminal pre post K (Str t) r
| T_insens_ok t m r :
    post = m ++ r -> map ascii_fold m = map ascii_fold t ->
    terminal pre post K (Insens t) (Ok (pre ++ m) r K)
| T_insens_fail t :
    (forall m r, post = m ++ r -> map ascii_fold m <> map ascii_fold t) ->
    terminal pre post K (Insens t) Fail
| T_skip_ok n m r :
    post = m ++ r -> length m = n -> terminal pre post K (SkipChar n) (Ok (pre ++ m) r K)
| T_skip_fail n : length post < n -> terminal pre post K (SkipChar n) Fail
| T_range lo hi r :
    one_char (fun c => (lo <= c <= hi)%N) pre post K r -> terminal pre post K (CharRange lo hi) r
| T_char c r : one_char (fun x => x = c) pre post K r -> terminal pre post K (Char c) r
| T_any r : one_char (fun _ => True) pre post K r -> terminal pre post K Any r
| T_property p r :
    one_char (fun c => property p c = true) pre post K r -> terminal pre post K (Property p) r
| T_none : terminal pre post K NONE Fail
| T_empty : terminal pre post K Empty (Ok pre post K)
| T_soi_ok : pre = [] -> terminal pre post K Soi (Ok pre post K)
| T_soi_fail : pre <> [] -> terminal pre post K Soi Fail
| T_eoi_ok : post = [] -> terminal pre post K Eoi (Ok pre post K)
| T_eoi_fail : post <> [] -> terminal pre post K Eoi Fail
| T_newline_crlf r : post = CR :: LF :: r -> terminal pre post K Newline (Ok (pre ++ [CR; LF]) r K)
| T_newline_lf r : post = LF :: r -> terminal pre post K Newline (Ok (pre ++ [LF]) r K)
| T_newline_cr r :
    post = CR :: r -> ~ starts_with [LF] r -> terminal pre post K Newline (Ok (pre ++ [CR]) r K)
| T_newline_fail :
    ~ starts_with [LF] post -> ~ starts_with [CR] post -> terminal pre post K Newline Fail
| T_peek t K' r : K = t :: K' -> one_text t pre post K r -> terminal pre post K Peek r
| T_peek_empty : K = [] -> terminal pre post K Peek Fail
| T_pop t K' r : K = t :: K' -> one_text t pre post K' r -> terminal pre post K Pop r
| T_pop_empty : K = [] -> terminal pre post K Pop Fail
| T_drop t K' : K = t :: K' -> terminal pre post K Drop (Ok pre post K')
| T_drop_empty : K = [] -> terminal pre post K Drop Fail
| T_peek_all r : one_text (concat K) pre post K r -> terminal pre post K PeekAll r
| T_pop_all r : one_text (concat K) pre post [] r -> terminal pre post K PopAll r
| T_slice2 a b lo hi r :
    stack_index_of (length K) a lo -> stack_index_of (length K) b hi ->
    one_text (concat (slice K lo hi)) pre post K r -> terminal pre post K (PeekSlice2 a b) r
| T_slice2_fail a b :
    ~ (exists lo hi, stack_index_of (length K) a lo /\ stack_index_of (length K) b hi) ->
    terminal pre post K (PeekSlice2 a b) Fail
| T_slice1 a lo r :
    stack_index_of (length K) a lo ->
    one_text (concat (slice K lo (length K))) pre post K r -> terminal pre post K (PeekSlice1 a) r
| T_slice1_fail a :
    ~ (exists lo, stack_index_of (length K) a lo) -> terminal pre post K (PeekSlice1 a) Fail.

Inductive peg : node -> text -> text -> list text -> result -> Prop :=
| P_terminal n pre post K r : terminal pre post K n r -> peg n pre post K r
| P_positive_ok t pre post K pre' post' K' :
    peg t pre post K (Ok pre' post' K') -> peg (Positive t) pre post K (Ok pre post K)
| P_positive_fail t pre post K : peg t pre post K Fail -> peg (Positive t) pre post K Fail
| P_negative_ok t pre post K : peg t pre post K Fail -> peg (Negative t) pre post K (Ok pre post K)
| P_negative_fail t pre post K pre' post' K' :
    peg t pre post K (Ok pre' post' K') -> peg (Negative t) pre post K Fail
| P_push_ok t pre post K m post' K' :
    peg t pre post K (Ok (pre ++ m) post' K') ->
    peg (Push t) pre post K (Ok (pre ++ m) post' (m :: K'))
| P_push_fail t pre post K : peg t pre post K Fail -> peg (Push t) pre post K Fail
| P_opt_some t pre post K pre' post' K' :
    peg t pre post K (Ok pre' post' K') -> peg (Opt t) pre post K (Ok pre' post' K')
| P_opt_none t pre post K : peg t pre post K Fail -> peg (Opt t) pre post K (Ok pre post K)
| P_rep t trivia min max pre post K r :
    peg_rep t trivia min max 0 pre post K r -> peg (RepMinMax t trivia min max) pre post K r
| P_seq fields pre post K r :
    peg_items (sequence_items fields) pre post K r -> peg (Seq fields) pre post K r
| P_choice ts pre post K r : peg_choice ts pre post K r -> peg (Choice ts) pre post K r
| P_rule r args pre post K res :
    peg (rd_body (env r) args) pre post K res -> peg (Rule r args) pre post K res

(** All of the expressions, one after the other. *)
with peg_items : list node -> text -> text -> list text -> result -> Prop :=
| I_nil pre post K : peg_items [] pre post K (Ok pre post K)
| I_cons t ts pre post K pre' post' K' r :
    peg t pre post K (Ok pre' post' K') -> peg_items ts pre' post' K' r ->
    peg_items (t :: ts) pre post K r
| I_fail t ts pre post K : peg t pre post K Fail -> peg_items (t :: ts) pre post K Fail

(** The first of the expressions that matches. *)
with peg_choice : list node -> text -> text -> list text -> result -> Prop :=
| C_nil pre post K : peg_choice [] pre post K Fail
| C_ok t ts pre post K pre' post' K' :
    peg t pre post K (Ok pre' post' K') -> peg_choice (t :: ts) pre post K (Ok pre' post' K')
| C_next t ts pre post K r :
    peg t pre post K Fail -> peg_choice ts pre post K r -> peg_choice (t :: ts) pre post K r

(** Rounds of a repetition, [i] of them being done. Reaching the maximum ends the repetition, also
    when the minimum is larger. *)
with peg_rep : node -> node -> N -> N -> N -> text -> text -> list text -> result -> Prop :=
| R_max t trivia min max i pre post K :
    (max <= i)%N -> peg_rep t trivia min max i pre post K (Ok pre post K)
| R_round t trivia min max i pre post K pre' post' K' r :
    (i < max)%N -> peg_items (round_items t trivia i) pre post K (Ok pre' post' K') ->
    peg_rep t trivia min max (i + 1) pre' post' K' r -> peg_rep t trivia min max i pre post K r
| R_stop t trivia min max i pre post K :
    (i < max)%N -> (min <= i)%N -> peg_items (round_items t trivia i) pre post K Fail ->
    peg_rep t trivia min max i pre post K (Ok pre post K)
| R_fail t trivia min max i pre post K :
    (i < max)%N -> (i < min)%N -> peg_items (round_items t trivia i) pre post K Fail ->
    peg_rep t trivia min max i pre post K Fail.
End Peg.

Scheme peg_mut := Induction for peg Sort Prop
with peg_items_mut := Induction for peg_items Sort Prop
with peg_choice_mut := Induction for peg_choice Sort Prop
with peg_rep_mut := Induction for peg_rep Sort Prop.
Combined Scheme peg_mutind from peg_mut, peg_items_mut, peg_choice_mut, peg_rep_mut.
