(** Model of the generator of state machines (generator/src/state_builder.rs, generator/src/expr.rs). *)
From Coq Require Import String List NArith Arith Bool.
From Verif Require Import Model_Text.
Import ListNotations.
Open Scope list_scope.

(** generator/src/expr.rs L3-17 [Expr]. A [Range<char>] is its two ends. *)
Inductive expr :=
| X_accept
| X_reject
| X_any
| X_none
| X_str (t : text)
| X_insens (t : text)
| X_range (lo hi : char)
| X_ident (t : text)
| X_seq (l r : expr)
| X_choice (l r : expr)
| X_rep (c : expr)
| X_pred (c : expr) (positive : bool).

(** generator/src/state_builder.rs L10 [StateId]; a natural number instead of a [u64]. *)
Definition state_id := nat.

(** The bodies of the functions that are emitted (generator/src/state_builder.rs), one constructor for each form: nothing (L56), [self.result = false;]
    (L57-61), [return self.state();] (L25), and those for ranges (L112-120 and L127-142). *)
Inductive code :=
| Code_nothing
| Code_fail
| Code_goto (to : state_id)
| Code_byte (lo hi : byte) (accept reject : state_id)
| Code_wide (len : nat) (lo hi : N) (accept reject : state_id).

(** generator/src/state_builder.rs L12-16 [GeneratedExpr]. *)
Inductive generated := G_inline (c : code) | G_state (to : state_id).
(** generator/src/state_builder.rs L18-30 [to_tokens]. *)
Definition tokens_of (g : generated) : code :=
  match g with G_inline c => c | G_state to => Code_goto to end.

(** generator/src/state_builder.rs L32-36 [StateBuilder] without the rules. A state is the number in the name of its function and
    the body (L235-239). *)
Record builder := mkBuilder { b_states : list (state_id * code); b_count : state_id }.

(** generator/src/state_builder.rs L47-53 [next_id]; without overflow. *)
Definition next_id (b : builder) : state_id * builder := (b_count b, mkBuilder (b_states b) (S (b_count b))).
(** [self.states.push(..)] (generator/src/state_builder.rs L70, L85, L162). *)
Definition push_state (x : state_id * code) (b : builder) : builder := mkBuilder (b_states b ++ [x]) (b_count b).

(** generator/src/state_builder.rs L98-197 [gen_expr]. Both ends of a state are always given ([accept], [reject] L220-228), so that [gen] (L230-244) does
    not panic for lack of them; it calls the closure, which is a recursive call. *)
Fixpoint gen_expr (e : expr) (accept reject : state_id) (b : builder) : outcome (generated * builder) :=
  match e with
  | X_range lo hi =>
      if (len_utf8 lo =? 1) && (len_utf8 hi =? 1)
      then Ret (G_inline (Code_byte lo hi accept reject), b)
      else Ret (G_inline (Code_wide (Nat.max (len_utf8 lo) (len_utf8 hi)) lo hi accept reject), b)
  | X_seq l r =>
      let (lhs, b) := next_id b in
      let (rhs, b) := next_id b in
      let! (gl, b) := gen_expr l rhs reject b in
      let! (gr, b) := gen_expr r accept reject b in
      Ret (G_state lhs, push_state (rhs, tokens_of gr) (push_state (lhs, tokens_of gl) b))
  | X_choice l r =>
      let (lhs, b) := next_id b in
      let (rhs, b) := next_id b in
      let! (gl, b) := gen_expr l accept rhs b in
      let! (gr, b) := gen_expr r accept reject b in
      Ret (G_state lhs, push_state (rhs, tokens_of gr) (push_state (lhs, tokens_of gl) b))
  | X_rep c =>
      let (child, b) := next_id b in
      let! (g, b) := gen_expr c child accept b in
      Ret (G_state child, push_state (child, tokens_of g) b)
  | _ => Panic
  end.

(** The items that are emitted (generator/src/state_builder.rs L88-95): the state called by [parse], and the functions in order. *)
Record program := mkProgram { p_enter : state_id; p_states : list (state_id * code) }.

(** generator/src/state_builder.rs L55-96 [build]; the map of rules is a function. *)
Definition build (rules : text -> option expr) (name : text) : outcome (option program) :=
  let b := mkBuilder [] 0 in
  let (accept, b) := next_id b in
  let (reject, b) := next_id b in
  let b := push_state (reject, Code_fail) (push_state (accept, Code_nothing) b) in
  match rules name with
  | None => Ret None
  | Some e =>
      let (enter, b) := next_id b in
      let! (g, b) := gen_expr e accept reject b in
      Ret (Some (mkProgram enter (b_states (push_state (enter, tokens_of g) b))))
  end.

(** The struct that the functions are methods of; the fields used are those of [State] at generator/src/lib.rs L12-16. *)
Record machine := mkMachine { m_input : list byte; m_index : nat; m_result : bool }.
(** generator/src/lib.rs L40-47 [State::new]. *)
Definition machine_new (s : text) : machine := mkMachine (bytes s) 0 true.

(** [u32::from_le_bytes] of up to four bytes, the others being 0 (generator/src/state_builder.rs L129-132). *)
Fixpoint from_le (l : list byte) : N :=
  match l with [] => 0 | b :: r => b + 256 * from_le r end%N.

(** A call of the function of a state, as Rust runs the emitted code (generator/src/state_builder.rs L111-144); [...] in a pattern is the inclusive range, as in
    editions before 2021. A call of a function that is not there does not compile: [Panic]. *)
Fixpoint call (states : list (state_id * code)) (fuel : nat) (id : state_id) (m : machine) : outcome machine :=
  match fuel with
  | 0 => OutOfFuel
  | S fuel =>
      match find (fun x => fst x =? id) states with
      | None => Panic
      | Some (_, Code_nothing) => Ret m
      | Some (_, Code_fail) => Ret (mkMachine (m_input m) (m_index m) false)
      | Some (_, Code_goto to) => call states fuel to m
      | Some (_, Code_byte lo hi accept reject) =>
          match nth_error (m_input m) (m_index m) with
          | Some b =>
              if ((lo <=? b) && (b <=? hi))%N
              then call states fuel accept (mkMachine (m_input m) (m_index m + 1) (m_result m))
              else call states fuel reject m
          | None => call states fuel reject m
          end
      | Some (_, Code_wide len lo hi accept reject) =>
          match bytes_get (m_input m) (m_index m) (m_index m + len) with
          | Some slice =>
              if ((lo <=? from_le slice) && (from_le slice <=? hi))%N
              then call states fuel accept (mkMachine (m_input m) (m_index m + len) (m_result m))
              else call states fuel reject m
          | None => call states fuel reject m
          end
      end
  end.

(** The emitted [parse] (generator/src/state_builder.rs L89-92): the machine afterwards; the value returned is its [result]. *)
Definition machine_parse (p : program) (fuel : nat) (m : machine) : outcome machine := call (p_states p) fuel (p_enter p) m.
