(** What an error report must contain, in terms of the attempts made (Spec_Run.v). *)
From Coq Require Import List NArith ZArith Arith Bool.
From Verif Require Import Model_Text Model_Tracker Spec_Run.
Import ListNotations.
Open Scope list_scope.

Definition event_at (e : event) : nat :=
  match e with Attempt _ _ p _ _ => p | Special _ p _ => p end.
Definition event_chain (e : event) : list (rule * nat) :=
  match e with Attempt ch _ _ _ _ => ch | Special ch _ _ => ch end.

(** The furthest offset among [start] and the offsets of the attempts. *)
Definition furthest (start : nat) (tr : list event) : nat :=
  fold_right Nat.max start (map event_at tr).

(** The nearest enclosing rule that started elsewhere. *)
Definition upper (chain : list (rule * nat)) (p : nat) : option rule :=
  match find (fun rp => negb (snd rp =? p)) chain with
  | Some (r, _) => Some r
  | None => None
  end.

(** The attempt belongs to the group [u] of offset [p]. *)
Definition in_group (p : nat) (u : option rule) (e : event) : Prop :=
  event_at e = p /\ upper (event_chain e) p = u.

(** A rule is expected if it failed where it was wanted, unexpected if it matched where it was not. *)
Definition expected_event (p : nat) (u : option rule) (r : rule) (e : event) : Prop :=
  exists chain, e = Attempt chain r p true false /\ upper chain p = u.
Definition unexpected_event (p : nat) (u : option rule) (r : rule) (e : event) : Prop :=
  exists chain, e = Attempt chain r p false true /\ upper chain p = u.
Definition misuse_event (p : nat) (u : option rule) (x : special_error) (e : event) : Prop :=
  exists chain, e = Special chain p x /\ upper chain p = u.

(** The value stored under a key. *)
Fixpoint lookup (m : list (option rule * tracked)) (u : option rule) : option tracked :=
  match m with
  | [] => None
  | (k, v) :: r =>
      match key_compare u k with
      | Eq => Some v
      | _ => lookup r u
      end
  end.

(** Removing immediate repetitions. *)
Fixpoint squeeze (l : list rule) : list rule :=
  match l with
  | [] => []
  | x :: r =>
      match squeeze r with
      | [] => [x]
      | y :: r' => if N.eq_dec x y then y :: r' else x :: y :: r'
      end
  end.

(** The rules of the attempts that concern group [u] of offset [p], in order. *)
Definition same_key (u v : option rule) : bool :=
  match key_compare u v with Eq => true | _ => false end.
Definition expected_list (p : nat) (u : option rule) (tr : list event) : list rule :=
  flat_map (fun e =>
    match e with
    | Attempt ch r q true false => if (q =? p) && same_key (upper ch p) u then [r] else []
    | _ => []
    end) tr.
Definition unexpected_list (p : nat) (u : option rule) (tr : list event) : list rule :=
  flat_map (fun e =>
    match e with
    | Attempt ch r q false true => if (q =? p) && same_key (upper ch p) u then [r] else []
    | _ => []
    end) tr.
Definition misuse_list (p : nat) (u : option rule) (tr : list event) : list special_error :=
  flat_map (fun e =>
    match e with
    | Special ch q x => if (q =? p) && same_key (upper ch p) u then [x] else []
    | _ => []
    end) tr.

(** The strict order of the groups in a report. *)
Definition key_lt (u v : option rule) : Prop := key_compare u v = Lt.

(** What the report of an error must be when the attempts [tr] were made from offset [start]: the
    furthest offset; the groups in order; and for every group the expected rules, the unexpected
    rules and the misuses observed at that offset, groups without any of them being absent. *)
Definition reports (start : nat) (tr : list event) (rep : nat * list (option rule * tracked)) : Prop :=
  let p := furthest start tr in
  fst rep = p /\
  (forall i j u v, i < j -> nth_error (map fst (snd rep)) i = Some u ->
     nth_error (map fst (snd rep)) j = Some v -> key_lt u v) /\
  forall u, lookup (snd rep) u =
    match squeeze (expected_list p u tr), squeeze (unexpected_list p u tr), misuse_list p u tr with
    | [], [], [] => None
    | a, b, c => Some (a, b, c)
    end.
