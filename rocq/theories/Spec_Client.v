(** What happened to a tracker, as a list of the attempts and misuses in the order in which they ended. *)
From Coq Require Import List NArith ZArith Arith Bool.
From Verif Require Import Model_Text Model_Position Model_Tracker Model_Client Spec_Run.
Import ListNotations.
Open Scope list_scope.

(** Like [event] of Spec_Run.v, with positions. *)
Inductive pevent :=
| PAttempt (chain : list (rule * position)) (r : rule) (at_ : position) (positive succeeded : bool)
| PSpecial (chain : list (rule * position)) (at_ : position) (e : special_error).
Definition pevent_at (e : pevent) : position := match e with PAttempt _ _ p _ _ => p | PSpecial _ p _ => p end.
Definition is_attempt (e : pevent) : bool := match e with PAttempt _ _ _ _ _ => true | PSpecial _ _ _ => false end.

(** What the actions report, done inside the rules [chain] (innermost first) in a positive or negative
    context. A rule is an attempt only if no other rule was tried inside it. *)
Fixpoint happens (chain : list (rule * position)) (positive : bool) (a : action) : list pevent :=
  match a with
  | Repeat pos => [PSpecial chain pos RepeatTooManyTimes]
  | Bound pos start stop => [PSpecial chain pos (SliceOutOfBound start stop)]
  | Bare pos => [PSpecial chain pos EmptyStack]
  | Polarity b body => flat_map (happens chain b) body
  | Within r pos ok body =>
      let inside := flat_map (happens ((r, pos) :: chain) positive) body in
      inside ++ if existsb is_attempt inside then [] else [PAttempt chain r pos positive ok]
  end.

(** Positions as offsets. *)
Definition offsets (chain : list (rule * position)) : list (rule * nat) := map (fun rp => (fst rp, p_pos (snd rp))) chain.
Definition to_event (e : pevent) : event :=
  match e with
  | PAttempt chain r p b ok => Attempt (offsets chain) r (p_pos p) b ok
  | PSpecial chain p x => Special (offsets chain) (p_pos p) x
  end.

(** All the positions that the action mentions satisfy [P]. *)
Inductive all_at (P : position -> Prop) : action -> Prop :=
| AA_repeat pos : P pos -> all_at P (Repeat pos)
| AA_bound pos start stop : P pos -> all_at P (Bound pos start stop)
| AA_bare pos : P pos -> all_at P (Bare pos)
| AA_polarity b body : Forall (all_at P) body -> all_at P (Polarity b body)
| AA_within r pos ok body : P pos -> Forall (all_at P) body -> all_at P (Within r pos ok body).

(** A position of the text [s] stored at [addr]. *)
Definition at_text (addr : N) (s : text) (p : position) : Prop := p_addr p = addr /\ p_input p = s.
(** All positions that the tracker has are in one text. *)
Definition good_tracker (addr : N) (s : text) (t : ptracker) : Prop :=
  at_text addr s (pt_position t) /\ Forall (fun rp => at_text addr s (snd (fst rp))) (pt_stack t).
(** A tracker with offsets. *)
Definition to_tracker (t : ptracker) : tracker :=
  mkTracker (p_pos (pt_position t)) (pt_positive t) (pt_attempts t) (map (fun rp => (fst (fst rp), p_pos (snd (fst rp)), snd rp)) (pt_stack t)).
