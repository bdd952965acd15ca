(** Which expressions are displayed in the notation of grammars. *)
From Coq Require Import String List NArith ZArith Arith Bool.
From Verif Require Import Model_Text Model_Meta Spec_Written.
Import ListNotations.
Open Scope list_scope.

Definition scalars (s : text) : Prop := Forall (fun c => is_scalar c = true) s.
Definition predicate (t : tree) : Prop := exists u, t = T_pos u \/ t = T_neg u.
(** No insensitive strings and no bounded repetitions, whose display is different from the notation; no
    quotation mark as bound of a range; no operator applied to a predicate, since parentheses are left
    out. All characters are scalar values, as always in Rust. *)
Fixpoint showable (t : tree) : Prop :=
  match t with
  | T_str s => scalars s
  | T_insens _ | T_times _ _ _ => False
  | T_range a b => scalars [a; b] /\ a <> 34%N /\ b <> 34%N
  | T_name _ | T_slice _ _ _ => True
  | T_call _ l => fold_right (fun a p => showable a /\ p) True l
  | T_pos a | T_neg a => showable a
  | T_seq a b _ | T_choice a b => showable a /\ showable b
  | T_opt a | T_rep a | T_once a | T_sep a _ => showable a /\ ~ predicate a
  end.
