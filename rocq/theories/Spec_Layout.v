(** Which Rust values hold which others by value. *)
From Coq Require Import List NArith Relations.
From Verif Require Import Model_Text Model_Tracker Model_Node.
Import ListNotations.

Section Layout.
Variable env : rule -> rule_def.
(** The rules whose content is behind a [Box]. *)
Variable boxed : rule -> bool.

(** A value of the first type holds a value of the second directly, not behind a pointer.
    - [Positive], [push]: field [content] (core/src/typed/template/mod.rs L334-339, L909-914); [Negative]
      holds only a [PhantomData] (L402-406).
    - [Option<T>].
    - Sequences: one field for each item; the trivia are only named in a [PhantomData]
      (core/src/sequence.rs L21-28).
    - Choices: one variant for each item (core/src/choice.rs L18-23).
    - [RepMinMax]: the content is a [Vec] (core/src/typed/template/repetition.rs L41-46).
    - Rules: field [content] of the content type or a [Box] of it (generator/src/typed/generator.rs
      L223-265). *)
Inductive holds : node -> node -> Prop :=
| H_positive t : holds (Positive t) t
| H_push t : holds (Push t) t
| H_opt t : holds (Opt t) t
| H_seq fields t trivia : In (t, trivia) fields -> holds (Seq fields) t
| H_choice variants t : In t variants -> holds (Choice variants) t
| H_rule r args : boxed r = false -> holds (Rule r args) (rd_body (env r) args).

(** A type has a size if there is no infinite sequence of values that hold each other. *)
Definition sized : node -> Prop := Acc (fun b a => holds a b).
(** Directly or indirectly. *)
Definition holds_inside : node -> node -> Prop := clos_trans _ holds.
End Layout.
