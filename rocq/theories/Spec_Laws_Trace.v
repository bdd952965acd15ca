(** The laws of Spec_Laws.v under which the same rules are tried, in the same places and the same order. Left out are the laws that try
    something twice or that turn what is wanted into what is not. *)
From Coq Require Import String List NArith.
From Verif Require Import Model_Text Model_Message Model_Meta Spec_Laws.
Import ListNotations.
Open Scope list_scope.

(** [e] and [e'] are the sides of [a | a = a], of [&a a = a], or of one of the two laws that replace a wanted match by an unwanted one. *)
Definition tries_otherwise (e e' : parse_expr) : Prop :=
  (exists a b, e = PChoice a b /\ n_expr a = n_expr b /\ e' = n_expr a) \/
  (exists a b sp, e = PSeq (mkNode (PPosPred a) sp) b TriviaNone /\ n_expr a = n_expr b /\ e' = n_expr b) \/
  (exists a sp, e = PPosPred a /\ e' = PNegPred (mkNode (PNegPred a) sp)) \/
  (exists a sp, e = PNegPred (mkNode (PPosPred a) sp) /\ e' = PNegPred a).
Definition tracing_law (e e' : parse_expr) : Prop := law e e' /\ ~ tries_otherwise e e'.
