(** Theorems about error messages: C32. *)
From Coq Require Import String List NArith ZArith Arith Bool Lia.
From Verif Require Import Model_Text Model_Position Model_Span Model_Stack Model_Tracker Model_Node Model_Pairs
  Model_Message Spec_Text Spec_Peg Spec_Run Spec_Tracker Spec_Yield Spec_Pairs Spec_Message Proof_Message
  Example_Grammar.
Import ListNotations.
Open Scope list_scope.

(** Names of the rules of the sample grammar. *)
Definition sample_debug (r : rule) : text :=
  match r with 0%N => lit "EOI" | 1%N => lit "word" | 3%N => lit "twice" | 4%N => lit "list" | _ => lit "other" end.

(** C32: the error of a failed parse is built without panic; its position and message. *)
Theorem C32_message : forall debug addr s env property k n t,
  text_try_parse addr s env property k n = Ret (inr t) \/
  text_try_parse_partial addr s env property k n = Ret (inr t) ->
  exists a b msg, s = a ++ b /\ tk_position t = blen a /\
    collect debug s t = Ret (blen a, msg) /\ message_for debug a (tk_attempts t) msg.
Proof. exact text_error_message. Qed.
Print Assumptions C32_message.
Example C32_message_ex :
  exists t, text_try_parse 0 (lit "ab" ++ [LF] ++ lit "x1") sample no_property 20
              (Seq [(n_word, Empty); (Newline, Empty); (n_word, Empty)]) = Ret (inr t) /\
    collect sample_debug (lit "ab" ++ [LF] ++ lit "x1") t
    = Ret (4, lit "x^---" ++ [LF] ++ lit "    Expected [EOI].").
Proof. eexists. split; vm_compute; reflexivity. Qed.

(** The same for every tracker whose position is a boundary of the input. *)
Theorem C32_any_tracker : forall debug a b t, tk_position t = blen a ->
  exists msg, collect debug (a ++ b) t = Ret (blen a, msg) /\ message_for debug a (tk_attempts t) msg.
Proof. exact collect_spec. Qed.
Print Assumptions C32_any_tracker.
Example C32_any_tracker_ex :
  collect sample_debug (lit "ab") (mkTracker 1 true
    [(None, ([3; 1; 3]%N, [], [])); (Some 4%N, ([], [1]%N, [EmptyStack; SliceOutOfBound (-2) (Some 12%Z)]))] [])
  = Ret (1, lit "a^---" ++ [LF] ++ lit "    Expected [word, twice]." ++
            [LF] ++ lit "    Unexpected [word], by list." ++
            [LF] ++ lit "    Nothing to pop or drop. (By list)" ++
            [LF] ++ lit "    Peek slice -2..12 out of bound. (By list)").
Proof. reflexivity. Qed.

(** A tracker that is not on a boundary gives an internal error at the start. *)
Theorem C32_off_boundary : forall debug s t, ~ boundary s (tk_position t) ->
  exists num, notation num (N.of_nat (tk_position t)) /\
  collect debug s t = Ret (0, lit "Internal error (invalid character index " ++ num ++ lit ").").
Proof. exact collect_off_boundary. Qed.
Print Assumptions C32_off_boundary.
Example C32_off_boundary_ex : ~ boundary (lit "ab") 31 /\
  collect sample_debug (lit "ab") (tracker_new 31) = Ret (0, lit "Internal error (invalid character index 31).").
Proof.
  split; [|reflexivity]. intros (a & b & E & L). assert (L2 : blen (a ++ b) = 2) by (rewrite <- E; reflexivity).
  rewrite Proof_Text.blen_app in L2. lia.
Qed.

(** Numbers have one notation only. *)
Theorem C32_notation_unique : forall t t' n, notation t n -> notation t' n -> t = t'.
Proof. exact notation_unique. Qed.
Print Assumptions C32_notation_unique.
Example C32_notation_unique_ex : notation (lit "120") 120%N.
Proof.
  split; [repeat apply Forall_cons; try (split; discriminate); constructor|]. split; [reflexivity|].
  split; [discriminate|]. intros r E. discriminate E.
Qed.
