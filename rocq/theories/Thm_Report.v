(** Theorems about error reports: C29, C30, C31. *)
From Coq Require Import String List NArith ZArith Arith Bool Lia.
From Verif Require Import Model_Text Model_Position Model_Span Model_Stack Model_Tracker Model_Node
  Spec_Text Spec_Peg Spec_Run Spec_Tracker Spec_Yield Proof_Run Proof_Yield Proof_Complete Proof_Entry Proof_Report
  Example_Grammar.
Import ListNotations.
Open Scope list_scope.

(** C29: the reported offset is the furthest offset of the attempts of the run, and a boundary. *)
Theorem C29_partial_position : forall addr s env property k n t,
  text_try_parse_partial addr s env property k n = Ret (inr t) ->
  exists tr, run addr s env property [] true n [] s [] RFail tr /\
    fst (finish t) = furthest 0 tr /\ boundary s (fst (finish t)).
Proof. exact partial_position. Qed.
Print Assumptions C29_partial_position.
Example C29_partial_position_ex :
  option_map (fun t => fst (finish t))
    (match text_try_parse_partial 0 (lit "ab=1") sample no_property 20 (Seq [(n_word, Empty); (Str (lit "="), Empty); (n_word, Empty)]) with
     | Ret (inr t) => Some t | _ => None end) = Some 3.
Proof. reflexivity. Qed.

Theorem C29_monotone : forall addr s env property k n p K sv t o st', boundary s p -> valid_stack K ->
  try_parse addr s env property k n p (mkState (mkStack K sv) t) = Ret (o, st') ->
  tk_position t <= tk_position (st_tracker st').
Proof. exact position_monotone. Qed.
Print Assumptions C29_monotone.
Example C29_monotone_ex : boundary (lit "ab") 1 /\ valid_stack [] /\
  try_parse 0 (lit "ab") sample no_property 20 n_word 1 (mkState stack_new (tracker_new 2))
  = Ret (Some (2, VRule r_word (VPush (VRep [VChar 98%N])) (mkSpan 0 (lit "ab") 1 2)),
         mkState (mkStack [mkSpan 0 (lit "ab") 1 2] []) (tracker_new 2)).
Proof. split; [exists (lit "a"), (lit "b"); auto|]. split; [exists []; constructor|reflexivity]. Qed.

(** C30: the whole report of a failed parse is determined by its attempts. *)
Theorem C30_partial_report : forall addr s env property k n t,
  text_try_parse_partial addr s env property k n = Ret (inr t) ->
  exists tr, run addr s env property [] true n [] s [] RFail tr /\ reports 0 tr (finish t).
Proof. exact whole_report. Qed.
Print Assumptions C30_partial_report.
Example C30_partial_report_ex :
  text_try_parse_partial 0 (lit "ab=1") sample no_property 20
    (Seq [(n_word, Empty); (Str (lit "="), Empty); (Choice [n_word; Rule 9%N []], Empty)])
  = Ret (inr (mkTracker 3 true [(None, ([1; 9]%N, [], []))] [])).
Proof. reflexivity. Qed.

(** Exactly what the attempts of the run say is listed. *)
Theorem C30_listed : forall start tr rep, reports start tr rep ->
  forall u, let p := furthest start tr in
  (forall r, (exists a b c, lookup (snd rep) u = Some (a, b, c) /\ In r a) <->
             exists e, In e tr /\ expected_event p u r e) /\
  (forall r, (exists a b c, lookup (snd rep) u = Some (a, b, c) /\ In r b) <->
             exists e, In e tr /\ unexpected_event p u r e) /\
  (forall x, (exists a b c, lookup (snd rep) u = Some (a, b, c) /\ In x c) <->
             exists e, In e tr /\ misuse_event p u x e).
Proof. exact reports_members. Qed.
Print Assumptions C30_listed.
Example C30_listed_ex :
  exists rep, reports 0 [Attempt [] 1%N 0 true true; Attempt [(3%N, 0)] 1%N 3 true false] rep /\
    lookup (snd rep) (Some 3%N) = Some ([1%N], [], []).
Proof.
  exists (3, [(Some 3%N, ([1%N], [], []))]). split; [|reflexivity].
  apply represents_reports. exact (Proof_Tracker.represents_all 0 [Attempt [] 1%N 0 true true; Attempt [(3%N, 0)] 1%N 3 true false]).
Qed.

(** The attempts of a run, and so the report, are determined by expression and text. *)
Theorem C30_attempts_determined : forall addr s env property chain pol n pre post K r tr r' tr',
  run addr s env property chain pol n pre post K r tr ->
  run addr s env property chain pol n pre post K r' tr' -> r = r' /\ tr = tr'.
Proof. exact run_det. Qed.
Print Assumptions C30_attempts_determined.
Example C30_attempts_determined_ex :
  run 0 (lit "1") sample no_property [] true (Rule 9%N []) [] (lit "1") [] RFail [Attempt [] 9%N 0 true false].
Proof.
  apply (U_rule_fail _ _ _ _ [] true 9%N [] [] (lit "1") [] []). apply (U_terminal_fail _ _ _ _ [(9%N, 0)] true NONE [] (lit "1") [] []).
  - constructor.
  - apply T_none.
Qed.

(** A failed parse need not name any rule: the failure of an expression in a rule that tried other
    rules is not listed. *)
Theorem C30_failure_names_a_rule_refuted : exists s n t,
  text_try_parse_partial 0 s sample no_property 20 n = Ret (inr t) /\ snd (finish t) = [].
Proof. exists (lit "ab=ac"), (Rule r_twice []). eexists. split; vm_compute; reflexivity. Qed.
Print Assumptions C30_failure_names_a_rule_refuted.

(** C31: the nesting and the polarity are put back. *)
Theorem C31_balanced : forall addr s env property k n p K sv t o st', boundary s p -> valid_stack K ->
  try_parse addr s env property k n p (mkState (mkStack K sv) t) = Ret (o, st') ->
  map fst (tk_stack (st_tracker st')) = map fst (tk_stack t) /\
  tl (tk_stack (st_tracker st')) = tl (tk_stack t) /\
  tk_positive (st_tracker st') = tk_positive t.
Proof. exact nesting_balanced. Qed.
Print Assumptions C31_balanced.
Example C31_balanced_ex : boundary (lit "a=") 0 /\ valid_stack [] /\
  try_parse 0 (lit "a=") sample no_property 20 (Negative (Seq [(n_word, Empty); (n_word, Empty)])) 0
    (mkState stack_new (mkTracker 0 true [] [(3%N, 0, false)]))
  = Ret (Some (0, VUnit), mkState stack_new (mkTracker 1 true [] [(3%N, 0, true)])).
Proof. split; [exists [], (lit "a="); auto|]. split; [exists []; constructor|reflexivity]. Qed.
