(** Theorems about whole parses: PEG semantics and the entry points. C15, C16, C24. *)
From Coq Require Import String List NArith ZArith Arith Bool Lia.
From Verif Require Import Model_Text Model_Position Model_Span Model_Stack Model_Tracker Model_Node
  Spec_Text Spec_Peg Spec_Run Spec_Tracker Spec_Yield Proof_Run Proof_Peg Proof_Fuel Proof_Yield Proof_Node
  Proof_Entry Example_Grammar.
Import ListNotations.
Open Scope list_scope.

(** C15: whatever a parse returns is what the grammar prescribes. *)
Theorem C15_sound : forall addr s env property k n pre post K Ks sv t,
  s = pre ++ post -> Forall2 span_text K Ks ->
  let st := mkState (mkStack K sv) t in
  (forall p' v st', try_parse addr s env property k n (blen pre) st = Ret (Some (p', v), st') ->
     exists m post' Ks', post = m ++ post' /\ p' = blen (pre ++ m) /\
       Forall2 span_text (stk_items (st_stack st')) Ks' /\
       peg env property n pre post Ks (Ok (pre ++ m) post' Ks')) /\
  (forall st', try_parse addr s env property k n (blen pre) st = Ret (None, st') ->
     peg env property n pre post Ks Fail).
Proof. exact peg_sound. Qed.
Print Assumptions C15_sound.
Example C15_sound_ex :
  let s := lit "ab = ab" in
  visible (try_parse 0 s sample no_property 20 (Rule r_twice []) 0 at_new)
  = Ret (Some (7, VRule r_twice (VSeq [VRule r_word (VPush (VRep [VChar 97%N; VChar 98%N])) (mkSpan 0 s 0 2);
                                       VUnit; VSpan (mkSpan 0 s 5 7)]) (mkSpan 0 s 0 7),
               [mkSpan 0 s 0 2])).
Proof. reflexivity. Qed.

(** C16: whatever the grammar prescribes is what all parses with enough steps return, whatever was
    tracked before; the prescribed result is unique; and more steps do not change a result. *)
Theorem C16_complete : forall addr s env property n pre post K Ks,
  s = pre ++ post -> Forall2 span_text K Ks ->
  (forall m post' Ks', peg env property n pre post Ks (Ok (pre ++ m) post' Ks') ->
     exists v K', Forall2 span_text K' Ks' /\
       yields addr s env property n (blen pre) K (Some (blen (pre ++ m), v, K'))) /\
  (peg env property n pre post Ks Fail -> yields addr s env property n (blen pre) K None).
Proof. exact peg_yields. Qed.
Print Assumptions C16_complete.
Example C16_complete_ex :
  peg sample no_property (Seq [(Push Any, Empty); (Peek, Empty)]) [] (lit "aab") []
    (Ok (lit "aa") (lit "b") [lit "a"]) /\
  peg sample no_property (Negative (Rule r_word [])) [] (lit "1") [] (Ok [] (lit "1") []).
Proof.
  split.
  - apply P_seq. apply I_cons with (pre' := lit "a") (post' := lit "ab") (K' := [lit "a"]).
    + apply (P_push_ok _ _ Any [] (lit "aab") [] (lit "a") (lit "ab") []).
      apply P_terminal. apply T_any. apply (OC_ok (fun _ => True) [] (lit "aab") [] 97%N); auto.
    + apply I_cons with (pre' := lit "a") (post' := lit "ab") (K' := [lit "a"]).
      * apply P_terminal, T_empty.
      * apply I_cons with (pre' := lit "aa") (post' := lit "b") (K' := [lit "a"]); [|apply I_nil].
        apply P_terminal. apply T_peek with (t := lit "a") (K' := []); [reflexivity|].
        apply (OT_ok (lit "a") (lit "a") (lit "ab") [lit "a"] (lit "b")). reflexivity.
  - apply P_negative_ok. apply P_rule. apply P_push_fail. apply P_rep. apply R_fail; try reflexivity.
    apply I_fail. apply P_terminal. apply T_range. apply OC_fail. intros c r E. injection E as <- _.
    unfold not. intros (A & _). compute in A. apply A. reflexivity.
Qed.

Theorem C16_unique : forall env property n pre post K r r',
  peg env property n pre post K r -> peg env property n pre post K r' -> r = r'.
Proof. exact peg_det. Qed.
Print Assumptions C16_unique.
Example C16_unique_ex : peg sample no_property (Str (lit "a")) [] (lit "ab") [] (Ok (lit "a") (lit "b") []).
Proof. apply P_terminal, T_str, (OT_ok (lit "a") [] (lit "ab") [] (lit "b")). reflexivity. Qed.

Theorem C16_outcome_unique : forall addr s env property n p K o o',
  yields addr s env property n p K o -> yields addr s env property n p K o' -> o = o'.
Proof. exact yields_det. Qed.
Print Assumptions C16_outcome_unique.
Example C16_outcome_unique_ex :
  yields 0 (lit "ab") sample no_property Any 0 [] (Some (1, VChar 97%N, [])).
Proof.
  intros sv t. exists 1. intros k L. destruct k as [|k]; [lia|]. split; reflexivity.
Qed.

Theorem C16_more_fuel : forall addr s env property k k' n p st, k <= k' ->
  (try_parse addr s env property k n p st <> OutOfFuel ->
   try_parse addr s env property k' n p st = try_parse addr s env property k n p st) /\
  (check addr s env property k n p st <> OutOfFuel ->
   check addr s env property k' n p st = check addr s env property k n p st).
Proof. exact more_fuel. Qed.
Print Assumptions C16_more_fuel.
Example C16_more_fuel_ex :
  try_parse 0 (lit "ab = ab") sample no_property 20 (Rule r_twice []) 0 at_new <> OutOfFuel.
Proof. vm_compute. discriminate. Qed.

(** C24: parsing a complete text. *)
Theorem C24_full_success : forall addr s env property k n v,
  text_try_parse addr s env property k n = Ret (inl v) <->
  text_try_parse_partial addr s env property k n = Ret (inl (blen s, v)).
Proof. exact full_ok. Qed.
Print Assumptions C24_full_success.
Example C24_full_success_ex :
  text_try_parse_partial 0 (lit "ab") sample no_property 20 n_word
  = Ret (inl (2, VRule r_word (VPush (VRep [VChar 97%N; VChar 98%N])) (mkSpan 0 (lit "ab") 0 2))).
Proof. reflexivity. Qed.

(** An error of the full parse is the error of the partial parse, or the partial parse stopped at
    [p] before the end; then the end of input is listed as expected at [p] unless something was
    tracked further on, in which case the report is that of the partial parse. *)
Theorem C24_full_error : forall addr s env property k n t,
  text_try_parse addr s env property k n = Ret (inr t) ->
  text_try_parse_partial addr s env property k n = Ret (inr t) \/
  exists p v tr, text_try_parse_partial addr s env property k n = Ret (inl (p, v)) /\ p < blen s /\
    (exists pre' post' K', run addr s env property [] true n [] s [] (ROk pre' post' K' v) tr) /\
    reports 0 (tr ++ [Attempt [] EOI p true false]) (finish t) /\
    boundary s (tk_position t) /\ p <= tk_position t /\
    (furthest 0 tr <= p -> tk_position t = p /\
       exists a b c, lookup (tk_attempts t) None = Some (a, b, c) /\ In EOI a) /\
    (p < furthest 0 tr -> reports 0 tr (finish t)).
Proof. exact full_error. Qed.
Print Assumptions C24_full_error.
Example C24_full_error_ex :
  text_try_parse 0 (lit "ab1") sample no_property 20 n_word
  = Ret (inr (mkTracker 2 true [(None, ([EOI], [], []))] [])).
Proof. reflexivity. Qed.

(** The claim that the end of input is always listed when only trailing text is left is false: an
    optional part that got further hides it. *)
Theorem C24_eoi_always_listed_refuted : exists s env n p v t,
  text_try_parse_partial 0 s env no_property 20 n = Ret (inl (p, v)) /\ p < blen s /\
  text_try_parse 0 s env no_property 20 n = Ret (inr t) /\
  forall u a b c, lookup (tk_attempts t) u = Some (a, b, c) -> ~ In EOI a.
Proof.
  exists (lit "ac"),
    (fun r => mkRule false (fun _ => if N.eqb r 1 then Opt (Seq [(Str (lit "a"), Empty); (Rule 2%N [], Empty)])
                                     else Str (lit "b"))), (Rule 1%N []).
  do 3 eexists. split; [vm_compute; reflexivity|]. split; [vm_compute; lia|]. split; [vm_compute; reflexivity|].
  intros u a b c. cbn [tk_attempts lookup].
  match goal with |- context [key_compare u ?x] => destruct (key_compare u x) end; try discriminate.
  intro E. injection E as <- <- <-. intro I. cbn in I. destruct I as [I|[]]. discriminate I.
Qed.
Print Assumptions C24_eoi_always_listed_refuted.
