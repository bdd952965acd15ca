(** C79: equality and hashes of syntax trees (core/src/span.rs, position.rs, typed/template, generator/src/typed/generator.rs). *)
From Coq Require Import String List NArith ZArith Arith Bool Lia.
From Verif Require Import Model_Text Model_Position Model_Span Model_Stack Model_Tracker Model_Node Model_Equality
  Spec_Text Spec_Peg Spec_Run Spec_Yield Spec_Getter Spec_Equality Spec_Moved Proof_Text Proof_Yield Proof_Node Proof_Run Proof_Fuel Proof_Entry Proof_Moved Proof_Equality
  Example_Generator Thm_Generated Thm_Lossless Thm_Moved.
Import ListNotations.
Open Scope list_scope.

(** Values are equal just if they differ in nothing but spans, and the spans are the same parts of the
    same memory. *)
Theorem C79_equal : forall z v w,
  value_eqb v w = true <-> with_span z v = with_span z w /\ Forall2 same_place (spans v) (spans w).
Proof. exact eqb_alike. Qed.
Print Assumptions C79_equal.
(** A number and the part of an input that it is in. *)
Definition digits_value (a : N) (s : text) : value := VRule 3%N (VRep [VChar 49%N; VChar 50%N]) (mkSpan a s 1 3).
Example C79_equal_ex : value_eqb (digits_value 0 (lit "-12")) (digits_value 0 (lit "-12")) = true /\
  value_eqb (digits_value 0 (lit "-12")) (digits_value 7 (lit "-12")) = false /\
  with_span (mkSpan 0 [] 0 0) (digits_value 0 (lit "-12")) = with_span (mkSpan 0 [] 0 0) (digits_value 7 (lit "-12")).
Proof. repeat split. Qed.

(** Equality is an equivalence. *)
Theorem C79_equivalence :
  (forall v, value_eqb v v = true) /\ (forall v w, value_eqb v w = value_eqb w v) /\
  (forall u v w, value_eqb u v = true -> value_eqb v w = true -> value_eqb u w = true).
Proof.
  assert (Sy : forall v w, value_eqb v w = true -> value_eqb w v = true).
  { intros v w H. apply (C79_equal (mkSpan 0 [] 0 0)) in H. apply (C79_equal (mkSpan 0 [] 0 0)). destruct H as (E & F). split; [congruence|].
    clear E. induction F as [|a b l k (A & B & C & D) F IH]; constructor; [repeat split; congruence|exact IH]. }
  split; [|split].
  - intro v. apply (C79_equal (mkSpan 0 [] 0 0)). split; [reflexivity|]. induction (spans v); constructor; [repeat split|assumption].
  - intros v w. destruct (value_eqb v w) eqn:E, (value_eqb w v) eqn:E'; try reflexivity; [apply Sy in E|apply Sy in E']; congruence.
  - intros u v w H H'. apply (C79_equal (mkSpan 0 [] 0 0)) in H, H'. apply (C79_equal (mkSpan 0 [] 0 0)). destruct H as (E & F), H' as (E' & F').
    split; [congruence|]. clear E E'. revert F'. generalize (spans w). induction F as [|a b l k (A & B & C & D) F IH]; intros m F'; inversion F' as [|? c ? m' (A' & B' & C' & D') F'']; subst;
      constructor; [repeat split; congruence|apply IH; assumption].
Qed.
Print Assumptions C79_equivalence.
(** Equal values need not be the same: the model has the text that is at an address in every span. *)
Example C79_equivalence_ex : value_eqb (digits_value 0 (lit "-12")) (digits_value 0 (lit "-13")) = true /\
  value_eqb (digits_value 0 (lit "-13")) (digits_value 0 (lit "+12")) = true /\ digits_value 0 (lit "-12") <> digits_value 0 (lit "+12").
Proof. repeat split. discriminate. Qed.

(** In one input, trees are equal just if they are the same in every field, whatever parsers they are from. *)
Theorem C79_same_input : forall addr s env property n p K p' v K' env2 property2 n2 p2 K2 p2' w K2',
  boundary s p -> Forall (in_input addr s) K -> yields addr s env property n p K (Some (p', v, K')) ->
  boundary s p2 -> Forall (in_input addr s) K2 -> yields addr s env2 property2 n2 p2 K2 (Some (p2', w, K2')) ->
  (value_eqb v w = true <-> v = w).
Proof.
  intros until K2'. intros B F Y B2 F2 Y2. split; [|intros <-; apply (proj1 C79_equivalence)]. intro H.
  apply (C79_equal (mkSpan 0 [] 0 0)) in H. destruct H as (E & S). apply (rebuild _ _ _ E).
  assert (I1 := tree_spans _ _ _ _ _ _ _ _ _ _ B F Y). assert (I2 := tree_spans _ _ _ _ _ _ _ _ _ _ B2 F2 Y2).
  clear - S I1 I2. induction S as [|a b l k (A & B & C & D) S IH]; [reflexivity|]. inversion I1 as [|? ? (Pa & Pi & _)]; subst. inversion I2 as [|? ? (Qa & Qi & _)]; subst.
  f_equal; [|auto]. destruct a, b. cbn in *. congruence.
Qed.
Print Assumptions C79_same_input.

(** Trees of one rule in one input with the same stack are equal just if they begin at the same place. *)
Theorem C79_place : forall addr s env property r args K p p' v K' p2 p2' w K2',
  boundary s p -> boundary s p2 -> Forall (in_input addr s) K ->
  yields addr s env property (Rule r args) p K (Some (p', v, K')) -> yields addr s env property (Rule r args) p2 K (Some (p2', w, K2')) ->
  (value_eqb v w = true <-> p = p2).
Proof.
  intros until K2'. intros B B2 F Y Y2. rewrite (C79_same_input _ _ _ _ _ _ _ _ _ _ _ _ _ _ _ _ _ _ B F Y B2 F Y2).
  assert (V : valid_stack K) by (clear - F; induction F as [|a K (_ & _ & m & T) F (Ks & IH)]; [exists []; constructor|exists (m :: Ks); constructor; assumption]).
  split.
  - intros <-. apply (rule_yield _ _ _ _ _ _ _ _ _ B V) in Y. apply (rule_yield _ _ _ _ _ _ _ _ _ B2 V) in Y2.
    destruct Y as [(q & c & J & _ & E)|(_ & E)]; [|discriminate E]. destruct Y2 as [(q2 & c2 & J2 & _ & E2)|(_ & E2)]; [|discriminate E2].
    injection E as -> -> ->. injection E2 as E2. congruence.
  - intros <-. assert (E := yields_det _ _ _ _ _ _ _ _ _ Y Y2). congruence.
Qed.
Print Assumptions C79_place.

(** Trees of a text and of a copy of it elsewhere are equal just if there is no span in them. *)
Theorem C79_copies : forall env property addr addr2 s n k v k2 w, addr <> addr2 ->
  text_try_parse addr s env property k n = Ret (inl v) -> text_try_parse addr2 s env property k2 n = Ret (inl w) ->
  (value_eqb v w = true <-> spans v = []).
Proof.
  intros env property addr addr2 s n k v k2 w N H H2.
  destruct (C78_copies env property addr addr2 s n k _ H) as (r2 & k0 & A & B). destruct r2 as [v2|]; [|destruct B]. destruct B as (M & _).
  assert (v2 = w) as ->.
  { assert (L : k0 <= k0 + k2) by lia. assert (L' : k2 <= k0 + k2) by lia. specialize (A _ L). unfold text_try_parse, to_result in A, H2.
    destruct (try_parse_with addr2 s env property k2 n from_start init_state) as [([u|], st)| |] eqn:E; try discriminate H2.
    rewrite (full_fuel _ _ _ _ _ _ _ _ _ _ L' E) in A. congruence. }
  destruct (moved_spans _ _ _ _ _ _ (mkSpan 0 [] 0 0) v w M) as (E & S). rewrite (C79_equal (mkSpan 0 [] 0 0)). split.
  - intros (_ & F). destruct (spans v) as [|a l]; [reflexivity|]. exfalso. destruct (spans w) as [|b l']; [inversion S|].
    inversion S as [|? ? ? ? S1 _ Ea Eb]. inversion F as [|? ? ? ? F1 _ Ec Ed].
    destruct S1 as [(? & ? & ? & _ & Sa & Sb)|[]], F1 as (Q & _). apply N. rewrite Sa, Sb in Q. exact Q.
  - intro Z. split; [exact E|]. rewrite Z in *. inversion S. constructor.
Qed.
Print Assumptions C79_copies.
(** Those of rules have spans, so they are never equal. *)
Theorem C79_rule_copies : forall env property addr addr2 s r args k v k2 w, addr <> addr2 ->
  text_try_parse addr s env property k (Rule r args) = Ret (inl v) -> text_try_parse addr2 s env property k2 (Rule r args) = Ret (inl w) ->
  value_eqb v w = false.
Proof.
  intros env property addr addr2 s r args k v k2 w N H H2. apply not_true_is_false. rewrite (C79_copies _ _ _ _ _ _ _ _ _ _ N H H2).
  assert (Y : exists p K', yields addr s env property (Rule r args) (blen []) [] (Some (p, v, K'))).
  { apply full_ok in H. unfold text_try_parse_partial, to_result in H.
    destruct (try_parse addr s env property k (Rule r args) from_start init_state) as [([(q, u)|], st)| |] eqn:E; try discriminate H.
    injection H as -> ->. exists (blen s), (stk_items (st_stack st)).
    eapply (yields_once addr s env property (Rule r args) [] s [] _ k [] (tracker_new 0)); [reflexivity|apply valid_nil|].
    change (visible (try_parse addr s env property k (Rule r args) from_start init_state) = Ret (Some (blen s, v, stk_items (st_stack st)))). rewrite E. reflexivity. }
  destruct Y as (p & K' & Y).
  apply (rule_yield _ _ _ _ _ _ _ _ _ (start_boundary s) valid_nil) in Y. destruct Y as [(q & c & J & _ & E)|(_ & E)]; [|discriminate E].
  injection E as _ -> _. cbn [spans]. intro Z. apply app_eq_nil in Z. destruct Z as (_ & Z). discriminate Z.
Qed.
Print Assumptions C79_rule_copies.
(** The same text at two addresses. *)
Example C79_rule_copies_ex : exists v w,
  tree 0 (lit "(a,b)=(a,b)") twice_env (twice_parser 2) = Some v /\ tree 7 (lit "(a,b)=(a,b)") twice_env (twice_parser 2) = Some w /\ value_eqb v w = false.
Proof.
  destruct C76_grammar_ex as (v & _ & w & A & _ & _ & B & _). exists v, w. split; [exact A|]. split; [exact B|].
  eapply (C79_rule_copies twice_env sample_digit 0 7); [discriminate|apply tree_spec, A|apply tree_spec, B].
Qed.
(** Digits without a rule have no spans. *)
Definition digits : node := RepMinMax (CharRange 48%N 57%N) Empty 1 usize_max.
Example C79_copies_ex : exists v, tree 0 (lit "12") no_rules digits = Some v /\ tree 7 (lit "12") no_rules digits = Some v /\ spans v = [].
Proof. eexists. split; [vm_compute; reflexivity|]. split; [vm_compute; reflexivity|reflexivity]. Qed.

(** That equal texts have equal trees is false. *)
Theorem C79_copies_refuted :
  ~ (forall env property addr addr2 s n k v k2 w,
     text_try_parse addr s env property k n = Ret (inl v) -> text_try_parse addr2 s env property k2 n = Ret (inl w) -> value_eqb v w = true).
Proof.
  intro H. destruct C79_rule_copies_ex as (v & w & A & B & N).
  rewrite (H twice_env sample_digit 0%N 7%N _ _ 60 v 60 w (tree_spec _ _ _ _ _ A) (tree_spec _ _ _ _ _ B)) in N. discriminate N.
Qed.
Print Assumptions C79_copies_refuted.

(** Two numbers in one input. *)
Definition number_env (r : rule) : rule_def := mkRule false (fun _ => digits).
Lemma digits_at : forall p q v, p <= 3 -> boundary (lit "12+12") p ->
  visible (try_parse 0 (lit "12+12") number_env sample_digit 9 (Rule 3%N []) p (mkState (mkStack [] []) (tracker_new 0))) = Ret (Some (q, v, [])) ->
  yields 0 (lit "12+12") number_env sample_digit (Rule 3%N []) p [] (Some (q, v, [])).
Proof. intros p q v _ (pre & post & E & ->) H. eapply yields_once; [exact E|apply valid_nil|exact H]. Qed.
Definition number_at (p q : nat) : value := VRule 3%N (VRep [VChar 49%N; VChar 50%N]) (mkSpan 0 (lit "12+12") p q).
Example C79_place_ex :
  boundary (lit "12+12") 0 /\ boundary (lit "12+12") 3 /\ Forall (in_input 0 (lit "12+12")) [] /\
  yields 0 (lit "12+12") number_env sample_digit (Rule 3%N []) 0 [] (Some (2, number_at 0 2, [])) /\
  yields 0 (lit "12+12") number_env sample_digit (Rule 3%N []) 3 [] (Some (5, number_at 3 5, [])).
Proof.
  assert (B0 : boundary (lit "12+12") 0) by (exists [], (lit "12+12"); auto).
  assert (B3 : boundary (lit "12+12") 3) by (exists (lit "12+"), (lit "12"); auto).
  split; [exact B0|]. split; [exact B3|]. split; [constructor|]. split; apply digits_at; try assumption; try lia; vm_compute; reflexivity.
Qed.

(** The same number and another. *)
Example C79_same_input_ex : value_eqb (number_at 0 2) (number_at 0 2) = true /\ number_at 0 2 <> number_at 3 5 /\
  with_span (mkSpan 0 [] 0 0) (number_at 0 2) = with_span (mkSpan 0 [] 0 0) (number_at 3 5).
Proof.
  destruct C79_place_ex as (B0 & B3 & F & Y0 & Y3). split; [|split; [|reflexivity]].
  - apply (C79_same_input _ _ _ _ _ _ _ _ _ _ _ _ _ _ _ _ _ _ B0 F Y0 B0 F Y0). reflexivity.
  - rewrite <- (C79_same_input _ _ _ _ _ _ _ _ _ _ _ _ _ _ _ _ _ _ B0 F Y0 B3 F Y3). discriminate.
Qed.

(** Equal values are hashed the same. *)
Theorem C79_hash : forall v w, value_eqb v w = true -> hash_calls v = hash_calls w.
Proof. exact eqb_calls. Qed.
Print Assumptions C79_hash.
(** Different values of one type are given differently to the hasher. *)
Theorem C79_hash_differs : forall env n v w h, value_of env n v -> value_of env n w ->
  hash_calls v = Some h -> hash_calls w = Some h -> value_eqb v w = true.
Proof.
  intros env n v w h V W A B. exact (proj1 (calls_prefix env v n w h h [] [] V W A B eq_refl)).
Qed.
Print Assumptions C79_hash_differs.
(** So do values that follow each other, as the fields of a user's struct do. *)
Theorem C79_hash_follows : forall env n v w a b x y, value_of env n v -> value_of env n w ->
  hash_calls v = Some a -> hash_calls w = Some b -> a ++ x = b ++ y -> value_eqb v w = true /\ x = y.
Proof. intros env n v. exact (calls_prefix env v n). Qed.
Print Assumptions C79_hash_follows.
(** A value has a hash unless there is a struct of a rule inside. *)
Theorem C79_hash_exists : forall v, hash_calls v = None <-> has_rule v.
Proof. exact no_calls. Qed.
Print Assumptions C79_hash_exists.
(** Two lists of words in which the same characters are split differently. *)
Definition words : node := RepMinMax (RepMinMax (CharRange 97%N 122%N) Empty 0 usize_max) Empty 0 usize_max.
Example C79_hash_ex :
  value_of no_rules words (VRep [VRep [VChar 97%N]; VRep []]) /\ value_of no_rules words (VRep [VRep []; VRep [VChar 97%N]]) /\
  hash_calls (VRep [VRep [VChar 97%N]; VRep []]) = Some [H_usize 2; H_usize 1; H_u32 97%N; H_usize 0] /\
  hash_calls (VRep [VRep []; VRep [VChar 97%N]]) = Some [H_usize 2; H_usize 0; H_usize 1; H_u32 97%N] /\
  has_rule (VOpt (Some (digits_value 0 (lit "-12")))).
Proof.
  split; [|split; [|repeat split; repeat constructor]].
  - unfold words. repeat constructor.
  - unfold words. repeat constructor.
Qed.
(** Positions: equal just if they are hashed the same. *)
Theorem C79_position : forall p q, position_eqb p q = true <-> hash_position p = hash_position q.
Proof.
  intros p q. unfold position_eqb, str_ptr_eq, hash_position. rewrite !andb_true_iff, N.eqb_eq, !Nat.eqb_eq. split.
  - intros ((A & B) & C). rewrite A, B, C. reflexivity.
  - intro E. injection E as A B C. apply Nat2N.inj in B, C. auto.
Qed.
Print Assumptions C79_position.
Example C79_position_ex : position_eqb (mkPosition 0 (lit "ab") 1) (mkPosition 0 (lit "ab") 1) = true /\
  hash_position (mkPosition 0 (lit "ab") 1) <> hash_position (mkPosition 7 (lit "ab") 1).
Proof. split; [reflexivity|discriminate]. Qed.
