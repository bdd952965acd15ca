(** C52: when parsing terminates (core/src/sequence.rs, choice.rs, core/src/typed/template/repetition.rs,
    core/src/typed/wrapper.rs, core/src/typed/traits.rs). *)
From Coq Require Import String List NArith ZArith Arith Bool Lia Relations.
From Verif Require Import Model_Text Model_Position Model_Span Model_Stack Model_Tracker Model_Node
  Spec_Text Spec_Peg Spec_Run Spec_Yield Spec_Terminate Proof_Text Proof_Run Proof_Peg Proof_Yield Proof_Node Proof_Entry Proof_Terminate Example_Grammar.
Import ListNotations.
Open Scope list_scope.

(** Without left recursion every expression has an outcome at every position with every stack, whatever
    its repetitions are. *)
Theorem C52_terminates : forall addr s env property n p K,
  boundary s p -> valid_stack K -> no_left_recursion env property n -> exists o, yields addr s env property n p K o.
Proof. exact terminates. Qed.
Print Assumptions C52_terminates.

(** So all four ways to parse a text end, without a panic. *)
Theorem C52_entry_points : forall addr s env property n, no_left_recursion env property n ->
  exists k0, forall k, k0 <= k ->
  returns (text_try_parse_partial addr s env property k n) /\ returns (text_try_parse addr s env property k n) /\
  returns (text_check_partial addr s env property k n) /\ returns (text_check addr s env property k n).
Proof. exact entries_terminate. Qed.
Print Assumptions C52_entry_points.

(** A program with finitely many expressions has no left recursion if none of its rules can reach itself
    without consuming input. *)
Theorem C52_finite : forall env property nodes, closed env nodes ->
  (forall r args, In (Rule r args) nodes -> ~ reaches_itself env property (Rule r args)) ->
  forall n, In n nodes -> no_left_recursion env property n.
Proof. exact finite_ok. Qed.
Print Assumptions C52_finite.

(** If moreover the rounds of repetitions with more than [M] rounds consume input, then the depth of the
    calls (and the number of turns of each loop) is linear in the length of the input. *)
Theorem C52_linear : forall addr s env property nodes M, closed env nodes ->
  (forall r args, In (Rule r args) nodes -> ~ reaches_itself env property (Rule r args)) ->
  (forall t trivia min max, In (RepMinMax t trivia min max) nodes -> (max <= N.of_nat M)%N \/ ~ empty_rounds env property t trivia) ->
  forall n k, In n nodes -> (length s + 1) * (length nodes + 2) + M + 1 <= k ->
  returns (text_try_parse_partial addr s env property k n) /\ returns (text_try_parse addr s env property k n) /\
  returns (text_check_partial addr s env property k n) /\ returns (text_check addr s env property k n).
Proof. exact entries_linear. Qed.
Print Assumptions C52_linear.

(** An expression that begins with a part that begins with a part, and so on, never returns. *)
Theorem C52_left_recursive : forall addr s env property (P : node -> Prop),
  (forall n, P n -> exists m, begins env n m /\ P m) ->
  forall k n p st, P n ->
    try_parse addr s env property k n p st = OutOfFuel /\ check addr s env property k n p st = OutOfFuel.
Proof. intros addr s env property P H. exact (diverges env property addr s P H). Qed.
Print Assumptions C52_left_recursive.

(** A repetition whose rounds consume input has at most one round more than it has characters. *)
Theorem C52_rounds : forall addr s env property t trivia min max p K p' vs K',
  ~ empty_rounds env property t trivia -> boundary s p -> valid_stack K ->
  yields addr s env property (RepMinMax t trivia min max) p K (Some (p', VRep vs, K')) ->
  exists pre m post, s = pre ++ m ++ post /\ p = blen pre /\ p' = blen (pre ++ m) /\ length vs <= 1 + length m.
Proof. exact rep_rounds. Qed.
Print Assumptions C52_rounds.

(** A repetition without an upper bound whose element and trivia match the empty text and leave the stack
    alone does not stop by itself: it goes on for [usize::MAX] rounds, so that no fewer steps suffice. *)
Theorem C52_empty_body : forall addr s env property t trivia p K v w, boundary s p -> valid_stack K ->
  yields addr s env property t p K (Some (p, v, K)) -> yields addr s env property trivia p K (Some (p, w, K)) ->
  yields addr s env property (Rep t trivia) p K (Some (p, VRep (repeat v (N.to_nat 18446744073709551615)), K)) /\
  forall k sv tr, (N.of_nat k <= 18446744073709551615)%N ->
    check addr s env property k (Rep t trivia) p (mkState (mkStack K sv) tr) = OutOfFuel.
Proof.
  intros addr s env property t trivia p K v w B V Ht Hw. split.
  - exact (rep_empty addr s env property t trivia 0 usize_max p K v w B V Ht Hw).
  - exact (rep_slow addr s env property t trivia 0 usize_max p K v w B V Ht Hw).
Qed.
Print Assumptions C52_empty_body.

(** The rule [list] of the sample grammar with all of its parts. *)
Definition n_element : node := Seq [(n_word, Empty); (Negative (Str (lit "=")), Empty)].
Definition list_nodes : list node :=
  [Rule r_list []; Rep n_element n_blank; n_element; n_word; Push (RepOnce ascii_alpha_lower Empty);
   RepOnce ascii_alpha_lower Empty; ascii_alpha_lower; Empty; Negative (Str (lit "=")); Str (lit "=");
   n_blank; Rep (Char 32%N) Empty; Char 32%N].
Lemma list_closed : closed sample list_nodes.
Proof.
  intros a b Ia H. unfold list_nodes in Ia. cbn [In] in Ia.
  repeat (destruct Ia as [<-|Ia]; [inversion H; subst; try (cbn [list_nodes In rd_body sample sample_body]; tauto);
    cbn in *; repeat match goal with A : _ \/ _ |- _ => destruct A as [<-|A] end; try tauto|]). destruct Ia.
Qed.
Definition list_rank (n : node) : nat :=
  match n with
  | Rule 4%N _ => 9 | RepMinMax (Seq _) _ _ _ => 8 | Seq _ => 7 | Rule 1%N _ => 6 | Push _ => 5 | RepMinMax (CharRange _ _) _ _ _ => 4
  | Negative _ => 4 | Rule 2%N _ => 3 | RepMinMax (Char _) _ _ _ => 2 | _ => 0
  end.
Lemma word_consumes : consumes sample n_word.
Proof. apply eats_rule. cbn. apply eats_push. apply eats_rep; [reflexivity|reflexivity|apply eats_range]. Qed.
Lemma element_consumes : consumes sample n_element.
Proof. eapply eats_seq; [left; reflexivity|exact word_consumes]. Qed.
Lemma list_ranked : forall a b, In a list_nodes -> leads sample no_property a b -> list_rank b < list_rank a.
Proof.
  intros a b Ia H. unfold list_nodes in Ia. cbn [In] in Ia.
  repeat (destruct Ia as [<-|Ia];
    [inversion H; subst; try (cbn; lia);
     repeat match goal with A : passes _ _ _ |- _ => exfalso; refine (consumes_not_empty _ _ _ _ A); first [exact element_consumes|apply eats_range|apply eats_char] end|]).
  all: try match goal with A : sequence_items _ = ?l ++ _, B : Forall _ ?l |- _ => cbn in A; destruct l as [|? l];
    [injection A as <- _; cbn; lia|injection A as <- _; inversion B; subst; exfalso; refine (consumes_not_empty _ _ _ _ _); [exact word_consumes|eassumption]] end.
  all: destruct Ia.
Qed.
Lemma list_fine : forall r args, In (Rule r args) list_nodes -> ~ reaches_itself sample no_property (Rule r args).
Proof. intros r args. exact (ranked sample no_property list_nodes list_rank list_closed list_ranked (Rule r args)). Qed.
Lemma list_rounds : forall t trivia min max, In (RepMinMax t trivia min max) list_nodes ->
  (max <= N.of_nat 0)%N \/ ~ empty_rounds sample no_property t trivia.
Proof.
  intros t trivia min max I. right. intros (_ & Z). refine (consumes_not_empty _ _ _ _ Z).
  cbn [list_nodes In] in I. repeat (destruct I as [E|I]; [try discriminate E; injection E; intros; subst;
    first [exact element_consumes|apply eats_range|apply eats_char]|]). destruct I.
Qed.
(** The rule [list] has no left recursion: parsing with it ends on every text, at a depth linear in its
    length. *)
Example C52_terminates_ex : no_left_recursion sample no_property (Rule r_list []) /\
  forall addr s, exists k0, forall k, k0 <= k ->
  returns (text_try_parse_partial addr s sample no_property k (Rule r_list [])) /\ returns (text_try_parse addr s sample no_property k (Rule r_list [])) /\
  returns (text_check_partial addr s sample no_property k (Rule r_list [])) /\ returns (text_check addr s sample no_property k (Rule r_list [])).
Proof.
  assert (W : no_left_recursion sample no_property (Rule r_list []))
    by (eapply C52_finite; [exact list_closed|exact list_fine|left; reflexivity]).
  split; [exact W|]. intros addr s. apply C52_entry_points, W.
Qed.
Example C52_linear_ex : forall addr s k, (length s + 1) * 15 + 1 <= k -> returns (text_try_parse addr s sample no_property k (Rule r_list [])).
Proof.
  intros addr s k L. eapply (C52_linear addr s sample no_property list_nodes 0 list_closed list_fine list_rounds); [left; reflexivity|].
  cbn [length list_nodes]. lia.
Qed.
(** Parsing with the rule [loop] never ends, not even where it is optional. *)
Example C52_left_recursive_ex : forall addr s k,
  text_try_parse addr s sample no_property k (Opt (Rule r_loop [])) = OutOfFuel /\
  text_check addr s sample no_property k (Opt (Rule r_loop [])) = OutOfFuel.
Proof.
  intros addr s k.
  assert (H : forall n, n = Rule r_loop [] \/ n = Opt (Rule r_loop []) -> exists m, begins sample n m /\ (m = Rule r_loop [] \/ m = Opt (Rule r_loop []))).
  { intros n [->| ->]; [exists (rd_body (sample r_loop) [])|exists (Rule r_loop [])]; (split; [constructor|left; reflexivity]). }
  destruct (C52_left_recursive addr s sample no_property _ H k (Opt (Rule r_loop [])) from_start init_state (or_intror eq_refl)) as (E & E').
  unfold text_try_parse, try_parse_with, text_check, check_with. rewrite E, E'. split; reflexivity.
Qed.
(** Three rounds on ["a bc d"], which has six characters. *)
Example C52_rounds_ex : ~ empty_rounds sample no_property n_element n_blank /\
  exists vs K', length vs = 3 /\ yields 0 (lit "a bc d") sample no_property (Rep n_element n_blank) 0 [] (Some (6, VRep vs, K')).
Proof.
  split; [intros (_ & Z); exact (consumes_not_empty _ _ _ element_consumes Z)|].
  destruct (try_parse 0 (lit "a bc d") sample no_property 20 (Rep n_element n_blank) (blen []) (mkState (mkStack [] []) (tracker_new 0))) as [([(p, v)|], st)| |] eqn:E;
    try (vm_compute in E; discriminate E).
  assert (exists vs, v = VRep vs /\ length vs = 3 /\ p = 6) as (vs & -> & L & ->)
    by (vm_compute in E; injection E as <- <- _; eexists; repeat split).
  exists vs, (stk_items (st_stack st)). split; [exact L|].
  apply (yields_once 0 (lit "a bc d") sample no_property (Rep n_element n_blank) [] (lit "a bc d") [] _ 20 [] (tracker_new 0) eq_refl (ex_intro _ [] (Forall2_nil _))).
  rewrite E. reflexivity.
Qed.
(** [""*] goes on for [usize::MAX] rounds on every text. *)
Example C52_empty_body_ex : forall s k, (N.of_nat k <= 18446744073709551615)%N ->
  check 0 s sample no_property k (Rep (Str []) Empty) 0 (mkState (mkStack [] []) (tracker_new 0)) = OutOfFuel.
Proof.
  intros s k. assert (V : valid_stack []) by (exists []; constructor).
  refine (proj2 (C52_empty_body 0 s sample no_property (Str []) Empty 0 [] VUnit VUnit _ V _ _) k [] (tracker_new 0)); [exists [], s; auto| |];
    apply (yields_once 0 s sample no_property _ [] s [] _ 3 [] (tracker_new 0) eq_refl V); reflexivity.
Qed.
