(** C78: the same text in another place (core/src/typed/template/mod.rs, repetition.rs, core/src/sequence.rs, choice.rs,
    core/src/typed/traits.rs). *)
From Coq Require Import String List NArith ZArith Arith Bool Lia Relations.
From Verif Require Import Model_Text Model_Message Model_Meta Model_Import Model_Position Model_Span Model_Stack Model_Tracker Model_Node Model_Pairs
  Model_Generator Model_Output
  Spec_Text Spec_Peg Spec_Run Spec_Rust Spec_Terminate Spec_Grammar_Peg Spec_Occur Spec_Generator Spec_Moved
  Proof_Text Proof_Entry Proof_Names Proof_Accept Proof_Compile Proof_Leaf Proof_Read Proof_Emit Proof_Process Proof_Place Proof_Resolve Proof_Box
  Proof_Fuel Proof_Moved Proof_Unplaced Example_Generator Example_Fine Example_Inline Thm_Generated Thm_Lossless.
Import ListNotations.
Open Scope list_scope.

(** A parser that does not ask where the input starts does with a text the same in every place: it
    succeeds at both or at none, its results are the same parts of the text, and so are its reports. What
    is on the stacks must have the same texts, and does afterwards. *)
Theorem C78_prefix : forall env property addr addr2 front front2 rest (before : span -> span -> Prop) n,
  (forall a b, before a b -> same_text a b) -> place_hidden env front front2 n ->
  forall k K sv t K2 sv2 t2 o st',
  Forall2 (moved_entry addr addr2 front front2 rest before) K K2 -> moved_tracker front front2 rest t t2 ->
  try_parse addr (front ++ rest) env property k n (blen front) (mkState (mkStack K sv) t) = Ret (o, st') ->
  exists o2 K2' u2 k0,
    (forall k2, k0 <= k2 ->
       try_parse addr2 (front2 ++ rest) env property k2 n (blen front2) (mkState (mkStack K2 sv2) t2) = Ret (o2, mkState (mkStack K2' sv2) u2)) /\
    moved_end addr addr2 front front2 rest before o o2 /\ moved_tracker front front2 rest (st_tracker st') u2 /\
    (o <> None -> exists K', st_stack st' = mkStack K' sv /\ Forall2 (moved_entry addr addr2 front front2 rest before) K' K2').
Proof. intros env property addr addr2 front front2 rest before n B H. exact (parse_moved env property addr addr2 front front2 rest before B n H). Qed.
Print Assumptions C78_prefix.

(** Parsing all of the text. *)
Theorem C78_full : forall env property addr addr2 front front2 rest (before : span -> span -> Prop) n,
  (forall a b, before a b -> same_text a b) -> place_hidden env front front2 n ->
  forall k K sv t K2 sv2 t2 o st',
  Forall2 (moved_entry addr addr2 front front2 rest before) K K2 -> moved_tracker front front2 rest t t2 ->
  try_parse_with addr (front ++ rest) env property k n (blen front) (mkState (mkStack K sv) t) = Ret (o, st') ->
  exists o2 st2' k0,
    (forall k2, k0 <= k2 ->
       try_parse_with addr2 (front2 ++ rest) env property k2 n (blen front2) (mkState (mkStack K2 sv2) t2) = Ret (o2, st2')) /\
    match o, o2 with
    | None, None => True
    | Some v, Some v2 => moved addr addr2 front front2 rest before v v2
    | _, _ => False
    end /\ moved_tracker front front2 rest (st_tracker st') (st_tracker st2').
Proof. intros env property addr addr2 front front2 rest before n B H. exact (full_moved env property addr addr2 front front2 rest before B n H). Qed.
Print Assumptions C78_full.

(** Trees of the same text in two places have the same pairs, in the places of the parts. *)
Theorem C78_pairs : forall env addr addr2 front front2 rest before v w self,
  moved addr addr2 front front2 rest before v w ->
  Forall2 (moved_pair front front2 rest) (pairs env self v) (pairs env self w) /\
  (front = front2 -> pairs env self v = pairs env self w).
Proof.
  intros env addr addr2 front front2 rest before v w self M. assert (P := pairs_moved env _ _ _ _ _ _ v w self M). split; [exact P|].
  intros <-. eapply pairs_same, P.
Qed.
Print Assumptions C78_pairs.

(** Where a text is stored does not matter: copies of a text are parsed alike, whatever the parser, with
    the same pairs, the same ends and the same errors. *)
Theorem C78_copies : forall env property addr addr2 s n k r,
  text_try_parse addr s env property k n = Ret r ->
  exists r2 k0, (forall k2, k0 <= k2 -> text_try_parse addr2 s env property k2 n = Ret r2) /\
    match r, r2 with
    | inl v, inl v2 => moved addr addr2 [] [] s nothing v v2 /\ forall self, pairs env self v = pairs env self v2
    | inr t, inr t2 => t = t2
    | _, _ => False
    end.
Proof.
  intros env property addr addr2 s n k r H. unfold text_try_parse, to_result, init_state, stack_new in H. change from_start with (blen []) in H.
  destruct (try_parse_with _ _ _ _ _ _ _ _) as [(o, st)| |] eqn:E; try discriminate H.
  destruct (full_moved env property addr addr2 [] [] s nothing (fun a b F => match F with end) n (or_introl (iff_refl _)) k [] [] _ [] [] (tracker_new (blen [])) o st
    (Forall2_nil _) (new_moved [] [] s) E) as (o2 & st2 & k0 & A & B & C).
  assert (R : forall k2, k0 <= k2 -> text_try_parse addr2 s env property k2 n = Ret (match o2 with Some v => inl v | None => inr (st_tracker st2) end)).
  { intros k2 L. unfold text_try_parse, to_result, init_state, stack_new. change from_start with (blen []). cbn [app] in A. rewrite (A k2 L). destruct o2; reflexivity. }
  eexists _, k0. split; [exact R|]. destruct o as [v|], o2 as [v2|]; try contradiction; injection H as <-.
  - split; [exact B|]. intro self. exact (proj2 (C78_pairs env _ _ _ _ _ _ v v2 self B) eq_refl).
  - eapply tracker_same, C.
Qed.
Print Assumptions C78_copies.
Theorem C78_copies_prefix : forall env property addr addr2 s n k r,
  text_try_parse_partial addr s env property k n = Ret r ->
  exists r2 k0, (forall k2, k0 <= k2 -> text_try_parse_partial addr2 s env property k2 n = Ret r2) /\
    match r, r2 with
    | inl (p, v), inl (p2, v2) => p = p2 /\ moved addr addr2 [] [] s nothing v v2 /\ forall self, pairs env self v = pairs env self v2
    | inr t, inr t2 => t = t2
    | _, _ => False
    end.
Proof.
  intros env property addr addr2 s n k r H. unfold text_try_parse_partial, to_result, init_state, stack_new in H. change from_start with (blen []) in H.
  destruct (try_parse _ _ _ _ _ _ _ _) as [(o, st)| |] eqn:E; try discriminate H.
  destruct (parse_moved env property addr addr2 [] [] s nothing (fun a b F => match F with end) n (or_introl (iff_refl _)) k [] [] _ [] [] (tracker_new (blen [])) o st
    (Forall2_nil _) (new_moved [] [] s) E) as (o2 & K2 & u2 & k0 & A & B & C & _).
  assert (R : forall k2, k0 <= k2 -> text_try_parse_partial addr2 s env property k2 n = Ret (match o2 with Some v => inl v | None => inr u2 end)).
  { intros k2 L. unfold text_try_parse_partial, to_result, init_state, stack_new. change from_start with (blen []). cbn [app] in A. rewrite (A k2 L). destruct o2; reflexivity. }
  eexists _, k0. split; [exact R|]. destruct o as [(p, v)|], o2 as [(p2, v2)|]; try contradiction; injection H as <-.
  - destruct B as (P & B). split; [eapply offset_same, P|]. split; [exact B|]. intro self. exact (proj2 (C78_pairs env _ _ _ _ _ _ v v2 self B) eq_refl).
  - eapply tracker_same, C.
Qed.
Print Assumptions C78_copies_prefix.

(** The parsers generated from a grammar in which nothing names [pest::soi] do not ask where the input
    starts, whatever the trivia and the imported grammars are. *)
Theorem C78_grammar : forall config fuel unicode g items,
  generate_items config fuel unicode g = Ret items ->
  fine unicode g -> fine_types_mod (types_mod (rules_mod config)) g -> distinct_properties unicode ->
  forall id env, reads_rules items unicode id env ->
  (forall m g' r, located (types_mod (rules_mod config)) g m g' -> In r (g_rules g') -> soi_none unicode g' (n_expr (pr_node r))) ->
  forall m g' r, located (types_mod (rules_mod config)) g m g' -> In r (g_rules g') -> ~ is_trivia_rule r -> pr_args r = [] ->
  forall front front2, place_hidden env front front2 (Rule (id m (pr_name r)) []).
Proof.
  intros config fuel unicode g items H Fi Ty D id env Rr Q m g' r Lo Ir Nt Na front front2. right.
  unfold generate_items, generate_output in H. destruct (existsb _ (raw_names g)); [discriminate H|].
  destruct (process_rules config fuel (make_global unicode) [lit "super"] 0 g gt_new) as [((o, coll), tr)| |] eqn:P; try discriminate. cbn [obind] in H. injection H as <-.
  destruct (process_rules_spec config fuel unicode (builtin_resolves_all unicode D) g 0 gt_new o coll tr P Fi good_new) as (Tg & _ & M).
  specialize (M tr (extends_refl tr)). change (fst (collect_output (rules_mod config) o) ++ collect_tracker tr) with (all_items config tr o) in Rr.
  assert (B := bodies_read config fuel unicode tr g o (fun _ _ => false) env id (unplaced_kind unicode)
    Ty D Tg (fun _ _ _ _ L _ U _ _ => conj L U) coll M Fi Rr).
  exact (rule_unplaced unicode env id _ B Q m g' r Lo Ir Nt Na).
Qed.
Print Assumptions C78_grammar.

(** With [pest::soi] the place matters. *)
Theorem C78_soi_refuted :
  ~ (forall env property addr addr2 front front2 rest n k o st',
     try_parse addr (front ++ rest) env property k n (blen front) (mkState (mkStack [] []) (tracker_new (blen front))) = Ret (o, st') ->
     exists o2 st2' k2,
       try_parse addr2 (front2 ++ rest) env property k2 n (blen front2) (mkState (mkStack [] []) (tracker_new (blen front2))) = Ret (o2, st2') /\
       moved_end addr addr2 front front2 rest nothing o o2).
Proof.
  intro H. destruct (H no_rules sample_digit 0%N 0%N [] (lit "x") (lit "a") Soi 9 (Some (0, VUnit)) _ eq_refl) as (o2 & st2 & [|k2] & E & M); [discriminate E|].
  vm_compute in E. injection E as <- _. exact M.
Qed.
Print Assumptions C78_soi_refuted.

(** The grammar [twice] of C76 does not name [pest::soi]: *)
Lemma twice_names_soi : forall path, names sample_unicode twice path (E_builtin [lit "soi"]) -> path = [lit "pest"; lit "soi"].
Proof.
  intros path N. inversion N as [p B|p x O _]; subst; [reflexivity|]. inversion O as [|? ? ? ? J|? ? ? ? ? J]; subst; destruct J.
Qed.
Example C78_grammar_ex : forall m g' r, located (lit "rules") twice m g' -> In r (g_rules g') -> soi_none sample_unicode g' (n_expr (pr_node r)).
Proof.
  intros m g' r L I path args P N. apply twice_located in L. subst g'. apply twice_names_soi in N. subst path. apply parts_all in P.
  destruct I as [<-|[<-|[<-|[]]]]; vm_compute in P; repeat (destruct P as [P|P]; [discriminate P|]); exact P.
Qed.
Lemma twice_hidden : forall front front2, place_hidden twice_env front front2 (twice_parser 2).
Proof.
  exact (C78_grammar box_all 9 sample_unicode twice twice_items twice_made twice_fine (or_introl eq_refl) sample_distinct _ _ twice_reads C78_grammar_ex
    [lit "rules"] twice (nth 2 twice_rules (rl "" [] (str ""))) (Loc_top _ _) (or_intror (or_intror (or_introl eq_refl)))
    (fun F => match F with or_introl E => ltac:(discriminate E) | or_intror E => ltac:(discriminate E) end) eq_refl).
Qed.
(** ["(a,b)=q"] at the start of an input and after ["é;"] in another: the same tree, three bytes later.
    The ["q"] is that on the stack, which is another span in both cases. *)
Definition ended (o : outcome (option value * state)) : option value := match o with Ret (Some v, _) => Some v | _ => None end.
Definition twice_at (addr : N) (front : text) : option value :=
  ended (try_parse_with addr (front ++ lit "(a,b)=q") twice_env sample_digit 60 (twice_parser 2) (blen front)
    (mkState (mkStack [mkSpan addr (lit "q") 0 1] []) (tracker_new (blen front)))).
Lemma ended_spec : forall o v, ended o = Some v -> exists st, o = Ret (Some v, st).
Proof. intros [([w|], st)| |] v H; try discriminate H. injection H as ->. exists st. reflexivity. Qed.
Lemma full_fuel : forall addr s env property k k' n p st x, k <= k' ->
  try_parse_with addr s env property k n p st = Ret x -> try_parse_with addr s env property k' n p st = Ret x.
Proof.
  intros addr s env property k k' n p st x L H. unfold try_parse_with in *. destruct (more_fuel addr s env property k k' n p st L) as (F & _).
  destruct (try_parse addr s env property k n p st) as [([(q, v)|], st')| |] eqn:E; try discriminate H; rewrite F by discriminate; [|exact H].
  destruct k as [|k]; [discriminate E|]. destruct k' as [|k']; [lia|]. destruct st' as ((K, sv), t). cbn [bind fst snd] in *. rewrite eoi_step in *. exact H.
Qed.
Example C78_full_ex : exists v v2,
  twice_at 0 [] = Some v /\ twice_at 7 [233%N; 59%N] = Some v2 /\ moved 0 7 [] [233%N; 59%N] (lit "(a,b)=q") same_text v v2 /\
  (exists r c, v = VRule r c (mkSpan 0 (lit "(a,b)=q") 0 7)) /\
  (exists r c, v2 = VRule r c (mkSpan 7 ([233%N; 59%N] ++ lit "(a,b)=q") 3 10)).
Proof.
  destruct (twice_at 0 []) as [v|] eqn:E; [|vm_compute in E; discriminate E].
  destruct (twice_at 7 [233%N; 59%N]) as [v2|] eqn:E2; [|vm_compute in E2; discriminate E2].
  exists v, v2. split; [reflexivity|]. split; [reflexivity|]. split.
  - unfold twice_at in E, E2. apply ended_spec in E, E2. destruct E as (st & E), E2 as (st2 & E2).
    destruct (C78_full twice_env sample_digit 0 7 [] [233%N; 59%N] (lit "(a,b)=q") same_text (twice_parser 2) (fun a b S => S) (twice_hidden _ _)
      60 [mkSpan 0 (lit "q") 0 1] [] (tracker_new (blen [])) [mkSpan 7 (lit "q") 0 1] [] (tracker_new (blen [233%N; 59%N])) (Some v) st) as (o2 & st2' & k0 & A & B & _).
    + constructor; [|constructor]. right. exists (lit "q"). split; exists [], []; repeat split.
    + apply new_moved.
    + exact E.
    + assert (L : 60 <= k0 + 60) by lia. assert (L' : k0 <= k0 + 60) by lia.
      assert (E3 := full_fuel _ _ _ _ _ _ _ _ _ _ L E2). rewrite (A _ L') in E3. injection E3 as -> _. exact B.
  - vm_compute in E, E2. injection E as <-. injection E2 as <-. split; eexists _, _; reflexivity.
Qed.

Example C78_prefix_ex : place_hidden twice_env [] [233%N; 59%N] (twice_parser 2) /\
  Forall2 (moved_entry 0 7 [] [233%N; 59%N] (lit "(a,b)=q") same_text) [mkSpan 0 (lit "q") 0 1] [mkSpan 7 (lit "q") 0 1] /\
  moved_tracker [] [233%N; 59%N] (lit "(a,b)=q") (tracker_new 0) (tracker_new 3).
Proof.
  split; [apply twice_hidden|]. split; [|apply (new_moved [] [233%N; 59%N])].
  constructor; [|constructor]. right. exists (lit "q"). split; exists [], []; repeat split.
Qed.
(** Pairs of such trees. *)
Example C78_pairs_ex : exists v v2, twice_at 0 [] = Some v /\ twice_at 7 [233%N; 59%N] = Some v2 /\
  Forall2 (moved_pair [] [233%N; 59%N] (lit "(a,b)=q")) (pairs twice_env true v) (pairs twice_env true v2) /\ pairs twice_env true v <> [].
Proof.
  destruct C78_full_ex as (v & v2 & E & E2 & M & _). exists v, v2. split; [exact E|]. split; [exact E2|]. split; [exact (proj1 (C78_pairs _ _ _ _ _ _ _ _ _ _ M))|].
  clear - E. vm_compute in E. injection E as <-. vm_compute. discriminate.
Qed.
(** Copies of a text that is matched and of one that is not. *)
Example C78_copies_ex :
  (exists v v2, tree 0 (lit "(a,b)=(a,b)") twice_env (twice_parser 2) = Some v /\ tree 7 (lit "(a,b)=(a,b)") twice_env (twice_parser 2) = Some v2 /\ v <> v2) /\
  exists t, text_try_parse 0 (lit "(a,b)=(a,c)") twice_env sample_digit 60 (twice_parser 2) = Ret (inr t) /\
            text_try_parse_partial 0 (lit "(a,b)=(a,c)") twice_env sample_digit 60 (twice_parser 2) = Ret (inr t).
Proof.
  split; [destruct C76_grammar_ex as (v & _ & v3 & A & _ & _ & B & _ & C); eauto|].
  eexists. split; vm_compute; reflexivity.
Qed.
