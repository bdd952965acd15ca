(** C86: the error reports of a generated parser, in terms of the grammar (core/src/typed/tracker.rs L60-230, core/src/typed/traits.rs L24-53,
    L136-170). *)
From Coq Require Import String List NArith ZArith Arith Bool Lia.
From Verif Require Import Proof_Det Proof_Complete Proof_Run Model_Text Model_Message Model_Meta Model_Import Model_Position Model_Span Model_Stack Model_Tracker Model_Node Model_Pairs
  Model_Generator Model_Output Model_Inline
  Proof_Text Proof_Peg Proof_Tracker Proof_Yield Proof_Node Proof_Entry Proof_Report Proof_Emit Proof_Box Proof_Process Proof_Names Proof_Place Proof_Resolve Proof_Accept
  Proof_Compile Proof_Leaf Proof_Read Proof_Exists Proof_Inlined Proof_Inlining Proof_Inline_Ends Proof_Grammar_Tree_Inline Proof_Grammar_Trace Proof_Grammar_Trace_Det Proof_Grammar_Trace_Inline
  Spec_Text Spec_Peg Spec_Run Spec_Yield Spec_Tracker Spec_Rust Spec_Grammar_Peg Spec_Occur Spec_Generator Spec_Inline Spec_Grammar_Tree Spec_Grammar_Trace
  Example_Generator Example_Fine Example_Inline Thm_Names Thm_Generated Thm_Inline Thm_Grammar_Terminate Thm_Grammar_Tree.
Import ListNotations.
Open Scope list_scope.

Section Alike.
Variable R : rule -> label -> Prop.
Notation like := (Forall2 (event_of R)).

Lemma like_furthest : forall tr gtr, like tr gtr -> furthest 0 tr = furthest_try gtr.
Proof. unfold furthest, furthest_try. intros tr gtr H. induction H as [|x y l l' E H IH]; [reflexivity|]. cbn [map fold_right]. rewrite IH. destruct E; reflexivity. Qed.
Lemma like_upper : forall chain gchain p, Forall2 (frame_of R) chain gchain -> same_group R (upper chain p) (begun_elsewhere gchain p).
Proof.
  unfold upper, begun_elsewhere. intros chain gchain p H. induction H as [|(r, a) (l, b) c c' (E1 & E2) H IH]; [constructor|]. cbn [fst snd] in E1, E2. subst b.
  cbn [find snd]. destruct (negb (a =? p)); [constructor; exact E1|exact IH].
Qed.
Lemma like_there : forall tr gtr e, like tr gtr -> In e tr -> exists ge, In ge gtr /\ event_of R e ge.
Proof. intros tr gtr e H. induction H as [|x y l l' E H IH]; [intros []|]. intros [->|J]; [exists y; split; [left; reflexivity|exact E]|]. destruct (IH J) as (ge & ? & ?). exists ge. split; [right|]; assumption. Qed.
Lemma like_back : forall tr gtr ge, like tr gtr -> In ge gtr -> exists e, In e tr /\ event_of R e ge.
Proof. intros tr gtr ge H. induction H as [|x y l l' E H IH]; [intros []|]. intros [->|J]; [exists x; split; [left; reflexivity|exact E]|]. destruct (IH J) as (e & ? & ?). exists e. split; [right|]; assumption. Qed.

Lemma reports_tells : forall tr gtr rep, like tr gtr -> reports 0 tr rep -> tells R gtr rep.
Proof.
  intros tr gtr rep Li Rp. assert (F := like_furthest _ _ Li). assert (L := reports_members 0 tr rep Rp). cbn zeta in L. rewrite F in L. split.
  - destruct Rp as (E & _). rewrite <- F. exact E.
  - intros u x H. apply (proj1 (L u)) in H. destruct H as (e & J & ch & -> & Up). destruct (like_there _ _ _ Li J) as (ge & J' & E). inversion E; subst.
    eexists _, _. split; [exact J'|]. split; [assumption|]. apply like_upper. assumption.
  - intros chain l J. destruct (like_back _ _ _ Li J) as (e & J' & E). inversion E; subst. eexists _, _. split; [|split; [eassumption|apply like_upper; eassumption]].
    apply (proj1 (L _)). eexists. split; [exact J'|]. eexists. split; reflexivity.
  - intros u x H. apply (proj1 (proj2 (L u))) in H. destruct H as (e & J & ch & -> & Up). destruct (like_there _ _ _ Li J) as (ge & J' & E). inversion E; subst.
    eexists _, _. split; [exact J'|]. split; [assumption|]. apply like_upper. assumption.
  - intros chain l J. destruct (like_back _ _ _ Li J) as (e & J' & E). inversion E; subst. eexists _, _. split; [|split; [eassumption|apply like_upper; eassumption]].
    apply (proj1 (proj2 (L _))). eexists. split; [exact J'|]. eexists. split; reflexivity.
  - intros u x H. apply (proj2 (proj2 (L u))) in H. destruct H as (e & J & ch & -> & Up). destruct (like_there _ _ _ Li J) as (ge & J' & E). inversion E; subst.
    eexists. split; [exact J'|]. apply like_upper. assumption.
  - intros chain x J. destruct (like_back _ _ _ Li J) as (e & J' & E). inversion E; subst. eexists. split; [|apply like_upper; eassumption].
    apply (proj2 (proj2 (L _))). eexists. split; [exact J'|]. eexists. split; reflexivity.
Qed.
End Alike.

(** A run of the parser of a rule tries what the grammar tries. *)
Lemma rule_tries : forall config fuel unicode g items,
  generate_items config fuel unicode g = Ret items ->
  fine unicode g -> fine_types_mod (types_mod (rules_mod config)) g -> distinct_properties unicode ->
  forall id env, reads_rules items unicode id env ->
  forall open : gmodule -> parse_rule -> Prop, (forall mp g0 q, located (types_mod (rules_mod config)) g mp g0 -> In q (g_rules g0) -> ~ open g0 q) ->
  forall property m h r, located (types_mod (rules_mod config)) g m h -> In r (g_rules h) -> ~ is_trivia_rule r -> pr_args r = [] ->
  forall addr s pre post K Ks, s = pre ++ post -> Forall2 span_text K Ks ->
  forall res tr, run addr s env property [] true (Rule (id m (pr_name r)) []) pre post K res tr ->
  exists gres gtr, agrees res gres /\ gtry_rule unicode property open h r pre post Ks gres gtr /\
    Forall2 (event_of (numbered_as (located (types_mod (rules_mod config)) g) id)) tr gtr.
Proof.
  intros config fuel unicode g items H Fi Ty D id env Rr open Closed property m h r Lo Ir Nt Na addr s pre post K Ks Es Fk res tr Run.
  unfold generate_items, generate_output in H. destruct (existsb _ (raw_names g)); [discriminate H|].
  destruct (process_rules config fuel (make_global unicode) [lit "super"] 0 g gt_new) as [((o, coll), T)| |] eqn:P; try discriminate. cbn [obind] in H. injection H as <-.
  destruct (process_rules_spec config fuel unicode (builtin_resolves_all unicode D) g 0 gt_new o coll T P Fi good_new) as (Tg & _ & M).
  specialize (M T (extends_refl T)). change (fst (collect_output (rules_mod config) o) ++ collect_tracker T) with (all_items config T o) in Rr.
  assert (B := bodies_read config fuel unicode T g o property env id (leaf_trace unicode property env)
    Ty D Tg (fun _ _ _ _ L _ _ E Q => conj L (conj (proj1 E) (conj (proj2 E) Q))) coll M Fi Rr).
  assert (C := B m h r [] [] Lo Ir Nt). rewrite Na in C. specialize (C eq_refl ltac:(constructor)). cbn [combine] in C.
  set (R := numbered_as (located (types_mod (rules_mod config)) g) id).
  assert (Nu : R (id m (pr_name r)) (h, r)) by (exists m; split; [exact Lo|split; [exact Ir|reflexivity]]).
  assert (Body : forall res0 tr0, run addr s env property [(id m (pr_name r), blen pre)] true (rd_body (env (id m (pr_name r))) []) pre post K res0 tr0 ->
    exists gres gtr0, agrees res0 gres /\ gtry unicode property open [((h, r), blen pre)] true h [] (n_expr (pr_node r)) pre post Ks gres gtr0 /\ Forall2 (event_of R) tr0 gtr0).
  { intros res0 tr0 R0. destruct (run_try addr s unicode property env id _ open Closed B) as (Try & _).
    apply (lift_try addr s unicode property env id _ open Closed B _ _ _ _ _ _ _ _ R0 (Try _ _ _ _ _ _ _ _ R0) _ _ _ C Es); [|exact Fk].
    constructor; [|constructor]. split; [exact Nu|reflexivity]. }
  assert (Own : forall tr0 gtr0 ok, Forall2 (event_of R) tr0 gtr0 ->
    Forall2 (event_of R) (tr0 ++ (if tried_rule tr0 then [] else [Attempt [] (id m (pr_name r)) (blen pre) true ok]))
      (gtr0 ++ (if tried_grammar_rule gtr0 then [] else [G_attempt [] (h, r) (blen pre) true ok]))).
  { intros tr0 gtr0 ok Li. apply Forall2_app; [exact Li|]. rewrite (tried_like id (located (types_mod (rules_mod config)) g) _ _ Li).
    destruct (tried_grammar_rule gtr0); constructor; [|constructor]. constructor; [constructor|exact Nu]. }
  inversion Run; subst; try (match goal with X : terminal _ _ _ _ _ _ |- _ => inversion X end);
    match goal with X : run _ _ _ _ _ _ (rd_body _ _) _ _ _ _ _ |- _ => destruct (Body _ _ X) as (gres & gtr0 & Ag & Tr & Li) end;
    destruct gres; cbn [agrees] in Ag; try contradiction.
  - eexists _, _. split; [|split; [eexists; split; [exact Tr|reflexivity]|apply (Own _ _ true Li)]]. exact Ag.
  - eexists _, _. split; [|split; [eexists; split; [exact Tr|reflexivity]|apply (Own _ _ false Li)]]. exact Ag.
Qed.

(** What is known of a parser that tries what the grammar tries. *)
Section Tells.
Variable addr : N.
Variable s : text.
Variable env : rule -> rule_def.
Variable unicode : list text.
Variable property : N -> char -> bool.
Variable open : gmodule -> parse_rule -> Prop.
Variable R : rule -> label -> Prop.
Variable h : gmodule.
Variable r : parse_rule.
Variable number : rule.
Hypothesis Tries : forall res tr, run addr s env property [] true (Rule number []) [] s [] res tr ->
  exists gres gtr, agrees res gres /\ gtry_rule unicode property open h r [] s [] gres gtr /\ Forall2 (event_of R) tr gtr.

Lemma partial_tells : forall k t, text_try_parse_partial addr s env property k (Rule number []) = Ret (inr t) ->
  exists gtr, gtry_rule unicode property open h r [] s [] Fail gtr /\ tells R gtr (finish t).
Proof.
  intros k t E. destruct (whole_report _ _ _ _ _ _ _ E) as (tr & Run & Rp). destruct (Tries _ _ Run) as (gres & gtr & Ag & T & Li).
  destruct gres; cbn [agrees] in Ag; [|contradiction]. exists gtr. split; [exact T|]. eapply reports_tells; eassumption.
Qed.
Lemma full_tells : forall k t, text_try_parse addr s env property k (Rule number []) = Ret (inr t) ->
  (exists gtr, gtry_rule unicode property open h r [] s [] Fail gtr /\ tells R gtr (finish t)) \/
  exists x rest Ks gtr, s = x ++ rest /\ rest <> [] /\ gtry_rule unicode property open h r [] s [] (Ok x rest Ks) gtr /\ tells_rest R gtr (blen x) (finish t).
Proof.
  intros k t E.
  destruct (full_error _ _ _ _ _ _ _ E) as [E'|(p & v & tr & Ep & Lt & (x & rest & K' & Run) & Rp & _ & _ & Near & Far)].
  { left. eapply partial_tells; eassumption. }
  right. destruct (Tries _ _ Run) as (gres & gtr & Ag & T & Li).
  destruct gres as [|x' rest' Ks]; cbn [agrees] in Ag; [contradiction|]. destruct Ag as (<- & <- & Fk).
  assert (s = x ++ rest /\ p = blen x) as (Es & ->).
  { destruct (full_outcome addr s env property k (Rule number [])) as [(Q & _)|(res & tr1 & Run1 & Q)]; [congruence|].
    destruct (run_det _ _ _ _ _ _ _ _ _ _ _ _ _ _ Run Run1) as (<- & _). destruct Q as (Q1 & Q2 & _). rewrite Ep in Q2. injection Q2 as -> . split; [exact Q1|reflexivity]. }
  exists x, rest, Ks, gtr. split; [exact Es|]. split; [intros ->; rewrite Es, app_nil_r in Lt; lia|]. split; [exact T|].
  assert (Fu := like_furthest R _ _ Li).
  assert (Mem := reports_members _ _ _ Rp). cbn zeta in Mem. rewrite furthest_snoc in Mem. cbn [event_at] in Mem.
  assert (Xe : forall q u y e, expected_event q u y e <-> exists ch, e = Attempt ch y q true false /\ upper ch q = u) by reflexivity.
  split; rewrite <- Fu.
  - intro L. eapply reports_tells; [exact Li|exact (Far L)].
  - intro L. apply (proj1 (Near L)).
  - intro L. rewrite L, Nat.max_id in Mem.
    assert (Rt : reports 0 tr (finish (play tr (tracker_new 0)))) by (rewrite play_new; apply represents_reports, represents_all).
    exists (finish (play tr (tracker_new 0))). split; [eapply reports_tells; eassumption|].
    assert (Mem' := reports_members _ _ _ Rt). cbn zeta in Mem'. rewrite L in Mem'.
    split; [|split]; intros u y; destruct (Mem u) as (M1 & M2 & M3), (Mem' u) as (N1 & N2 & N3).
    + unfold lists_expected. rewrite M1, N1. split.
      * intros (e & J & X). apply in_app_or in J. destruct J as [J|[<-|[]]]; [left; exists e; split; assumption|]. destruct X as (ch & X & U). injection X as <- <-. right. cbn in U. split; [symmetry; exact U|reflexivity].
      * intros [(e & J & X)|(-> & ->)]; [exists e; split; [apply in_or_app; left; exact J|exact X]|]. eexists. split; [apply in_or_app; right; left; reflexivity|]. exists []. split; reflexivity.
    + unfold lists_unexpected. rewrite M2, N2. split; intros (e & J & X).
      * apply in_app_or in J. destruct J as [J|[<-|[]]]; [exists e; split; assumption|]. destruct X as (ch & X & _). discriminate X.
      * exists e. split; [apply in_or_app; left; exact J|exact X].
    + unfold lists_misuse. rewrite M3, N3. split; intros (e & J & X).
      * apply in_app_or in J. destruct J as [J|[<-|[]]]; [exists e; split; assumption|]. destruct X as (ch & X & _). discriminate X.
      * exists e. split; [apply in_or_app; left; exact J|exact X].
  - intro L. replace (Nat.max (furthest 0 tr) (blen x)) with (blen x) in Mem by lia.
    assert (No : forall e, In e tr -> event_at e < blen x).
    { intros e J. refine (Nat.le_lt_trans _ _ _ _ L). clear - J. unfold furthest. induction tr as [|a l IH]; [destruct J|]. cbn [map fold_right]. destruct J as [->|J]; [lia|]. specialize (IH J). lia. }
    split; [|split]; intros u y; destruct (Mem u) as (M1 & M2 & M3).
    + unfold lists_expected. rewrite M1. split.
      * intros (e & J & ch & -> & U). apply in_app_or in J. destruct J as [J|[J|[]]]; [apply No in J; cbn [event_at] in J; lia|]. injection J as <- <-. cbn in U. split; [symmetry; exact U|reflexivity].
      * intros (-> & ->). eexists. split; [apply in_or_app; right; left; reflexivity|]. exists []. split; reflexivity.
    + intro Q. apply M2 in Q. destruct Q as (e & J & ch & -> & _). apply in_app_or in J. destruct J as [J|[J|[]]]; [apply No in J; cbn [event_at] in J; lia|discriminate J].
    + intro Q. apply M3 in Q. destruct Q as (e & J & ch & -> & _). apply in_app_or in J. destruct J as [J|[J|[]]]; [apply No in J; cbn [event_at] in J; lia|discriminate J].
Qed.
Lemma rejects_tells : distinct_properties unicode -> complete unicode h ->
  (gpeg unicode property h [] (n_expr (pr_node r)) [] s [] Fail -> yields addr s env property (Rule number []) 0 [] None) ->
  forall gtr, gtry_rule unicode property open h r [] s [] Fail gtr ->
  exists k0, forall k, k0 <= k -> exists t, text_try_parse addr s env property k (Rule number []) = Ret (inr t) /\
    text_try_parse_partial addr s env property k (Rule number []) = Ret (inr t) /\ tells R gtr (finish t).
Proof.
  intros D C A gtr (tr & T & ->).
  destruct (A (proj1 (gtry_gpeg unicode property open) _ _ _ _ _ _ _ _ _ _ T) [] (tracker_new 0)) as (k0 & Y). exists k0. intros k Hk. destruct (Y k Hk) as (V & _).
  assert (Ep : exists t, text_try_parse_partial addr s env property k (Rule number []) = Ret (inr t)).
  { unfold text_try_parse_partial, to_result, init_state, stack_new. change from_start with 0.
    destruct (try_parse addr s env property k (Rule number []) 0 (mkState (mkStack [] []) (tracker_new 0))) as [([(p, w)|], st)| |] eqn:Q;
      cbn [visible] in V; try discriminate V. eexists. reflexivity. }
  destruct Ep as (t & Ep). exists t. split; [|split; [exact Ep|]].
  - destruct (full_outcome addr s env property k (Rule number [])) as [(_ & Q)|(res & tr1 & _ & Q)]; [congruence|].
    destruct res as [|a b K' w]; [|destruct Q as (_ & Q & _); congruence]. destruct Q as (Q1 & Q2). congruence.
  - destruct (partial_tells _ _ Ep) as (gtr' & (tr' & T' & ->) & Te).
    destruct (proj1 (gtry_unique unicode property open D) _ _ _ _ _ _ _ _ _ _ T C (GE_nil unicode) _ _ T') as (_ & ->). exact Te.
Qed.
End Tells.

(** The report of a failed parse is about what the grammar tried on the text. *)
Theorem C86_report : forall config fuel unicode g items,
  generate_items config fuel unicode g = Ret items ->
  fine unicode g -> fine_types_mod (types_mod (rules_mod config)) g -> distinct_properties unicode ->
  forall id env, reads_rules items unicode id env ->
  forall property m h r, located (types_mod (rules_mod config)) g m h -> In r (g_rules h) -> ~ is_trivia_rule r -> pr_args r = [] ->
  forall addr s k t, text_try_parse_partial addr s env property k (Rule (id m (pr_name r)) []) = Ret (inr t) ->
  exists gtr, gtry_rule unicode property none_open h r [] s [] Fail gtr /\ tells (numbered_as (located (types_mod (rules_mod config)) g) id) gtr (finish t).
Proof.
  intros config fuel unicode g items H Fi Ty D id env Rr property m h r Lo Ir Nt Na addr s. apply (partial_tells addr s env unicode property none_open). intros res tr Run.
  exact (rule_tries _ _ _ _ _ H Fi Ty D id env Rr none_open (fun _ _ _ _ _ F => F) property m h r Lo Ir Nt Na addr s [] s [] [] eq_refl (Forall2_nil _) _ _ Run).
Qed.
Print Assumptions C86_report.

(** With the text to be parsed as a whole, the report may also be about what follows the match. *)
Theorem C86_full : forall config fuel unicode g items,
  generate_items config fuel unicode g = Ret items ->
  fine unicode g -> fine_types_mod (types_mod (rules_mod config)) g -> distinct_properties unicode ->
  forall id env, reads_rules items unicode id env ->
  forall property m h r, located (types_mod (rules_mod config)) g m h -> In r (g_rules h) -> ~ is_trivia_rule r -> pr_args r = [] ->
  forall addr s k t, text_try_parse addr s env property k (Rule (id m (pr_name r)) []) = Ret (inr t) ->
  let R := numbered_as (located (types_mod (rules_mod config)) g) id in
  (exists gtr, gtry_rule unicode property none_open h r [] s [] Fail gtr /\ tells R gtr (finish t)) \/
  exists x rest Ks gtr, s = x ++ rest /\ rest <> [] /\ gtry_rule unicode property none_open h r [] s [] (Ok x rest Ks) gtr /\
    tells_rest R gtr (blen x) (finish t).
Proof.
  intros config fuel unicode g items H Fi Ty D id env Rr property m h r Lo Ir Nt Na addr s k t E R. revert k t E. apply (full_tells addr s env unicode property none_open). intros res tr Run.
  exact (rule_tries _ _ _ _ _ H Fi Ty D id env Rr none_open (fun _ _ _ _ _ F => F) property m h r Lo Ir Nt Na addr s [] s [] [] eq_refl (Forall2_nil _) _ _ Run).
Qed.
Print Assumptions C86_full.

(** What a grammar tries belongs to what it does with the text, *)
Theorem C86_exists : forall unicode property open, (forall h q, open h q \/ ~ open h q) ->
  forall h r pre post K res,
  gpeg unicode property h [] (n_expr (pr_node r)) pre post K res <-> exists gtr, gtry_rule unicode property open h r pre post K res gtr.
Proof.
  intros unicode property open Op h r pre post K res. split.
  - intro G. destruct (proj1 (gpeg_gtry unicode property open Op) _ _ _ _ _ _ _ G [((h, r), blen pre)] true) as (tr & T). eexists. exists tr. split; [exact T|reflexivity].
  - intros (gtr & tr & T & _). eapply (proj1 (gtry_gpeg unicode property open)), T.
Qed.
Print Assumptions C86_exists.

(** and is determined by it. *)
Theorem C86_unique : forall unicode property open h r, distinct_properties unicode -> complete unicode h ->
  forall pre post K res gtr res' gtr', gtry_rule unicode property open h r pre post K res gtr -> gtry_rule unicode property open h r pre post K res' gtr' ->
  res' = res /\ gtr' = gtr.
Proof.
  intros unicode property open h r D C pre post K res gtr res' gtr' (tr & T & ->) (tr' & T' & ->).
  destruct (proj1 (gtry_unique unicode property open D) _ _ _ _ _ _ _ _ _ _ T C (GE_nil unicode) _ _ T') as (-> & ->). split; reflexivity.
Qed.
Print Assumptions C86_unique.

(** So on a text that the grammar rejects the parser, given enough steps, reports what the grammar tried. *)
Theorem C86_rejects : forall config fuel unicode g items,
  generate_items config fuel unicode g = Ret items ->
  fine unicode g -> fine_types_mod (types_mod (rules_mod config)) g -> distinct_properties unicode ->
  forall id env, reads_rules items unicode id env ->
  forall property m h r, located (types_mod (rules_mod config)) g m h -> In r (g_rules h) -> ~ is_trivia_rule r -> pr_args r = [] ->
  forall addr s gtr, gtry_rule unicode property none_open h r [] s [] Fail gtr ->
  exists k0, forall k, k0 <= k -> exists t, text_try_parse addr s env property k (Rule (id m (pr_name r)) []) = Ret (inr t) /\
    text_try_parse_partial addr s env property k (Rule (id m (pr_name r)) []) = Ret (inr t) /\
    tells (numbered_as (located (types_mod (rules_mod config)) g) id) gtr (finish t).
Proof.
  intros config fuel unicode g items H Fi Ty D id env Rr property m h r Lo Ir Nt Na addr s.
  assert (C : complete unicode g) by (apply (C63_accepts config unicode g Fi D); eauto).
  destruct (located_complete unicode _ g m h Lo C Fi) as (Ch & _).
  destruct (C36_parser config fuel unicode g items H Fi Ty D id env Rr property m h r Lo Ir Nt Na addr s [] s [] [] eq_refl (Forall2_nil _)) as (_ & _ & _ & A).
  apply (rejects_tells addr s env unicode property none_open); [|exact D|exact Ch|exact A]. intros res tr Run.
  exact (rule_tries _ _ _ _ _ H Fi Ty D id env Rr none_open (fun _ _ _ _ _ F => F) property m h r Lo Ir Nt Na addr s [] s [] [] eq_refl (Forall2_nil _) _ _ Run).
Qed.
Print Assumptions C86_rejects.

(** The same of what [generate_typed] emits for a grammar without silent rules that have parameters. *)
Theorem C86_typed : forall config fuel unicode g items,
  generate_typed config fuel unicode g = Ret items -> (forall q, ~ some_macro g q) ->
  fine unicode g -> fine_types_mod (types_mod (rules_mod config)) g -> distinct_properties unicode ->
  forall id env, reads_rules items unicode id env ->
  forall property m h r, located (types_mod (rules_mod config)) g m h -> In r (g_rules h) -> ~ is_trivia_rule r -> pr_args r = [] ->
  forall addr s gtr, gtry_rule unicode property none_open h r [] s [] Fail gtr ->
  exists k0, forall k, k0 <= k -> exists t, text_try_parse addr s env property k (Rule (id m (pr_name r)) []) = Ret (inr t) /\
    text_try_parse_partial addr s env property k (Rule (id m (pr_name r)) []) = Ret (inr t) /\
    tells (numbered_as (located (types_mod (rules_mod config)) g) id) gtr (finish t).
Proof.
  intros config fuel unicode g items G Nm. unfold generate_typed in G. destruct (inline_macros fuel g) as [g'| |] eqn:E; try discriminate. cbn [obind] in G.
  apply (proj2 (C40_none g Nm)) in E. subst g'. exact (C86_rejects _ _ _ _ _ G).
Qed.
Print Assumptions C86_typed.

(** With the silent rules that have parameters, the parsers try what the grammar as it is written tries, except that calls of these rules of the main
    grammar are as if the bodies were written instead. *)
Lemma inlined_tries : forall config fuel unicode g items,
  generate_typed config fuel unicode g = Ret items ->
  complete unicode g -> tidy unicode g -> plain_trivia g ->
  fine unicode g -> fine_types_mod (types_mod (rules_mod config)) g -> distinct_properties unicode ->
  forall id env, reads_rules items unicode id env ->
  forall property m h r, located (types_mod (rules_mod config)) g m h -> In r (g_rules h) -> ~ is_trivia_rule r -> pr_args r = [] ->
  forall addr s pre post K Ks, s = pre ++ post -> Forall2 span_text K Ks ->
  forall res tr, run addr s env property [] true (Rule (id m (pr_name r)) []) pre post K res tr ->
  exists gres gtr, agrees res gres /\ gtry_rule unicode property (open_own g) h r pre post Ks gres gtr /\
    Forall2 (event_of (numbered_as (located (types_mod (rules_mod config)) g) id)) tr gtr.
Proof.
  intros config fuel unicode g items G C T Pt F Ty D id env R property m h r Lo J Nt A addr s pre post K Ks Es Fk res tr Run.
  unfold generate_typed in G. destruct (inline_macros fuel g) as [g'| |] eqn:E; try discriminate. cbn [obind] in G.
  assert (F' := inlined_fine _ _ _ _ E F T Pt).
  assert (C' : complete unicode g') by (apply (C63_accepts config unicode g' F' D); eauto).
  destruct (C40_removed _ _ _ E) as (Go & Ig & _). set (tm := types_mod (rules_mod config)) in *.
  assert (Ty' : fine_types_mod tm g') by (unfold fine_types_mod in *; rewrite Ig; exact Ty).
  assert (Cl : forall mp g0 q, located tm g' mp g0 -> In q (g_rules g0) -> ~ open_own g g0 q).
  { intros mp g0 q L _ (E0 & M). destruct (weight_located_strict tm g g' mp g0 Ig L) as [Q|Q]; [|subst g0; lia]. rewrite E0 in Q. subst g'. exact (Go _ M). }
  assert (There : forall mp h0, located tm g' mp h0 -> (mp = [tm] /\ h0 = g') \/ (located tm g mp h0 /\ weight h0 < weight g)).
  { intros mp h0 L. induction L as [|mp h0 alias h1 L IH I]; [left; split; reflexivity|]. right. assert (W := weight_import _ _ _ I). destruct IH as [(-> & ->)|(L' & W')].
    - rewrite Ig in I. apply weight_import in I as W'. split; [|lia]. apply (Loc_file _ g [tm] g alias h1); [constructor|exact I].
    - split; [eapply Loc_file; eassumption|lia]. }
  assert (Wg : weight g' = weight g) by (destruct g as [d0 r0 c0 i0], g' as [d1 r1 c1 i1]; cbn [g_imports] in Ig; subst i1; reflexivity).
  assert (Num : forall x y z, numbered_as (located tm g') id x y -> became g g' (kept g g' fuel) z y -> light g (fst z) -> numbered_as (located tm g) id x z).
  { intros x (h1, q1) (h0, q0) (mp & L & Iq & ->) B W. cbn [fst snd] in *. destruct B as [B|(B1 & B2 & Kp)]; cbn [fst snd] in *.
    - injection B as -> ->. exists mp. cbn [fst snd]. split; [|split; [exact Iq|reflexivity]].
      destruct (There _ _ L) as [(-> & ->)|(L' & _)]; [|exact L']. destruct W as [W|W]; [rewrite W; constructor|lia].
    - subst h0 h1. exists mp. cbn [fst snd]. destruct (There _ _ L) as [(-> & _)|(_ & W')]; [|lia].
      destruct Kp as (J0 & _ & _ & N0 & _). split; [constructor|]. split; [exact J0|]. rewrite N0. reflexivity. }
  assert (Self : forall h0, located tm g m h0 -> m = [tm] /\ h0 = g \/ located tm g' m h0).
  { clear - Ig. intros h0 Lo. induction Lo as [|m h alias h' Lo IH I]; [left; split; reflexivity|]. right. destruct IH as [(-> & ->)|L].
    - apply (Loc_file _ g' [tm] g' alias h'); [constructor|rewrite Ig; exact I].
    - eapply Loc_file; eassumption. }
  assert (Lh : light g h) by (destruct (weight_located tm g _ _ Lo) as [Q|Q]; [left|right]; exact Q).
  destruct (Self h Lo) as [(-> & ->)|Lo'].
  - assert (M : is_macro r = false) by (unfold is_macro; rewrite A; apply andb_false_r).
    destruct (kept_there g g' fuel E r J M) as (r' & Kp). assert (Kp' := Kp). destruct Kp' as (_ & _ & J' & N & A' & _ & _).
    assert (Nt' : ~ is_trivia_rule r') by (unfold is_trivia_rule in *; rewrite <- N; exact Nt). rewrite N in Run. rewrite A in A'. symmetry in A'.
    destruct (rule_tries _ _ _ _ _ G F' Ty' D id env R _ Cl property _ g' r' (Loc_top _ _) J' Nt' A' addr s pre post K Ks Es Fk _ _ Run) as (gres & gtr' & Ag & Tr & Li).
    destruct (inlined_try unicode property fuel g g' C T E C' Go r r' Kp A _ _ _ _ _ Tr) as (gtr & Tr' & Li').
    exists gres, gtr. split; [exact Ag|]. split; [exact Tr'|]. eapply (like_through _ _ _ (light g)); [exact Num|exact Li|exact Li'|].
    exact (light_rule unicode property (open_own g) g _ _ _ _ _ _ _ Tr' Lh).
  - destruct (rule_tries _ _ _ _ _ G F' Ty' D id env R _ Cl property _ h r Lo' J Nt A addr s pre post K Ks Es Fk _ _ Run) as (gres & gtr & Ag & Tr & Li).
    exists gres, gtr. split; [exact Ag|]. split; [exact Tr|]. assert (Lg := light_rule unicode property (open_own g) g _ _ _ _ _ _ _ Tr Lh).
    eapply (like_through _ (became g g' (kept g g' fuel)) _ (light g)); [exact Num|exact Li| |exact Lg].
    clear - C. induction gtr as [|e l IH]; constructor; [|exact IH].
    assert (Re : forall ch, Forall2 (gframe_of (became g g' (kept g g' fuel))) ch ch).
    { intro ch. induction ch as [|f ch IHc]; constructor; [split; [left; reflexivity|reflexivity]|exact IHc]. }
    destruct e; constructor; try apply Re. left. reflexivity.
Qed.

Theorem C86_inlined : forall config fuel unicode g items,
  generate_typed config fuel unicode g = Ret items ->
  complete unicode g -> tidy unicode g -> plain_trivia g ->
  fine unicode g -> fine_types_mod (types_mod (rules_mod config)) g -> distinct_properties unicode ->
  forall id env, reads_rules items unicode id env ->
  forall property m h r, located (types_mod (rules_mod config)) g m h -> In r (g_rules h) -> ~ is_trivia_rule r -> pr_args r = [] ->
  forall addr s k t, text_try_parse addr s env property k (Rule (id m (pr_name r)) []) = Ret (inr t) ->
  let R := numbered_as (located (types_mod (rules_mod config)) g) id in
  (exists gtr, gtry_rule unicode property (open_own g) h r [] s [] Fail gtr /\ tells R gtr (finish t)) \/
  exists x rest Ks gtr, s = x ++ rest /\ rest <> [] /\ gtry_rule unicode property (open_own g) h r [] s [] (Ok x rest Ks) gtr /\
    tells_rest R gtr (blen x) (finish t).
Proof.
  intros config fuel unicode g items H C Td Pt Fi Ty D id env Rr property m h r Lo Ir Nt Na addr s k t E R. revert k t E. apply (full_tells addr s env unicode property (open_own g)). intros res tr Run.
  exact (inlined_tries _ _ _ _ _ H C Td Pt Fi Ty D id env Rr property m h r Lo Ir Nt Na addr s [] s [] [] eq_refl (Forall2_nil _) _ _ Run).
Qed.
Print Assumptions C86_inlined.
Theorem C86_inlined_rejects : forall config fuel unicode g items,
  generate_typed config fuel unicode g = Ret items ->
  complete unicode g -> tidy unicode g -> plain_trivia g ->
  fine unicode g -> fine_types_mod (types_mod (rules_mod config)) g -> distinct_properties unicode ->
  forall id env, reads_rules items unicode id env ->
  forall property m h r, located (types_mod (rules_mod config)) g m h -> In r (g_rules h) -> ~ is_trivia_rule r -> pr_args r = [] ->
  forall addr s gtr, gtry_rule unicode property (open_own g) h r [] s [] Fail gtr ->
  exists k0, forall k, k0 <= k -> exists t, text_try_parse addr s env property k (Rule (id m (pr_name r)) []) = Ret (inr t) /\
    text_try_parse_partial addr s env property k (Rule (id m (pr_name r)) []) = Ret (inr t) /\
    tells (numbered_as (located (types_mod (rules_mod config)) g) id) gtr (finish t).
Proof.
  intros config fuel unicode g items H C Td Pt Fi Ty D id env Rr property m h r Lo Ir Nt Na addr s.
  destruct (located_complete unicode _ g m h Lo C Fi) as (Ch & _).
  destruct (C40_parser config fuel unicode g items H C Td Pt Fi Ty D id env Rr property m h r Lo Ir Nt Na addr s [] s [] [] eq_refl (Forall2_nil _)) as (_ & _ & _ & A).
  apply (rejects_tells addr s env unicode property (open_own g)); [|exact D|exact Ch|exact A]. intros res tr Run.
  exact (inlined_tries _ _ _ _ _ H C Td Pt Fi Ty D id env Rr property m h r Lo Ir Nt Na addr s [] s [] [] eq_refl (Forall2_nil _) _ _ Run).
Qed.
Print Assumptions C86_inlined_rejects.

(** On ["a + "] the rule [all] of the sample grammar reports that [sum] expected [paren] at offset 4. On ["end)"] the rule [word] matches ["end"];
    the report says that [word] expected [paren] at offset 3, or the text should have ended there. *)
Definition sub_number (name : string) : rule := sample_id [lit "rules"; lit "s"; lit "rules"] (lit name).
Example C86_ex :
  generate_items box_all 9 sample_unicode sample_main = Ret sample_items /\ fine sample_unicode sample_main /\
  fine_types_mod (lit "rules") sample_main /\ distinct_properties sample_unicode /\ reads_rules sample_items sample_unicode sample_id sample_env /\
  generate_typed box_all 9 sample_unicode sample_main = Ret sample_items /\ (forall q, ~ some_macro sample_main q) /\
  (exists r t gtr, located (lit "rules") sample_main [lit "rules"] sample_main /\ In r (g_rules sample_main) /\ ~ is_trivia_rule r /\ pr_args r = [] /\ complete sample_unicode sample_main /\
    text_try_parse_partial 0 (lit "a + ") sample_env sample_digit 60 (Rule (sample_id [lit "rules"] (pr_name r)) []) = Ret (inr t) /\
    finish t = (4, [(Some (sub_number "sum"), ([sub_number "paren"], [], []))]) /\
    gtry_rule sample_unicode sample_digit none_open sample_main r [] (lit "a + ") [] Fail gtr /\ tells (numbered_as (located (lit "rules") sample_main) sample_id) gtr (finish t)) /\
  (exists r t, located (lit "rules") sample_main [lit "rules"; lit "s"; lit "rules"] sample /\ In r (g_rules sample) /\ ~ is_trivia_rule r /\ pr_args r = [] /\
    text_try_parse 0 (lit "end)") sample_env sample_digit 60 (Rule (sample_id [lit "rules"; lit "s"; lit "rules"] (pr_name r)) []) = Ret (inr t) /\
    finish t = (3, [(None, ([EOI], [], [])); (Some (sub_number "word"), ([sub_number "paren"], [], []))])).
Proof.
  assert (G : generate_items box_all 9 sample_unicode sample_main = Ret sample_items) by (vm_compute; reflexivity).
  assert (R : reads_rules sample_items sample_unicode sample_id sample_env) by (apply check_reads_spec; vm_compute; reflexivity).
  destruct C40_none_ex as (Nm & In).
  assert (Gt : generate_typed box_all 9 sample_unicode sample_main = Ret sample_items) by (unfold generate_typed; rewrite In; exact G).
  assert (Ty : fine_types_mod (types_mod (rules_mod box_all)) sample_main) by (left; reflexivity).
  assert (C : complete sample_unicode sample_main) by (apply (C63_accepts box_all sample_unicode sample_main sample_main_fine sample_distinct); eauto).
  split; [exact G|]. split; [exact sample_main_fine|]. split; [exact Ty|]. split; [exact sample_distinct|]. split; [exact R|]. split; [exact Gt|]. split; [exact Nm|]. split.
  - set (r := nth 0 main_rules (rl "" [] (str ""))).
    assert (Ir : List.In r (g_rules sample_main)) by (left; reflexivity).
    assert (Nt : ~ is_trivia_rule r) by (intros [E|E]; discriminate).
    destruct (text_try_parse_partial 0 (lit "a + ") sample_env sample_digit 60 (Rule (sample_id [lit "rules"] (pr_name r)) [])) as [[v|t]| |] eqn:E;
      try (vm_compute in E; discriminate E).
    assert (Pv : finish t = (4, [(Some (sub_number "sum"), ([sub_number "paren"], [], []))])) by (vm_compute in E; injection E as <-; vm_compute; reflexivity).
    destruct (C86_report _ _ _ _ _ G sample_main_fine Ty sample_distinct _ _ R sample_digit _ _ r (Loc_top _ _) Ir Nt eq_refl _ _ _ _ E) as (gtr & T & Te).
    exists r, t, gtr. split; [constructor|]. split; [exact Ir|]. split; [exact Nt|]. split; [reflexivity|]. split; [exact C|]. split; [exact E|]. split; [exact Pv|]. split; [exact T|exact Te].
  - set (r := nth 5 sample_rules (rl "" [] (str ""))).
    destruct (text_try_parse 0 (lit "end)") sample_env sample_digit 60 (Rule (sample_id [lit "rules"; lit "s"; lit "rules"] (pr_name r)) [])) as [[v|t]| |] eqn:E;
      try (vm_compute in E; discriminate E).
    exists r, t. split; [apply (Loc_file _ _ [lit "rules"] sample_main (lit "s") sample); [constructor|left; reflexivity]|]. split; [do 5 right; left; reflexivity|].
    split; [intros [Q|Q]; discriminate|]. split; [reflexivity|]. split; [exact E|]. vm_compute in E. injection E as <-. vm_compute. reflexivity.
Qed.

(** On ["(1) , (<x>)"] the rule [main] of the sample grammar with silent rules with parameters reports that [keep] expected [digit] at offset 8: the
    silent rules around the two are not mentioned, although they were called. *)
Example C86_inlined_ex :
  generate_typed box_all 20 sample_unicode inline_sample = Ret inline_items /\ complete sample_unicode inline_sample /\ tidy sample_unicode inline_sample /\
  plain_trivia inline_sample /\ fine sample_unicode inline_sample /\ fine_types_mod (lit "rules") inline_sample /\ distinct_properties sample_unicode /\
  reads_rules inline_items sample_unicode inline_id inline_env /\
  exists r t gtr, In r (g_rules inline_sample) /\ ~ is_trivia_rule r /\ pr_args r = [] /\ pr_name r = lit "main" /\
    text_try_parse 0 (lit "(1) , (<x>)") inline_env (fun _ _ => false) 80 (Rule (inline_id [lit "rules"] (pr_name r)) []) = Ret (inr t) /\
    finish t = (8, [(Some (inline_id [lit "rules"] (lit "keep")), ([inline_id [lit "rules"] (lit "digit")], [], []))]) /\
    gtry_rule sample_unicode (fun _ _ => false) (open_own inline_sample) inline_sample r [] (lit "(1) , (<x>)") [] Fail gtr /\
    tells (numbered_as (located (lit "rules") inline_sample) inline_id) gtr (finish t).
Proof.
  destruct C40_ex as (F & Ty & C & Td & Pt & _ & _ & _ & _ & _).
  assert (G : generate_typed box_all 20 sample_unicode inline_sample = Ret inline_items) by (vm_compute; reflexivity).
  assert (R : reads_rules inline_items sample_unicode inline_id inline_env) by (apply check_reads_spec; vm_compute; reflexivity).
  split; [exact G|]. split; [exact C|]. split; [exact Td|]. split; [exact Pt|]. split; [exact F|]. split; [exact Ty|]. split; [exact sample_distinct|]. split; [exact R|].
  set (r := nth 6 (g_rules inline_sample) (rl "" [] (str ""))).
  assert (Ir : List.In r (g_rules inline_sample)) by (do 6 right; left; reflexivity).
  assert (Nt : ~ is_trivia_rule r) by (intros [E|E]; discriminate).
  destruct (text_try_parse 0 (lit "(1) , (<x>)") inline_env (fun _ _ => false) 80 (Rule (inline_id [lit "rules"] (pr_name r)) [])) as [[v|t]| |] eqn:E;
    try (vm_compute in E; discriminate E).
  assert (Pv : finish t = (8, [(Some (inline_id [lit "rules"] (lit "keep")), ([inline_id [lit "rules"] (lit "digit")], [], []))])) by (vm_compute in E; injection E as <-; vm_compute; reflexivity).
  destruct (decide_spec 60 sample_unicode inline_sample 6 (lit "(1) , (<x>)") false F sample_distinct) as (_ & r1 & Er & No); [vm_compute; reflexivity|].
  cbn in Er. injection Er as <-.
  destruct (C86_inlined _ _ _ _ _ G C Td Pt F Ty sample_distinct _ _ R (fun _ _ => false) _ _ r (Loc_top _ _) Ir Nt eq_refl _ _ _ _ E) as [(gtr & T & Te)|(x & rest & Ks & gtr & _ & _ & T & _)].
  - exists r, t, gtr. split; [exact Ir|]. split; [exact Nt|]. split; [reflexivity|]. split; [reflexivity|]. split; [exact E|]. split; [exact Pv|]. split; [exact T|exact Te].
  - exfalso. destruct T as (tr & T & _). apply gtry_gpeg in T.
    assert (K := proj1 (gpeg_unique sample_unicode (fun _ _ => false) sample_distinct) _ _ _ _ _ _ _ No C (GE_nil _) _ T). discriminate K.
Qed.
