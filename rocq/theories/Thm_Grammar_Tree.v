(** C85: the pairs of a parse are the tree that the grammar describes (core/src/typed/traits.rs L172-220,
    generator/src/typed/generator.rs L170-240). *)
From Coq Require Import String List NArith ZArith Arith Bool Lia.
From Verif Require Import Proof_Det Proof_Complete Proof_Run Model_Text Model_Message Model_Meta Model_Import Model_Position Model_Span Model_Stack Model_Tracker Model_Node Model_Pairs
  Model_Generator Model_Output Model_Inline
  Spec_Text Spec_Peg Spec_Run Spec_Yield Spec_Rust Spec_Grammar_Peg Spec_Occur Spec_Generator Spec_Inline Spec_Grammar_Tree
  Proof_Text Proof_Peg Proof_Yield Proof_Node Proof_Entry Proof_Emit Proof_Box Proof_Process Proof_Names Proof_Place Proof_Resolve Proof_Accept
  Proof_Compile Proof_Leaf Proof_Read Proof_Exists Proof_Inlined Proof_Inlining Proof_Inline_Ends Proof_Grammar_Tree Proof_Grammar_Tree_Det Proof_Grammar_Tree_Inline
  Example_Generator Example_Fine Example_Inline Thm_Names Thm_Generated Thm_Inline Thm_Grammar_Terminate.
Import ListNotations.
Open Scope list_scope.

Lemma run_rule : forall addr s env property chain pol r ns pre post K a b K' v tr, run addr s env property chain pol (Rule r ns) pre post K (ROk a b K' v) tr ->
  exists c chain' tr', v = VRule r c (mkSpan addr s (blen pre) (blen a)) /\ run addr s env property chain' pol (rd_body (env r) ns) pre post K (ROk a b K' c) tr'.
Proof.
  intros addr s env property chain pol r ns pre post K a b K' v tr H. inversion H; subst.
  - match goal with X : terminal _ _ _ _ _ _ |- _ => inversion X end.
  - eexists _, _, _. split; [reflexivity|eassumption].
Qed.

(** What a run of the parser of a rule returns has the pairs of a tree of the rule. *)
Lemma rule_tree : forall config fuel unicode g items,
  generate_items config fuel unicode g = Ret items ->
  fine unicode g -> fine_types_mod (types_mod (rules_mod config)) g -> distinct_properties unicode ->
  forall id env, reads_rules items unicode id env ->
  forall open : gmodule -> parse_rule -> Prop, (forall mp g0 q, located (types_mod (rules_mod config)) g mp g0 -> In q (g_rules g0) -> ~ open g0 q) ->
  forall property m h r, located (types_mod (rules_mod config)) g m h -> In r (g_rules h) -> ~ is_trivia_rule r -> pr_args r = [] ->
  forall addr s pre post K Ks, s = pre ++ post -> Forall2 span_text K Ks ->
  forall chain pol a b K' v tr, run addr s env property chain pol (Rule (id m (pr_name r)) []) pre post K (ROk a b K' v) tr ->
  exists Ks' ps, Forall2 span_text K' Ks' /\ gtree unicode property open h [] (n_expr (pr_node r)) pre post Ks a b Ks' ps /\
    (pr_silent r = true -> for_self_or_for_each_child_pair env v = [] /\ for_each_child_pair env v = []) /\
    (pr_silent r = false ->
       matched_all (numbered_as (located (types_mod (rules_mod config)) g) id) (for_self_or_for_each_child_pair env v) [mkPair (h, r) (blen pre) (blen a) ps] /\
       matched_all (numbered_as (located (types_mod (rules_mod config)) g) id) (for_each_child_pair env v) ps).
Proof.
  intros config fuel unicode g items H Fi Ty D id env Rr open Closed property m h r Lo Ir Nt Na addr s pre post K Ks Es Fk chain pol a b K' v tr R.
  unfold generate_items, generate_output in H. destruct (existsb _ (raw_names g)); [discriminate H|].
  destruct (process_rules config fuel (make_global unicode) [lit "super"] 0 g gt_new) as [((o, coll), T)| |] eqn:P; try discriminate. cbn [obind] in H. injection H as <-.
  destruct (process_rules_spec config fuel unicode (builtin_resolves_all unicode D) g 0 gt_new o coll T P Fi good_new) as (Tg & _ & M).
  specialize (M T (extends_refl T)). change (fst (collect_output (rules_mod config) o) ++ collect_tracker T) with (all_items config T o) in Rr.
  assert (B := bodies_read config fuel unicode T g o property env id (leaf_tree unicode property env)
    Ty D Tg (fun _ _ _ _ L _ _ E Q => conj L (conj (proj1 E) Q)) coll M Fi Rr).
  assert (Si : forall mp g0 q, located (types_mod (rules_mod config)) g mp g0 -> In q (g_rules g0) -> ~ is_trivia_rule q -> rd_silent (env (id mp (pr_name q))) = pr_silent q).
  { intros mp g0 q L J N. destruct (located_emitted config fuel unicode T g o Ty coll M Fi mp g0 L) as (depth & c & Em).
    destruct (emitted_struct config fuel unicode T g o _ _ _ _ q Em J N) as (st & reach & i & _ & _ & -> & sub & A & E).
    destruct Rr as (_ & Rr). refine (proj1 (Rr mp (create_rule config reach depth q i) _)). exists sub. split; [exact A|exact E]. }
  destruct (run_rule _ _ _ _ _ _ _ _ _ _ _ _ _ _ _ _ R) as (c & chain' & tr' & -> & R').
  assert (C := B m h r [] [] Lo Ir Nt). rewrite Na in C. specialize (C eq_refl ltac:(constructor)). cbn [combine] in C.
  destruct (run_tree addr s unicode property env id _ open B Si Closed) as (Run & _).
  assert (Q := lift addr s unicode property env id _ open _ _ _ _ _ _ _ _ R' (Run _ _ _ _ _ _ _ _ R') _ _ _ C Es Ks Fk). cbn beta iota in Q.
  destruct Q as (Ks' & ps & Fk' & Tr & Ma). exists Ks', ps. split; [exact Fk'|]. split; [exact Tr|].
  unfold for_self_or_for_each_child_pair, for_each_child_pair. cbn [pairs]. rewrite (Si m h r Lo Ir Nt). split; intros ->; [split; reflexivity|].
  split; [|exact Ma]. cbn [sp_start sp_end]. constructor; [|constructor]. constructor; [|exact Ma]. exists m. split; [exact Lo|]. split; [exact Ir|]. reflexivity.
Qed.

Lemma rule_pairs : forall config fuel unicode g items,
  generate_items config fuel unicode g = Ret items ->
  fine unicode g -> fine_types_mod (types_mod (rules_mod config)) g -> distinct_properties unicode ->
  forall id env, reads_rules items unicode id env ->
  forall open : gmodule -> parse_rule -> Prop, (forall mp g0 q, located (types_mod (rules_mod config)) g mp g0 -> In q (g_rules g0) -> ~ open g0 q) ->
  forall property m h r, located (types_mod (rules_mod config)) g m h -> In r (g_rules h) -> ~ is_trivia_rule r -> pr_args r = [] ->
  forall addr s pre post K Ks, s = pre ++ post -> Forall2 span_text K Ks ->
  forall k sv t p v st', try_parse addr s env property k (Rule (id m (pr_name r)) []) (blen pre) (mkState (mkStack K sv) t) = Ret (Some (p, v), st') ->
  exists x post' Ks' ps, post = x ++ post' /\ p = blen (pre ++ x) /\
    gtree unicode property open h [] (n_expr (pr_node r)) pre post Ks (pre ++ x) post' Ks' ps /\
    (pr_silent r = true -> for_self_or_for_each_child_pair env v = [] /\ for_each_child_pair env v = []) /\
    (pr_silent r = false ->
       matched_all (numbered_as (located (types_mod (rules_mod config)) g) id) (for_self_or_for_each_child_pair env v) [mkPair (h, r) (blen pre) p ps] /\
       matched_all (numbered_as (located (types_mod (rules_mod config)) g) id) (for_each_child_pair env v) ps).
Proof.
  intros config fuel unicode g items H Fi Ty D id env Rr open Closed property m h r Lo Ir Nt Na addr s pre post K Ks Es Fk k sv t p v st' R.
  destruct (Proof_Run.sound addr s env property k (Rule (id m (pr_name r)) []) pre post K sv t Es (ex_intro _ Ks Fk)) as [(_ & Q)|(res & tr & Run & Fit)]; [congruence|].
  destruct res as [|a b K' w]; cbn [fits] in Fit; [destruct Fit as (? & _ & Q); congruence|].
  destruct Fit as ((x & ->) & Es' & _ & _ & Q). rewrite R in Q. injection Q as -> -> ->.
  destruct (rule_tree _ _ _ _ _ H Fi Ty D id env Rr open Closed property m h r Lo Ir Nt Na addr s pre post K Ks Es Fk _ _ _ _ _ _ _ Run) as (Ks' & ps & _ & Tr & Pa).
  exists x, b, Ks', ps. split; [|split; [reflexivity|split; [exact Tr|exact Pa]]].
  rewrite Es, <- app_assoc in Es'. apply app_inv_head in Es'. exact Es'.
Qed.

(** Whatever the generated parser of a rule returns, its pairs are the tree of the rule: the rule itself and, inside, the rules
    that its body refers to, with the offsets between which they matched. A silent rule has no pairs at all. *)
Theorem C85_pairs : forall config fuel unicode g items,
  generate_items config fuel unicode g = Ret items ->
  fine unicode g -> fine_types_mod (types_mod (rules_mod config)) g -> distinct_properties unicode ->
  forall id env, reads_rules items unicode id env ->
  forall property m h r, located (types_mod (rules_mod config)) g m h -> In r (g_rules h) -> ~ is_trivia_rule r -> pr_args r = [] ->
  forall addr s pre post K Ks, s = pre ++ post -> Forall2 span_text K Ks ->
  forall k sv t p v st', try_parse addr s env property k (Rule (id m (pr_name r)) []) (blen pre) (mkState (mkStack K sv) t) = Ret (Some (p, v), st') ->
  exists x post' Ks' ps, post = x ++ post' /\ p = blen (pre ++ x) /\
    gtree unicode property none_open h [] (n_expr (pr_node r)) pre post Ks (pre ++ x) post' Ks' ps /\
    (pr_silent r = true -> for_self_or_for_each_child_pair env v = [] /\ for_each_child_pair env v = []) /\
    (pr_silent r = false ->
       matched_all (numbered_as (located (types_mod (rules_mod config)) g) id) (for_self_or_for_each_child_pair env v) [mkPair (h, r) (blen pre) p ps] /\
       matched_all (numbered_as (located (types_mod (rules_mod config)) g) id) (for_each_child_pair env v) ps).
Proof.
  intros config fuel unicode g items H Fi Ty D id env Rr property m h r. apply (rule_pairs _ _ _ _ _ H Fi Ty D id env Rr none_open). intros mp g0 q _ _ [].
Qed.
Print Assumptions C85_pairs.

(** Every match has a tree, and trees belong to matches only. *)
Theorem C85_exists : forall unicode property open, (forall h q, open h q \/ ~ open h q) ->
  forall g rho e pre post K pre' post' K', gpeg unicode property g rho e pre post K (Ok pre' post' K') <-> exists ps, gtree unicode property open g rho e pre post K pre' post' K' ps.
Proof.
  intros unicode property open Op g rho e pre post K pre' post' K'. split; [intro G; exact (proj1 (gpeg_gtree unicode property open Op) _ _ _ _ _ _ _ G _ _ _ eq_refl)|].
  intros (ps & T). eapply (proj1 (gtree_gpeg unicode property open)), T.
Qed.
Print Assumptions C85_exists.

(** Its tree is the only one. *)
Theorem C85_unique : forall unicode property open g e, distinct_properties unicode -> complete unicode g ->
  forall pre post K pre' post' K' ps pre'' post'' K'' qs,
  gtree unicode property open g [] e pre post K pre' post' K' ps -> gtree unicode property open g [] e pre post K pre'' post'' K'' qs ->
  pre' = pre'' /\ post' = post'' /\ K' = K'' /\ ps = qs.
Proof.
  intros unicode property open g e D C pre post K pre' post' K' ps pre'' post'' K'' qs T T'.
  exact (proj1 (gtree_unique unicode property open D) _ _ _ _ _ _ _ _ _ _ T' C (GE_nil unicode) _ _ _ _ T).
Qed.
Print Assumptions C85_unique.

(** So the tree that the grammar prescribes is the one that the parser returns, given enough steps. *)
Theorem C85_tree : forall config fuel unicode g items,
  generate_items config fuel unicode g = Ret items ->
  fine unicode g -> fine_types_mod (types_mod (rules_mod config)) g -> distinct_properties unicode ->
  forall id env, reads_rules items unicode id env ->
  forall property m h r, located (types_mod (rules_mod config)) g m h -> In r (g_rules h) -> ~ is_trivia_rule r -> pr_args r = [] -> pr_silent r = false ->
  forall addr s pre post K Ks, s = pre ++ post -> Forall2 span_text K Ks ->
  forall x post' Ks' ps, gtree unicode property none_open h [] (n_expr (pr_node r)) pre post Ks (pre ++ x) post' Ks' ps ->
  exists v K', Forall2 span_text K' Ks' /\ yields addr s env property (Rule (id m (pr_name r)) []) (blen pre) K (Some (blen (pre ++ x), v, K')) /\
    matched_all (numbered_as (located (types_mod (rules_mod config)) g) id) (for_self_or_for_each_child_pair env v) [mkPair (h, r) (blen pre) (blen (pre ++ x)) ps] /\
    matched_all (numbered_as (located (types_mod (rules_mod config)) g) id) (for_each_child_pair env v) ps.
Proof.
  intros config fuel unicode g items H Fi Ty D id env Rr property m h r Lo Ir Nt Na Ns addr s pre post K Ks Es Fk x post' Ks' ps T.
  assert (C : complete unicode g) by (apply (C63_accepts config unicode g Fi D); eauto).
  destruct (located_complete unicode _ g m h Lo C Fi) as (Ch & _).
  destruct (C36_parser config fuel unicode g items H Fi Ty D id env Rr property m h r Lo Ir Nt Na addr s pre post K Ks Es Fk) as (_ & _ & A & _).
  destruct (A x post' Ks' (proj1 (gtree_gpeg unicode property none_open) _ _ _ _ _ _ _ _ _ _ T)) as (v & K' & Fk' & Y). exists v, K'. split; [exact Fk'|]. split; [exact Y|].
  destruct (Y [] (tracker_new 0)) as (k0 & Yk). destruct (Yk k0 (le_n _)) as (V & _).
  destruct (try_parse addr s env property k0 (Rule (id m (pr_name r)) []) (blen pre) (mkState (mkStack K []) (tracker_new 0))) as [([(p, w)|], st)| |] eqn:R;
    cbn [visible] in V; try discriminate V. injection V as -> -> _.
  destruct (C85_pairs _ _ _ _ _ H Fi Ty D id env Rr property m h r Lo Ir Nt Na addr s pre post K Ks Es Fk _ _ _ _ _ _ R) as (y & post2 & Ks2 & qs & E1 & E2 & T2 & _ & P).
  destruct (C85_unique unicode property none_open h _ D Ch _ _ _ _ _ _ _ _ _ _ _ T T2) as (E & -> & -> & ->). apply app_inv_head in E. subst y. exact (P Ns).
Qed.
Print Assumptions C85_tree.

(** Every pair, however deep, is a match of its rule in the text that was parsed: between its offsets the body of the rule, which
    is not silent, matches with the pair's children as its tree. *)
Theorem C85_each : forall unicode property open g rho e pre post K pre' post' K' ps,
  gtree unicode property open g rho e pre post K pre' post' K' ps ->
  forall h q a b qs, Spec_Grammar_Tree.within (mkPair (h, q) a b qs) ps ->
  pr_silent q = false /\ In q (g_rules h) /\ exists rho1 pre1 post1 K1 pre2 post2 K2,
    pre ++ post = pre1 ++ post1 /\ pre ++ post = pre2 ++ post2 /\ a = blen pre1 /\ b = blen pre2 /\
    gtree unicode property open h rho1 (n_expr (pr_node q)) pre1 post1 K1 pre2 post2 K2 qs.
Proof.
  intros unicode property open g rho e pre post K pre' post' K' ps T h q a b qs W.
  exact (proj1 (proj1 (gtree_each unicode property open) _ _ _ _ _ _ _ _ _ _ T _ eq_refl) h q a b qs W).
Qed.
Print Assumptions C85_each.

(** A text is parsed as a whole, by what [generate_typed] emits for a grammar without silent rules that have parameters. *)
Theorem C85_typed : forall config fuel unicode g items,
  generate_typed config fuel unicode g = Ret items -> (forall q, ~ some_macro g q) ->
  fine unicode g -> fine_types_mod (types_mod (rules_mod config)) g -> distinct_properties unicode ->
  forall id env, reads_rules items unicode id env ->
  forall property m h r, located (types_mod (rules_mod config)) g m h -> In r (g_rules h) -> ~ is_trivia_rule r -> pr_args r = [] ->
  forall addr s k v, text_try_parse addr s env property k (Rule (id m (pr_name r)) []) = Ret (inl v) ->
  exists Ks' ps, gtree unicode property none_open h [] (n_expr (pr_node r)) [] s [] s [] Ks' ps /\
    (pr_silent r = true -> for_self_or_for_each_child_pair env v = [] /\ for_each_child_pair env v = []) /\
    (pr_silent r = false ->
       matched_all (numbered_as (located (types_mod (rules_mod config)) g) id) (for_self_or_for_each_child_pair env v) [mkPair (h, r) 0 (blen s) ps] /\
       matched_all (numbered_as (located (types_mod (rules_mod config)) g) id) (for_each_child_pair env v) ps).
Proof.
  intros config fuel unicode g items G Nm Fi Ty D id env Rr property m h r Lo Ir Nt Na addr s k v H.
  unfold generate_typed in G. destruct (inline_macros fuel g) as [g'| |] eqn:E; try discriminate. cbn [obind] in G.
  apply (proj2 (C40_none g Nm)) in E. subst g'. apply full_ok in H.
  unfold text_try_parse_partial, to_result, init_state, stack_new in H. change from_start with (blen []) in H.
  destruct (try_parse addr s env property k (Rule (id m (pr_name r)) []) (blen []) (mkState (mkStack [] []) (tracker_new (blen [])))) as [([(p, w)|], st)| |] eqn:R;
    try discriminate H. injection H as -> ->.
  destruct (C85_pairs _ _ _ _ _ G Fi Ty D id env Rr property m h r Lo Ir Nt Na addr s [] s [] [] eq_refl (Forall2_nil _) _ _ _ _ _ _ R) as (x & post' & Ks' & ps & E1 & Eb & T & P).
  cbn [app] in Eb, T. assert (post' = []) as -> by (apply blen_zero; rewrite E1, blen_app in Eb; lia). rewrite app_nil_r in E1. subst x. exists Ks', ps. split; [exact T|exact P].
Qed.
Print Assumptions C85_typed.

(** With the silent rules that have parameters, the tree is the one of the grammar as it is written, except that these rules of the main
    grammar hide nothing: their calls show what is inside. *)
Theorem C85_inlined : forall config fuel unicode g items,
  generate_typed config fuel unicode g = Ret items ->
  complete unicode g -> tidy unicode g -> plain_trivia g ->
  fine unicode g -> fine_types_mod (types_mod (rules_mod config)) g -> distinct_properties unicode ->
  forall id env, reads_rules items unicode id env ->
  forall property m h r, located (types_mod (rules_mod config)) g m h -> In r (g_rules h) -> ~ is_trivia_rule r -> pr_args r = [] ->
  forall addr s pre post K Ks, s = pre ++ post -> Forall2 span_text K Ks ->
  forall k sv t p v st', try_parse addr s env property k (Rule (id m (pr_name r)) []) (blen pre) (mkState (mkStack K sv) t) = Ret (Some (p, v), st') ->
  exists x post' Ks' ps, post = x ++ post' /\ p = blen (pre ++ x) /\
    gtree unicode property (open_own g) h [] (n_expr (pr_node r)) pre post Ks (pre ++ x) post' Ks' ps /\
    (pr_silent r = true -> for_self_or_for_each_child_pair env v = [] /\ for_each_child_pair env v = []) /\
    (pr_silent r = false ->
       matched_all (numbered_as (located (types_mod (rules_mod config)) g) id) (for_self_or_for_each_child_pair env v) [mkPair (h, r) (blen pre) p ps] /\
       matched_all (numbered_as (located (types_mod (rules_mod config)) g) id) (for_each_child_pair env v) ps).
Proof.
  intros config fuel unicode g items G C T Pt F Ty D id env R property m h r Lo J Nt A addr s pre post K Ks Es Fk k sv t p v st' Run.
  unfold generate_typed in G. destruct (inline_macros fuel g) as [g'| |] eqn:E; try discriminate. cbn [obind] in G.
  assert (F' := inlined_fine _ _ _ _ E F T Pt).
  assert (C' : complete unicode g') by (apply (C63_accepts config unicode g' F' D); eauto).
  destruct (C40_removed _ _ _ E) as (Go & Ig & _). set (tm := types_mod (rules_mod config)) in *.
  assert (Ty' : fine_types_mod tm g') by (unfold fine_types_mod in *; rewrite Ig; exact Ty).
  assert (Cl : forall mp g0 q, located tm g' mp g0 -> In q (g_rules g0) -> ~ open_own g g0 q).
  { intros mp g0 q L _ (E0 & M). destruct (weight_located_strict tm g g' mp g0 Ig L) as [Q|Q]; [|subst g0; lia]. rewrite E0 in Q. subst g'. exact (Go _ M). }
  assert (Wg : weight g' = weight g) by (destruct g as [d0 r0 c0 i0], g' as [d1 r1 c1 i1]; cbn [g_imports] in Ig; subst i1; reflexivity).
  assert (There : forall mp h0, located tm g' mp h0 -> (mp = [tm] /\ h0 = g') \/ (located tm g mp h0 /\ weight h0 < weight g)).
  { intros mp h0 L. induction L as [|mp h0 alias h1 L IH I]; [left; split; reflexivity|]. right. assert (W := weight_import _ _ _ I). destruct IH as [(-> & ->)|(L' & W')].
    - split; [|lia]. apply (Loc_file _ g [tm] g alias h1); [constructor|rewrite <- Ig; exact I].
    - split; [eapply Loc_file; eassumption|lia]. }
  assert (Num : forall x y z, numbered_as (located tm g') id x y -> became g g' (kept g g' fuel) z y -> light g (fst z) -> numbered_as (located tm g) id x z).
  { intros x (h1, q1) (h0, q0) (mp & L & Iq & ->) B W. cbn [fst snd] in *. destruct B as [B|(B1 & B2 & Kp)]; cbn [fst snd] in *.
    - injection B as -> ->. exists mp. cbn [fst snd]. split; [|split; [exact Iq|reflexivity]].
      destruct (There _ _ L) as [(-> & ->)|(L' & _)]; [|exact L']. destruct W as [W|W]; [rewrite W; constructor|lia].
    - subst h0 h1. exists mp. cbn [fst snd]. destruct (There _ _ L) as [(-> & _)|(_ & W')]; [|lia].
      destruct Kp as (J0 & _ & _ & N0 & _). split; [constructor|]. split; [exact J0|]. rewrite N0. reflexivity. }
  assert (Self : forall h0, located tm g m h0 -> m = [tm] /\ h0 = g \/ located tm g' m h0).
  { clear - Ig. intros h0 Lo. induction Lo as [|m h alias h' Lo IH I]; [left; split; reflexivity|]. right. destruct IH as [(-> & ->)|L].
    - apply (Loc_file _ g' [tm] g' alias h'); [constructor|rewrite Ig; exact I].
    - eapply Loc_file; eassumption. }
  destruct (Self h Lo) as [(-> & ->)|Lo'].
  - assert (M : is_macro r = false) by (unfold is_macro; rewrite A; apply andb_false_r).
    destruct (kept_there g g' fuel E r J M) as (r' & Kp). assert (Kp' := Kp). destruct Kp' as (_ & _ & J' & N & A' & _ & S').
    assert (Nt' : ~ is_trivia_rule r') by (unfold is_trivia_rule in *; rewrite <- N; exact Nt). rewrite N in Run. rewrite A in A'. symmetry in A'.
    destruct (rule_pairs _ _ _ _ _ G F' Ty' D id env R _ Cl property _ g' r' (Loc_top _ _) J' Nt' A' addr s pre post K Ks Es Fk _ _ _ _ _ _ Run) as (x & post' & Ks' & ps' & E1 & E2 & Tr & P1 & P2).
    destruct (inlined_tree unicode property fuel g g' C T E C' Go r r' Kp A _ _ _ _ _ _ _ Tr) as (ps & Tr' & Ma).
    exists x, post', Ks', ps. split; [exact E1|]. split; [exact E2|]. split; [exact Tr'|]. split; [rewrite S'; exact P1|]. rewrite S'. intro Si. destruct (P2 Si) as (Q1 & Q2).
    assert (Lt : light_all g ps) by (eapply (proj1 (light_tree unicode property (open_own g) g)); [exact Tr'|left; reflexivity|intros y c Q; inversion Q]).
    split; [|eapply matched_through; [exact Num|exact Q2|exact Ma|exact Lt]].
    inversion Q1 as [|? ? ? ? Q3 Q4]; subst. inversion Q4; subst. inversion Q3; subst. constructor; [|constructor]. constructor.
    + exists [tm]. split; [constructor|]. split; [exact J|].
      match goal with X : numbered_as _ _ _ (g', r') |- _ => destruct X as (mp & L & _ & ->) end. cbn [fst snd] in *. rewrite N.
      destruct (There _ _ L) as [(-> & _)|(_ & W')]; [reflexivity|lia].
    + eapply matched_through; [exact Num|eassumption|exact Ma|exact Lt].
  - destruct (rule_pairs _ _ _ _ _ G F' Ty' D id env R _ Cl property _ h r Lo' J Nt A addr s pre post K Ks Es Fk _ _ _ _ _ _ Run) as (x & post' & Ks' & ps & E1 & E2 & Tr & P1 & P2).
    exists x, post', Ks', ps. split; [exact E1|]. split; [exact E2|]. split; [exact Tr|]. split; [exact P1|]. intro Si. destruct (P2 Si) as (Q1 & Q2).
    destruct (There _ _ Lo') as [(-> & ->)|(_ & Wh)].
    { destruct (weight_located tm g _ _ Lo) as [Q|Q]; [|lia]. rewrite Q in Q1, Q2. rewrite Q. split; assumption. }
    assert (Lt : light_all g ps) by (eapply (proj1 (light_tree unicode property (open_own g) g)); [exact Tr|right; exact Wh|intros y c Q; inversion Q]).
    assert (Lt1 : light_all g [mkPair (h, r) (blen pre) p ps]).
    { intros l a b qs W. inversion W; subst; [right; exact Wh|eapply Lt; eassumption|]. match goal with X : Spec_Grammar_Tree.within _ [] |- _ => inversion X end. }
    assert (Re : forall ks, matched_all (became g g' (kept g g' fuel)) ks ks) by (intro ks; apply matched_refl; intro z; left; reflexivity).
    split; (eapply matched_through; [exact Num|eassumption|apply Re|assumption]).
Qed.
Print Assumptions C85_inlined.

(** And that tree is what the parser returns, given enough steps. *)
Theorem C85_inlined_tree : forall config fuel unicode g items,
  generate_typed config fuel unicode g = Ret items ->
  complete unicode g -> tidy unicode g -> plain_trivia g ->
  fine unicode g -> fine_types_mod (types_mod (rules_mod config)) g -> distinct_properties unicode ->
  forall id env, reads_rules items unicode id env ->
  forall property m h r, located (types_mod (rules_mod config)) g m h -> In r (g_rules h) -> ~ is_trivia_rule r -> pr_args r = [] -> pr_silent r = false ->
  forall addr s pre post K Ks, s = pre ++ post -> Forall2 span_text K Ks ->
  forall x post' Ks' ps, gtree unicode property (open_own g) h [] (n_expr (pr_node r)) pre post Ks (pre ++ x) post' Ks' ps ->
  exists v K', Forall2 span_text K' Ks' /\ yields addr s env property (Rule (id m (pr_name r)) []) (blen pre) K (Some (blen (pre ++ x), v, K')) /\
    matched_all (numbered_as (located (types_mod (rules_mod config)) g) id) (for_self_or_for_each_child_pair env v) [mkPair (h, r) (blen pre) (blen (pre ++ x)) ps] /\
    matched_all (numbered_as (located (types_mod (rules_mod config)) g) id) (for_each_child_pair env v) ps.
Proof.
  intros config fuel unicode g items H C Td Pt Fi Ty D id env Rr property m h r Lo Ir Nt Na Ns addr s pre post K Ks Es Fk x post' Ks' ps T.
  destruct (located_complete unicode _ g m h Lo C Fi) as (Ch & _).
  destruct (C40_parser config fuel unicode g items H C Td Pt Fi Ty D id env Rr property m h r Lo Ir Nt Na addr s pre post K Ks Es Fk) as (_ & _ & A & _).
  destruct (A x post' Ks' (proj1 (gtree_gpeg unicode property (open_own g)) _ _ _ _ _ _ _ _ _ _ T)) as (v & K' & Fk' & Y). exists v, K'. split; [exact Fk'|]. split; [exact Y|].
  destruct (Y [] (tracker_new 0)) as (k0 & Yk). destruct (Yk k0 (le_n _)) as (V & _).
  destruct (try_parse addr s env property k0 (Rule (id m (pr_name r)) []) (blen pre) (mkState (mkStack K []) (tracker_new 0))) as [([(p, w)|], st)| |] eqn:R;
    cbn [visible] in V; try discriminate V. injection V as -> -> _.
  destruct (C85_inlined _ _ _ _ _ H C Td Pt Fi Ty D id env Rr property m h r Lo Ir Nt Na addr s pre post K Ks Es Fk _ _ _ _ _ _ R) as (y & post2 & Ks2 & qs & E1 & E2 & T2 & _ & P).
  destruct (C85_unique unicode property (open_own g) h _ D Ch _ _ _ _ _ _ _ _ _ _ _ T T2) as (E & -> & -> & ->). apply app_inv_head in E. subst y. exact (P Ns).
Qed.
Print Assumptions C85_inlined_tree.

(** On ["a + (b)(7)"] the rule [all] of the sample grammar gives [all(0, 10, [sum(0, 7, [item(0, 1), item(4, 7, [paren(4, 7, [sum(5, 6,
    [item(5, 6)])])])]), paren(7, 10)])]. *)
Definition sample_sub (name : string) : rule := sample_id [lit "rules"; lit "s"; lit "rules"] (lit name).
Definition sample_tree : list (pair rule) :=
  [mkPair (sample_sub "sum") 0 7
     [mkPair (sample_sub "item") 0 1 [];
      mkPair (sample_sub "item") 4 7 [mkPair (sample_sub "paren") 4 7 [mkPair (sample_sub "sum") 5 6 [mkPair (sample_sub "item") 5 6 []]]]];
   mkPair (sample_sub "paren") 7 10 []].
Example C85_ex :
  generate_items box_all 9 sample_unicode sample_main = Ret sample_items /\ fine sample_unicode sample_main /\
  fine_types_mod (lit "rules") sample_main /\ distinct_properties sample_unicode /\ reads_rules sample_items sample_unicode sample_id sample_env /\
  complete sample_unicode sample_main /\
  generate_typed box_all 9 sample_unicode sample_main = Ret sample_items /\ (forall q, ~ some_macro sample_main q) /\
  exists r v ps, In r (g_rules sample_main) /\ ~ is_trivia_rule r /\ pr_args r = [] /\ pr_silent r = false /\
    text_try_parse 0 (lit "a + (b)(7)") sample_env sample_digit 60 (Rule (sample_id [lit "rules"] (pr_name r)) []) = Ret (inl v) /\
    for_each_child_pair sample_env v = sample_tree /\
    gtree sample_unicode sample_digit none_open sample_main [] (n_expr (pr_node r)) [] (lit "a + (b)(7)") [] (lit "a + (b)(7)") [] [] ps /\
    matched_all (numbered_as (located (lit "rules") sample_main) sample_id) sample_tree ps.
Proof.
  assert (G : generate_items box_all 9 sample_unicode sample_main = Ret sample_items) by (vm_compute; reflexivity).
  assert (R : reads_rules sample_items sample_unicode sample_id sample_env) by (apply check_reads_spec; vm_compute; reflexivity).
  destruct C40_none_ex as (Nm & In).
  assert (Gt : generate_typed box_all 9 sample_unicode sample_main = Ret sample_items) by (unfold generate_typed; rewrite In; exact G).
  assert (Ty : fine_types_mod (types_mod (rules_mod box_all)) sample_main) by (left; reflexivity).
  assert (C : complete sample_unicode sample_main) by (apply (C63_accepts box_all sample_unicode sample_main sample_main_fine sample_distinct); eauto).
  split; [exact G|]. split; [exact sample_main_fine|]. split; [exact Ty|]. split; [exact sample_distinct|]. split; [exact R|]. split; [exact C|]. split; [exact Gt|]. split; [exact Nm|].
  set (r := nth 0 main_rules (rl "" [] (str ""))).
  assert (Ir : List.In r (g_rules sample_main)) by (left; reflexivity).
  assert (Nt : ~ is_trivia_rule r) by (intros [E|E]; discriminate).
  destruct (text_try_parse 0 (lit "a + (b)(7)") sample_env sample_digit 60 (Rule (sample_id [lit "rules"] (pr_name r)) [])) as [[v|]| |] eqn:E;
    try (vm_compute in E; discriminate E).
  assert (Pv : for_each_child_pair sample_env v = sample_tree) by (vm_compute in E; injection E as <-; vm_compute; reflexivity).
  destruct (C85_typed _ _ _ _ _ Gt Nm sample_main_fine Ty sample_distinct _ _ R sample_digit _ _ r (Loc_top _ _) Ir Nt eq_refl _ _ _ _ E) as (Ks' & ps & T & _ & P).
  destruct (P eq_refl) as (_ & P2). rewrite Pv in P2.
  destruct C36_ex as (_ & _ & _ & _ & _ & _ & Q & _). fold r in Q.
  assert (Q' := proj1 (gtree_gpeg sample_unicode sample_digit none_open) _ _ _ _ _ _ _ _ _ _ T).
  assert (K := proj1 (gpeg_unique sample_unicode sample_digit sample_distinct) _ _ _ _ _ _ _ Q C (GE_nil _) _ Q'). injection K as <-.
  exists r, v, ps. split; [exact Ir|]. split; [exact Nt|]. split; [reflexivity|]. split; [reflexivity|]. split; [exact E|]. split; [exact Pv|]. split; [exact T|exact P2].
Qed.

(** On ["(1) , (<2>)"] the rule [main] of the grammar with silent rules gives [main(0, 11, [digit(1, 2), keep(7, 10, [digit(8, 9)])])]. *)
Definition inline_items : list (text * ritem) := match generate_typed box_all 20 sample_unicode inline_sample with Ret items => items | _ => [] end.
Definition inline_id : list text -> text -> rule := numbered inline_items.
Definition inline_env : rule -> rule_def := read_env inline_items sample_unicode inline_id 20.
Definition inline_tree : list (pair rule) :=
  [mkPair (inline_id [lit "rules"] (lit "digit")) 1 2 [];
   mkPair (inline_id [lit "rules"] (lit "keep")) 7 10 [mkPair (inline_id [lit "rules"] (lit "digit")) 8 9 []]].
Example C85_inlined_ex :
  generate_typed box_all 20 sample_unicode inline_sample = Ret inline_items /\ complete sample_unicode inline_sample /\ tidy sample_unicode inline_sample /\
  plain_trivia inline_sample /\ fine sample_unicode inline_sample /\ fine_types_mod (lit "rules") inline_sample /\ distinct_properties sample_unicode /\
  reads_rules inline_items sample_unicode inline_id inline_env /\
  exists r p v st ps, In r (g_rules inline_sample) /\ ~ is_trivia_rule r /\ pr_args r = [] /\ pr_silent r = false /\
    try_parse 0 (lit "(1) , (<2>)") inline_env (fun _ _ => false) 80 (Rule (inline_id [lit "rules"] (pr_name r)) []) 0 (mkState (mkStack [] []) (tracker_new 0)) = Ret (Some (p, v), st) /\
    for_each_child_pair inline_env v = inline_tree /\
    gtree sample_unicode (fun _ _ => false) (open_own inline_sample) inline_sample [] (n_expr (pr_node r)) [] (lit "(1) , (<2>)") [] (lit "(1) , (<2>)") [] [] ps /\
    matched_all (numbered_as (located (lit "rules") inline_sample) inline_id) inline_tree ps.
Proof.
  destruct C40_ex as (F & Ty & C & Td & Pt & _ & _ & _ & _ & _).
  assert (G : generate_typed box_all 20 sample_unicode inline_sample = Ret inline_items) by (vm_compute; reflexivity).
  assert (R : reads_rules inline_items sample_unicode inline_id inline_env) by (apply check_reads_spec; vm_compute; reflexivity).
  split; [exact G|]. split; [exact C|]. split; [exact Td|]. split; [exact Pt|]. split; [exact F|]. split; [exact Ty|]. split; [exact sample_distinct|]. split; [exact R|].
  set (r := nth 6 (g_rules inline_sample) (rl "" [] (str ""))).
  assert (Ir : In r (g_rules inline_sample)) by (do 6 right; left; reflexivity).
  assert (Nt : ~ is_trivia_rule r) by (intros [E|E]; discriminate).
  destruct (try_parse 0 (lit "(1) , (<2>)") inline_env (fun _ _ => false) 80 (Rule (inline_id [lit "rules"] (pr_name r)) []) 0 (mkState (mkStack [] []) (tracker_new 0)))
    as [([(p, v)|], st)| |] eqn:E; try (vm_compute in E; discriminate E).
  assert (Ev : p = 11 /\ for_each_child_pair inline_env v = inline_tree) by (vm_compute in E; injection E as <- <- <-; split; vm_compute; reflexivity).
  destruct Ev as (-> & Pv).
  destruct (C85_inlined _ _ _ _ _ G C Td Pt F Ty sample_distinct _ _ R (fun _ _ => false) _ _ r (Loc_top _ _) Ir Nt eq_refl 0%N (lit "(1) , (<2>)") [] (lit "(1) , (<2>)") [] [] eq_refl (Forall2_nil _)
    _ _ _ _ _ _ E) as (x & post' & Ks' & ps & E1 & E2 & T & _ & P).
  destruct (P eq_refl) as (_ & P2). rewrite Pv in P2. cbn [app] in E2, T.
  assert (Z : post' = []) by (apply blen_zero; assert (B := f_equal blen E1); rewrite blen_app, <- E2 in B; change (blen (lit "(1) , (<2>)")) with 11 in B; lia).
  subst post'. rewrite app_nil_r in E1. subst x.
  destruct (decide_spec 60 sample_unicode inline_sample 6 (lit "(1) , (<2>)") true F sample_distinct) as (_ & r1 & Er & Ok1); [vm_compute; reflexivity|].
  cbn in Er. injection Er as <-. change (rl "main" [] (call ["pair"%string] [call ["both"%string] [nm "digit"]; call ["wrap"%string] [call ["keep"%string] [nm "digit"]]])) with r in Ok1.
  assert (Q := proj1 (gtree_gpeg sample_unicode (fun _ _ => false) (open_own inline_sample)) _ _ _ _ _ _ _ _ _ _ T).
  assert (K := proj1 (gpeg_unique sample_unicode (fun _ _ => false) sample_distinct) _ _ _ _ _ _ _ Ok1 C (GE_nil _) _ Q). injection K as <-.
  exists r, 11, v, st, ps. split; [exact Ir|]. split; [exact Nt|]. split; [reflexivity|]. split; [reflexivity|]. split; [exact E|]. split; [exact Pv|]. split; [exact T|exact P2].
Qed.

(** Calls of silent rules with parameters are replaced by their bodies before anything is generated, so they hide nothing:
<<
    main = m(d)
    d    = "1"
    m(x) =_ x
>>
    On ["1"] the pair of [main] has the child [d], although the silent rule [m] is around it. *)
Definition shown_inside : gmodule := grammar [rl "main" [] (call ["m"%string] [nm "d"]); rl "d" [] (str "1"); srl "m" ["x"%string] (nm "x")].
Definition shown_items : list (text * ritem) := match generate_typed box_all 20 sample_unicode shown_inside with Ret items => items | _ => [] end.
Definition shown_id : list text -> text -> rule := numbered shown_items.
Definition shown_env : rule -> rule_def := read_env shown_items sample_unicode shown_id 20.
Theorem C85_silent_call_refuted : ~ forall config fuel unicode g items,
  generate_typed config fuel unicode g = Ret items ->
  complete unicode g -> tidy unicode g -> plain_trivia g ->
  fine unicode g -> fine_types_mod (types_mod (rules_mod config)) g -> distinct_properties unicode ->
  forall id env, reads_rules items unicode id env ->
  forall property r, In r (g_rules g) -> ~ is_trivia_rule r -> pr_args r = [] -> pr_silent r = false ->
  forall addr s k v, text_try_parse addr s env property k (Rule (id [types_mod (rules_mod config)] (pr_name r)) []) = Ret (inl v) ->
  forall Ks' ps, gtree unicode property none_open g [] (n_expr (pr_node r)) [] s [] s [] Ks' ps ->
  matched_all (numbered_as (located (types_mod (rules_mod config)) g) id) (for_each_child_pair env v) ps.
Proof.
  intro H. assert (F : fine sample_unicode shown_inside) by (apply fineb_spec; vm_compute; reflexivity).
  destruct (decide_spec 40 sample_unicode shown_inside 0 (lit "1") true F sample_distinct) as (C & r & Er & Ok1); [vm_compute; reflexivity|]. cbn in Er. injection Er as <-.
  destruct (text_try_parse 0 (lit "1") shown_env (fun _ _ => false) 60 (Rule (shown_id [lit "rules"] (lit "main")) [])) as [[v|]| |] eqn:E;
    try (vm_compute in E; discriminate E).
  assert (P : length (for_each_child_pair shown_env v) = 1) by (vm_compute in E; injection E as <-; vm_compute; reflexivity).
  assert (T : gtree sample_unicode (fun _ _ => false) none_open shown_inside [] (call ["m"%string] [nm "d"]) [] (lit "1") [] (lit "1") [] [] []).
  { assert (Own : forall q, In q (g_rules shown_inside) -> ~ is_trivia_rule q -> names sample_unicode shown_inside [pr_name q] (E_rule shown_inside q)).
    { intros q J N. apply N_own; [constructor; assumption|]. intros p Q. injection Q as Q _. exfalso. cbn in J. destruct J as [<-|[<-|[<-|[]]]]; discriminate Q. }
    apply (GT_silent _ _ _ shown_inside [] [lit "m"] _ [nd (nm "d")] shown_inside (srl "m" ["x"%string] (nm "x"))).
    - intros x c _ A. inversion A.
    - apply (Own (srl "m" ["x"%string] (nm "x"))); [right; right; left; reflexivity|intros [Q|Q]; discriminate Q].
    - left. reflexivity.
    - reflexivity.
    - reflexivity.
    - intros [].
    - cbn [srl pr_args map combine pr_node nd n_expr]. eapply G_param; [constructor|].
      apply (G_rule _ _ shown_inside [] [lit "d"] None [] shown_inside (rl "d" [] (str "1"))).
      + intros x c _ A. inversion A.
      + apply (Own (rl "d" [] (str "1"))); [right; left; reflexivity|intros [Q|Q]; discriminate Q].
      + right. split; reflexivity.
      + reflexivity.
      + apply G_str. exact (OT_ok (lit "1") [] (lit "1") [] [] eq_refl). }
  assert (M := H box_all 20 sample_unicode shown_inside shown_items). specialize (M ltac:(vm_compute; reflexivity) C ltac:(apply tidyb_spec; vm_compute; reflexivity)).
  assert (Pt : plain_trivia shown_inside).
  { intros r0 path l q J Tr _ _ _. cbn in J. destruct J as [<-|[<-|[<-|[]]]]; destruct Tr as [Q|Q]; discriminate Q. }
  specialize (M Pt F (or_introl eq_refl) sample_distinct shown_id shown_env ltac:(apply check_reads_spec; vm_compute; reflexivity) (fun _ _ => false)
    (rl "main" [] (call ["m"%string] [nm "d"])) (or_introl eq_refl) ltac:(intros [Q|Q]; discriminate Q) eq_refl eq_refl 0%N (lit "1") 60 v E _ _ T).
  inversion M as [X|]; rewrite <- X in P; discriminate P.
Qed.
Print Assumptions C85_silent_call_refuted.
