(** C36: the generated parsers do what the grammar says (generator/src/typed/generator.rs, module.rs,
    output.rs). *)
From Coq Require Import String List NArith ZArith Arith Bool Lia.
From Verif Require Import Model_Text Model_Message Model_Meta Model_Import Model_Position Model_Span Model_Stack Model_Tracker Model_Node
  Model_Generator Model_Output
  Spec_Text Spec_Peg Spec_Run Spec_Yield Spec_Rust Spec_Grammar_Peg Spec_Occur Spec_Generator
  Proof_Text Proof_Peg Proof_Yield Proof_Node Proof_Entry Proof_Emit Proof_Box Proof_Process Proof_Names Proof_Place Proof_Resolve Proof_Accept
  Proof_Compile Proof_Leaf Proof_Read Proof_Exists Example_Generator Example_Fine.
Import ListNotations.
Open Scope list_scope.

Lemma peg_rule : forall env property r ns pre post K res,
  peg env property (Rule r ns) pre post K res <-> peg env property (rd_body (env r) ns) pre post K res.
Proof.
  intros env property r ns pre post K res. split; intro H; [|apply P_rule, H].
  inversion H; subst; [|assumption]. match goal with X : terminal _ _ _ _ _ _ |- _ => inversion X end.
Qed.

(** The emitted program can be read as Rust: every struct stands for a node, however the structs are
    numbered. *)
Theorem C36_readable : forall config fuel unicode g items,
  generate_items config fuel unicode g = Ret items ->
  fine unicode g -> fine_types_mod (types_mod (rules_mod config)) g -> distinct_properties unicode ->
  exists id env, reads_rules items unicode id env.
Proof.
  intros config fuel unicode g items H F Ty D. exists code. eapply readable; try eassumption. exact code_inj.
Qed.
Print Assumptions C36_readable.

(** The parser of a rule of the grammar, or of a grammar that it imports, applied to the parsers of some
    expressions, does what the body of the rule says if its parameters are these expressions. *)
Theorem C36_rule : forall config fuel unicode g items,
  generate_items config fuel unicode g = Ret items ->
  fine unicode g -> fine_types_mod (types_mod (rules_mod config)) g -> distinct_properties unicode ->
  forall id env, reads_rules items unicode id env ->
  forall property m g' r, located (types_mod (rules_mod config)) g m g' -> In r (g_rules g') -> ~ is_trivia_rule r ->
  forall cs ns, length cs = length (pr_args r) ->
  Forall2 (fun c n => let 'Clo g0 rho e := c in
    forall pre post K res, peg env property n pre post K res <-> gpeg unicode property g0 rho e pre post K res) cs ns ->
  forall pre post K res,
    peg env property (Rule (id m (pr_name r)) ns) pre post K res <->
    gpeg unicode property g' (combine (pr_args r) cs) (n_expr (pr_node r)) pre post K res.
Proof.
  intros config fuel unicode g items H Fi Ty D id env Rr property m g' r Lo Ir Nt cs ns L Ar pre post K res.
  unfold generate_items, generate_output in H. destruct (existsb _ (raw_names g)); [discriminate H|].
  destruct (process_rules config fuel (make_global unicode) [lit "super"] 0 g gt_new) as [((o, coll), tr)| |] eqn:P; try discriminate. cbn [obind] in H. injection H as <-.
  destruct (process_rules_spec config fuel unicode (builtin_resolves_all unicode D) g 0 gt_new o coll tr P Fi good_new) as (Tg & _ & M).
  specialize (M tr (extends_refl tr)). change (fst (collect_output (rules_mod config) o) ++ collect_tracker tr) with (all_items config tr o) in Rr.
  assert (B := bodies_read config fuel unicode tr g o property env id
    (fun g0 rho e n => forall pre post K res, gpeg unicode property g0 rho e pre post K res <-> peg env property n pre post K res)
    Ty D Tg (fun _ _ _ _ _ _ _ _ Q => Q) coll M Fi Rr).
  rewrite peg_rule. eapply compiles_same; [|exact B|]; [intros; auto|]. apply (B m g' r cs ns Lo Ir Nt L).
  clear - Ar. induction Ar as [|(g0, rho, e) n cs ns Q Ar IH]; constructor; [|exact IH]. apply K_leaf.
  intros pre post K res. symmetry. apply Q.
Qed.
Print Assumptions C36_rule.

(** Whatever the generated parser of a rule without parameters returns is what the grammar prescribes,
    and whatever the grammar prescribes is what the parser returns given enough steps. *)
Theorem C36_parser : forall config fuel unicode g items,
  generate_items config fuel unicode g = Ret items ->
  fine unicode g -> fine_types_mod (types_mod (rules_mod config)) g -> distinct_properties unicode ->
  forall id env, reads_rules items unicode id env ->
  forall property m g' r, located (types_mod (rules_mod config)) g m g' -> In r (g_rules g') -> ~ is_trivia_rule r -> pr_args r = [] ->
  forall addr s pre post K Ks, s = pre ++ post -> Forall2 span_text K Ks ->
  let parser := Rule (id m (pr_name r)) [] in
  let says := gpeg unicode property g' [] (n_expr (pr_node r)) pre post Ks in
  (forall k sv t p v st', try_parse addr s env property k parser (blen pre) (mkState (mkStack K sv) t) = Ret (Some (p, v), st') ->
     exists x post' Ks', post = x ++ post' /\ p = blen (pre ++ x) /\ Forall2 span_text (stk_items (st_stack st')) Ks' /\
       says (Ok (pre ++ x) post' Ks')) /\
  (forall k sv t st', try_parse addr s env property k parser (blen pre) (mkState (mkStack K sv) t) = Ret (None, st') -> says Fail) /\
  (forall x post' Ks', says (Ok (pre ++ x) post' Ks') ->
     exists v K', Forall2 span_text K' Ks' /\ yields addr s env property parser (blen pre) K (Some (blen (pre ++ x), v, K'))) /\
  (says Fail -> yields addr s env property parser (blen pre) K None).
Proof.
  intros config fuel unicode g items H Fi Ty D id env Rr property m g' r Lo Ir Nt Na addr s pre post K Ks Es Fk parser says.
  assert (Eq : forall res, peg env property parser pre post Ks res <-> says res).
  { intro res. assert (Q := C36_rule config fuel unicode g items H Fi Ty D id env Rr property m g' r Lo Ir Nt [] []).
    rewrite Na in Q. apply Q; [reflexivity|constructor]. }
  split; [|split; [|split]].
  - intros k sv t p v st' R. destruct (peg_sound addr s env property k parser pre post K Ks sv t Es Fk) as (A & _).
    destruct (A _ _ _ R) as (x & post' & Ks' & E1 & E2 & F & P). exists x, post', Ks'. repeat (split; [assumption|]). apply Eq, P.
  - intros k sv t st' R. apply Eq. destruct (peg_sound addr s env property k parser pre post K Ks sv t Es Fk) as (_ & A). eapply A, R.
  - intros x post' Ks' S. apply (proj1 (peg_yields addr s env property parser pre post K Ks Es Fk) x post' Ks'). apply Eq, S.
  - intro S. apply (proj2 (peg_yields addr s env property parser pre post K Ks Es Fk)). apply Eq, S.
Qed.
Print Assumptions C36_parser.

(** The sample grammar, read with the structs numbered in the order in which they are emitted. *)
Definition sample_items : list (text * ritem) :=
  match generate_items box_all 9 sample_unicode sample_main with Ret items => items | _ => [] end.
Definition sample_id : list text -> text -> rule := numbered sample_items.
Definition sample_env : rule -> rule_def := read_env sample_items sample_unicode sample_id 20.
Definition sample_digit (p : N) (c : char) : bool := (N.eqb p 0 && (48 <=? c) && (c <=? 57))%N.
(** On ["a + (b)(7)"] the rule [all] matches everything, on ["a + (b)7"] it fails. *)
Example C36_ex :
  fine sample_unicode sample_main /\ fine_types_mod (lit "rules") sample_main /\ distinct_properties sample_unicode /\
  generate_items box_all 9 sample_unicode sample_main = Ret sample_items /\
  reads_rules sample_items sample_unicode sample_id sample_env /\
  located (lit "rules") sample_main [lit "rules"; lit "s"; lit "rules"] sample /\
  gpeg sample_unicode sample_digit sample_main [] (n_expr (pr_node (nth 0 main_rules (rl "" [] (str ""))))) [] (lit "a + (b)(7)") []
    (Ok (lit "a + (b)(7)") [] []) /\
  gpeg sample_unicode sample_digit sample_main [] (n_expr (pr_node (nth 0 main_rules (rl "" [] (str ""))))) [] (lit "a + (b)7") [] Fail.
Proof.
  assert (G : generate_items box_all 9 sample_unicode sample_main = Ret sample_items) by (vm_compute; reflexivity).
  assert (R : reads_rules sample_items sample_unicode sample_id sample_env).
  { apply check_reads_spec. vm_compute. reflexivity. }
  assert (Ty : fine_types_mod (types_mod (rules_mod box_all)) sample_main) by (left; reflexivity).
  assert (Lo : located (types_mod (rules_mod box_all)) sample_main [lit "rules"] sample_main) by constructor.
  set (r := nth 0 main_rules (rl "" [] (str ""))) in *.
  assert (Ir : In r (g_rules sample_main)) by (left; reflexivity).
  assert (Nt : ~ is_trivia_rule r) by (intros [E|E]; discriminate).
  assert (P := fun s => C36_parser _ _ _ _ _ G sample_main_fine Ty sample_distinct _ _ R sample_digit _ _ r Lo Ir Nt eq_refl 0 s [] s [] [] eq_refl (Forall2_nil _)).
  split; [exact sample_main_fine|]. split; [exact Ty|]. split; [exact sample_distinct|]. split; [exact G|]. split; [exact R|].
  split; [eapply (Loc_file _ _ [lit "rules"]); [exact Lo|left; reflexivity]|].
  split.
  - destruct (P (lit "a + (b)(7)")) as (S & _ & _ & _). cbv zeta in S.
    destruct (try_parse 0 (lit "a + (b)(7)") sample_env sample_digit 60 (Rule (sample_id [lit "rules"] (pr_name r)) []) (blen []) (mkState (mkStack [] []) (tracker_new 0))) as [([(p, v)|], st')| |] eqn:E;
      try (vm_compute in E; discriminate E).
    destruct (S _ _ _ _ _ _ E) as (x & post' & Ks' & Ex & L & F & Q).
    assert (Lp : p = blen (lit "a + (b)(7)") /\ stk_items (st_stack st') = []) by (vm_compute in E; injection E as <- _ <-; split; reflexivity).
    destruct Lp as (-> & Sk). rewrite Sk in F. inversion F; subst. rewrite Ex, blen_app in L. cbn [app] in L, Q.
    assert (post' = []) as -> by (apply blen_zero; lia). rewrite app_nil_r in Ex. rewrite Ex at 2. exact Q.
  - destruct (P (lit "a + (b)7")) as (_ & S & _ & _). cbv zeta in S. destruct (try_parse 0 (lit "a + (b)7") sample_env sample_digit 60 (Rule (sample_id [lit "rules"] (pr_name r)) []) (blen []) (mkState (mkStack [] []) (tracker_new 0))) as [([(p, v)|], st')| |] eqn:E;
      try (vm_compute in E; discriminate E).
    eapply S. exact E.
Qed.
