(** C87: what the parsers of a package return, in terms of the grammar as it is written (derive/src/lib.rs L51-67, generator/src/typed/generator.rs L946-983,
    core/src/typed/traits.rs L24-53, L136-254). *)
From Coq Require Import String List NArith Arith Bool Lia.
From Verif Require Import Proof_Text Proof_Read Proof_Exists Proof_Det Proof_Run Proof_Entry Proof_Grammar_Terminate Proof_Grammar_Tree_Det Proof_Grammar_Trace_Det Proof_Inlining Model_Text Model_Message Model_Meta Model_Grammar Model_Import Model_Position Model_Span Model_Stack Model_Tracker Model_Node
  Model_Pest2 Model_Generator Model_Output Model_Inline Model_Derive Model_Pairs
  Spec_Text Spec_Peg Spec_Run Spec_Yield Spec_Tracker Spec_Rust Spec_Grammar_Peg Spec_Occur Spec_Generator Spec_Inline Spec_Unescape Spec_Import Spec_Written Spec_Derive Spec_Whole
  Spec_Grammar_Tree Spec_Grammar_Trace
  Proof_Derive Proof_Alike Example_Generator Example_Fine Example_Inline Thm_Generated Thm_Import Thm_Pest2 Thm_Derive Thm_Written Thm_Inline Thm_Whole Thm_Grammar_Terminate Thm_Grammar_Tree Thm_Grammar_Trace.
Import ListNotations.
Open Scope list_scope.

(** The rule [r] of the file at [l] of the package with the grammar [g], whose items are [items]. *)
Section Parsers.
Variables (unicode : list text) (g : gmodule) (tm : text).
Variables (property : N -> char -> bool) (id : list text -> text -> rule) (env : rule -> rule_def) (l : list text) (h : gmodule) (r : parse_rule).
Variables (addr : N) (s : text).
Notation parse k := (text_try_parse addr s env property k (Rule (id l (pr_name r)) [])).
Notation stands_for := (numbered_as (located tm g) id).

(** What [try_parse] returns, read off the grammar: a tree is that of the grammar for all of the text; a report tells what the grammar tried; nothing panics. *)
Record parses_as_written : Prop := mkWritten {
  written_tree : forall k v, parse k = Ret (inl v) -> exists Ks ps,
    gtree unicode property (open_own g) h [] (n_expr (pr_node r)) [] s [] s [] Ks ps /\
    matched_all stands_for (for_self_or_for_each_child_pair env v) (if pr_silent r then [] else [mkPair (h, r) 0 (blen s) ps]);
  written_report : forall k t, parse k = Ret (inr t) ->
    (exists gtr, gtry_rule unicode property (open_own g) h r [] s [] Fail gtr /\ tells stands_for gtr (finish t)) \/
    exists x rest Ks gtr, s = x ++ rest /\ rest <> [] /\ gtry_rule unicode property (open_own g) h r [] s [] (Ok x rest Ks) gtr /\
      tells_rest stands_for gtr (blen x) (finish t);
  written_no_panic : forall k, parse k <> Panic;
  written_accepted : forall Ks, gpeg unicode property h [] (n_expr (pr_node r)) [] s [] (Ok s [] Ks) ->
    exists k0, forall k, k0 <= k -> exists v, parse k = Ret (inl v);
  written_rejected : forall res, gpeg unicode property h [] (n_expr (pr_node r)) [] s [] res -> (forall Ks, res <> Ok s [] Ks) ->
    exists k0, forall k, k0 <= k -> exists t, parse k = Ret (inr t) }.
End Parsers.

Lemma typed_written : forall config fuel unicode g items,
  generate_typed config fuel unicode g = Ret items ->
  complete unicode g -> Spec_Inline.tidy unicode g -> plain_trivia g ->
  fine unicode g -> fine_types_mod (types_mod (rules_mod config)) g -> distinct_properties unicode ->
  forall id env, reads_rules items unicode id env ->
  forall property m h r, located (types_mod (rules_mod config)) g m h -> In r (g_rules h) -> ~ is_trivia_rule r -> pr_args r = [] ->
  forall addr s, parses_as_written unicode g (types_mod (rules_mod config)) property id env m h r addr s.
Proof.
  intros config fuel unicode g items H C Td Pt Fi Ty D id env Rr property m h r Lo Ir Nt Na addr s.
  destruct (located_complete unicode _ g m h Lo C Fi) as (Ch & _).
  destruct (C40_parser config fuel unicode g items H C Td Pt Fi Ty D id env Rr property m h r Lo Ir Nt Na addr s [] s [] [] eq_refl (Forall2_nil _)) as (_ & _ & A & B).
  set (n := Rule (id m (pr_name r)) []) in *.
  assert (Run : forall o, yields addr s env property n 0 [] o -> exists k0, forall k, k0 <= k ->
    match o with Some (p, _, _) => exists v, text_try_parse_partial addr s env property k n = Ret (inl (p, v)) | None => exists t, text_try_parse_partial addr s env property k n = Ret (inr t) end).
  { intros o Y. destruct (Y [] (tracker_new 0)) as (k0 & Yk). exists k0. intros k L. destruct (Yk k L) as (V & _).
    unfold text_try_parse_partial, to_result, init_state, stack_new. change from_start with 0.
    destruct (try_parse addr s env property k n 0 (mkState (mkStack [] []) (tracker_new 0))) as [([(p, w)|], st)| |]; cbn [visible] in V; try discriminate V; injection V as <-; eexists; reflexivity. }
  split.
  - intros k v E. fold n in E. apply full_ok in E. unfold text_try_parse_partial, to_result, init_state, stack_new in E. change from_start with (blen []) in E.
    destruct (try_parse addr s env property k n (blen []) (mkState (mkStack [] []) (tracker_new (blen [])))) as [([(p, w)|], st)| |] eqn:R; try discriminate E. injection E as -> ->.
    destruct (C85_inlined _ _ _ _ _ H C Td Pt Fi Ty D id env Rr property m h r Lo Ir Nt Na addr s [] s [] [] eq_refl (Forall2_nil _) _ _ _ _ _ _ R) as (x & post' & Ks' & ps & E1 & E2 & T & Si & Ns).
    cbn [app] in E2, T. assert (post' = []) by (apply blen_zero; assert (Q := f_equal blen E1); rewrite blen_app in Q; lia). subst post'. rewrite app_nil_r in E1. subst x.
    exists Ks', ps. split; [exact T|]. destruct (pr_silent r); [rewrite (proj1 (Si eq_refl)); constructor|exact (proj1 (Ns eq_refl))].
  - exact (C86_inlined _ _ _ _ _ H C Td Pt Fi Ty D id env Rr property m h r Lo Ir Nt Na addr s).
  - intros k E. fold n in E. destruct (full_outcome addr s env property k n) as [(Q & _)|(res & tr & _ & Q)]; [congruence|].
    destruct res as [|a b K w]; [destruct Q; congruence|]. destruct Q as (_ & _ & Q). destruct b; congruence.
  - intros Ks G. destruct (A s [] Ks G) as (v & K' & _ & Y). cbn [app] in Y. destruct (Run _ Y) as (k0 & Rk). exists k0. intros k L. destruct (Rk k L) as (w & E). exists w. apply full_ok, E.
  - intros res G Ne.
    assert (exists k0, forall k, k0 <= k -> (exists t, text_try_parse_partial addr s env property k n = Ret (inr t)) \/ exists p v, text_try_parse_partial addr s env property k n = Ret (inl (p, v)) /\ p <> blen s) as (k0 & Rk).
    { destruct res as [|x rest Ks].
      - destruct (Run _ (B G)) as (k0 & Rk). exists k0. intros k L. left. apply Rk, L.
      - destruct (gpeg_forward unicode property _ _ _ _ _ _ _ G) as (y & P1 & P). cbn [app] in P1. subst y. symmetry in P.
        destruct (A x rest Ks G) as (v & K' & _ & Y). cbn [app] in Y. destruct (Run _ Y) as (k0 & Rk). exists k0. intros k L. right. destruct (Rk k L) as (w & E). exists (blen x), w. split; [exact E|].
        intro Q. assert (Z : blen rest = 0) by (rewrite <- P, blen_app in Q; lia). apply blen_zero in Z. subst rest. rewrite app_nil_r in P. subst x. exact (Ne Ks eq_refl). }
    exists k0. intros k L. destruct (full_outcome addr s env property k n) as [(_ & Q)|(res1 & tr & _ & Q)].
    + destruct (Rk k L) as [(t & E)|(p & v & E & _)]; congruence.
    + destruct res1 as [|a b K w]; [destruct Q as (_ & Q); eexists; exact Q|]. destruct Q as (Q1 & Q2 & Q3). destruct b as [|c b]; [|eexists; exact Q3].
      exfalso. rewrite app_nil_r in Q1. subst a. destruct (Rk k L) as [(t & E)|(p & v & E & Np)]; [congruence|]. rewrite E in Q2. injection Q2 as -> _. exact (Np eq_refl).
Qed.

(** C87. *)
Theorem C87_package : forall rust_ident manifest_dir path_exists read_file report path_text debug_path current_dir attrs g unicode m,
  Forall (accepted rust_ident) attrs -> written_grammar manifest_dir path_exists read_file attrs (forget (shape g)) ->
  setting "rules_mod" attrs m ->
  complete unicode g -> Spec_Inline.tidy unicode g -> plain_trivia g -> fine unicode g -> fine_types_mod (types_mod m) g -> distinct_properties unicode ->
  exists k0, forall k x, k0 <= k ->
  derive_parser rust_ident manifest_dir path_exists read_file (parse_text report) path_text debug_path current_dir k unicode attrs = Ret x ->
  forall id env, reads_rules (x_items x) unicode id env ->
  forall property l h r, located (types_mod m) g l h -> In r (g_rules h) -> ~ is_trivia_rule r -> pr_args r = [] ->
  forall addr s, parses_as_written unicode g (types_mod m) property id env l h r addr s.
Proof.
  intros rust_ident manifest_dir path_exists read_file report path_text debug_path current_dir attrs g unicode m A W M C T Pt F Ty D.
  destruct (package_expands rust_ident manifest_dir path_exists read_file report path_text debug_path current_dir attrs _ A W) as (c & Mc & _ & _ & H).
  rewrite <- (setting_det _ _ _ _ Mc M) in *. destruct (H g eq_refl) as (k0 & E). exists k0. intros k x L X id env R property l h r Lo J Nt Ar addr s.
  assert (G : generate_typed c k unicode g = Ret (x_items x)) by (apply (E k unicode L); eauto).
  exact (typed_written c k unicode g (x_items x) G C T Pt F Ty D id env R property l h r Lo J Nt Ar addr s).
Qed.
Print Assumptions C87_package.

(** The package of C74_layout_ex, whose file says [p(x) = _ "(" - x - ")"] and [m = p("1")]: the rule [m] parses ["(1)"] as one pair, and reports that [m] was
    expected at the beginning of ["(2)"]; after ["(1)"] the end of ["(1))"] was expected. *)
Definition written_items : list (text * ritem) :=
  match derive_parser any_ident None wide_has wide_package (parse_text no_report) sample_text sample_text [] 20 [] wide_attrs with Ret x => x_items x | _ => [] end.
Definition written_id : list text -> text -> rule := numbered written_items.
Definition written_env : rule -> rule_def := read_env written_items [] written_id 20.
Example C87_package_ex :
  Forall (accepted any_ident) wide_attrs /\ written_grammar None wide_has wide_package wide_attrs (forget (shape layout_grammar)) /\ setting "rules_mod" wide_attrs None /\
  complete [] layout_grammar /\ Spec_Inline.tidy [] layout_grammar /\ plain_trivia layout_grammar /\ fine [] layout_grammar /\
  fine_types_mod (types_mod None) layout_grammar /\ distinct_properties [] /\
  (exists x, derive_parser any_ident None wide_has wide_package (parse_text no_report) sample_text sample_text [] 20 [] wide_attrs = Ret x /\ reads_rules (x_items x) [] written_id written_env) /\
  exists r, In r (g_rules layout_grammar) /\ ~ is_trivia_rule r /\ pr_args r = [] /\
  let m := written_id [lit "rules"] (lit "m") in let parse s := text_try_parse 0 (lit s) written_env (fun _ _ => false) 60 (Rule (written_id [lit "rules"] (pr_name r)) []) in
    (exists v, parse "(1)"%string = Ret (inl v) /\ for_self_or_for_each_child_pair written_env v = [Model_Pairs.mkPair m 0 3 []]) /\
    (exists t, parse "(2)"%string = Ret (inr t) /\ finish t = (0, [(None, ([m], [], []))])) /\
    (exists t, parse "(1))"%string = Ret (inr t) /\ finish t = (3, [(None, ([EOI], [], []))])).
Proof.
  destruct C74_layout_ex as (A & _ & W & _ & M & _ & _ & _ & _). destruct C74_parser_ex as (E & C & T & Pt & F & Ty & D & _).
  rewrite E. split; [exact A|]. split; [exact W|]. split; [exact M|]. split; [exact C|]. split; [exact T|]. split; [exact Pt|]. split; [exact F|]. split; [exact Ty|]. split; [exact D|]. split.
  { eexists. split; [vm_compute; reflexivity|]. apply check_reads_spec. vm_compute. reflexivity. }
  exists (rl "m" [] (call ["p"%string] [str "1"])). split; [right; left; reflexivity|]. split; [intros [Q|Q]; discriminate|]. split; [reflexivity|]. cbn zeta. split; [|split].
  - destruct (text_try_parse 0 (lit "(1)") written_env (fun _ _ => false) 60 (Rule (written_id [lit "rules"] (pr_name (rl "m" [] (call ["p"%string] [str "1"])))) [])) as [[v|t]| |] eqn:Q; try (vm_compute in Q; discriminate Q).
    exists v. split; [reflexivity|]. vm_compute in Q. injection Q as <-. vm_compute. reflexivity.
  - destruct (text_try_parse 0 (lit "(2)") written_env (fun _ _ => false) 60 (Rule (written_id [lit "rules"] (pr_name (rl "m" [] (call ["p"%string] [str "1"])))) [])) as [[v|t]| |] eqn:Q; try (vm_compute in Q; discriminate Q).
    exists t. split; [reflexivity|]. vm_compute in Q. injection Q as <-. vm_compute. reflexivity.
  - destruct (text_try_parse 0 (lit "(1))") written_env (fun _ _ => false) 60 (Rule (written_id [lit "rules"] (pr_name (rl "m" [] (call ["p"%string] [str "1"])))) [])) as [[v|t]| |] eqn:Q; try (vm_compute in Q; discriminate Q).
    exists t. split; [reflexivity|]. vm_compute in Q. injection Q as <-. vm_compute. reflexivity.
Qed.
