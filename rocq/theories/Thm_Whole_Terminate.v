(** C89: when the parsers of a package return (derive/src/lib.rs L51-67, generator/src/typed/generator.rs L946-983, generator/src/typed/module.rs,
    core/src/typed/traits.rs L24-134). *)
From Coq Require Import String List NArith Arith Bool Lia Relations.
From Verif Require Import Proof_Text Proof_Run Proof_Node Proof_Peg Proof_Yield Proof_Read Proof_Exists Proof_Det Proof_Entry Proof_Accept Proof_Names Proof_Terminate Proof_Grammar_Terminate Proof_Inlining Model_Text Model_Message Model_Meta Model_Grammar Model_Import Model_Position Model_Span Model_Stack Model_Tracker Model_Node
  Model_Pest2 Model_Generator Model_Output Model_Inline Model_Derive Model_Pairs
  Spec_Text Spec_Peg Spec_Run Spec_Yield Spec_Tracker Spec_Rust Spec_Terminate Spec_Grammar_Peg Spec_Occur Spec_Generator Spec_Grammar_Terminate Spec_Inline Spec_Unescape Spec_Import Spec_Written Spec_Derive Spec_Whole
  Spec_Grammar_Tree Spec_Grammar_Trace
  Proof_Derive Proof_Alike Example_Generator Example_Fine Example_Inline Thm_Names Thm_Generated Thm_Import Thm_Pest2 Thm_Derive Thm_Written Thm_Inline Thm_Whole Thm_Grammar_Terminate Thm_Grammar_Tree Thm_Grammar_Trace Thm_Whole_Tree.
Import ListNotations.
Open Scope list_scope.

(** If the expression of a rule without parameters is not left recursive, its parser has an outcome on every text, at every place and with every stack, and all
    four ways to parse a text end; silent rules with parameters may be inlined. *)
Theorem C89_returns : forall config fuel unicode g items,
  generate_typed config fuel unicode g = Ret items ->
  complete unicode g -> Spec_Inline.tidy unicode g -> plain_trivia g ->
  fine unicode g -> fine_types_mod (types_mod (rules_mod config)) g -> distinct_properties unicode ->
  forall id env, reads_rules items unicode id env ->
  forall property m h r, located (types_mod (rules_mod config)) g m h -> In r (g_rules h) -> ~ is_trivia_rule r -> pr_args r = [] ->
  not_left_recursive unicode property (Clo h [] (n_expr (pr_node r))) ->
  forall addr s, let parser := Rule (id m (pr_name r)) [] in
  (forall p K, boundary s p -> valid_stack K -> exists o, yields addr s env property parser p K o) /\
  exists k0, forall k, k0 <= k ->
  returns (text_try_parse_partial addr s env property k parser) /\ returns (text_try_parse addr s env property k parser) /\
  returns (text_check_partial addr s env property k parser) /\ returns (text_check addr s env property k parser).
Proof.
  intros config fuel unicode g items H C Td Pt Fi Ty D id env Rr property m h r Lo Ir Nt Na Nl addr s parser.
  destruct (located_complete unicode _ g m h Lo C Fi) as (C' & F').
  assert (Pr : proper unicode (Clo h [] (n_expr (pr_node r)))).
  { assert (P := rule_proper unicode h r [] C' F' Ir). rewrite Na in P. apply P; [reflexivity|intros c []]. }
  assert (Y : forall p K, boundary s p -> valid_stack K -> exists o, yields addr s env property parser p K o).
  { intros p K (pre & post & Hs & ->) (Ks & F).
    destruct (gsettled unicode property _ Pr Nl pre post Ks) as ([|pre' post' K'] & G);
      destruct (C40_parser config fuel unicode g items H C Td Pt Fi Ty D id env Rr property m h r Lo Ir Nt Na addr s pre post K Ks Hs F) as (_ & _ & A & B).
    - eexists. exact (B G).
    - pose proof (gpeg_forward unicode property _ _ _ _ _ _ _ G) as (x & -> & ->). destruct (A x post' K' G) as (v & K2 & _ & O). eexists. exact O. }
  split; [exact Y|].
  destruct (Y 0 [] (start_boundary s) valid_nil) as (o & O). destruct (O [] (tracker_new 0)) as (k0 & H0). exists k0. intros k L.
  destruct (H0 k L) as (_ & E). apply entries_return. intro Z. unfold init_state, stack_new in Z. change from_start with 0 in Z. rewrite Z in E. discriminate E.
Qed.
Print Assumptions C89_returns.

(** If it begins with a part that begins with a part, and so on, then its parser never returns, however long one waits. *)
Theorem C89_left_recursive : forall config fuel unicode g items,
  generate_typed config fuel unicode g = Ret items ->
  complete unicode g -> Spec_Inline.tidy unicode g -> plain_trivia g ->
  fine unicode g -> fine_types_mod (types_mod (rules_mod config)) g -> distinct_properties unicode ->
  forall id env, reads_rules items unicode id env ->
  forall property m h r, located (types_mod (rules_mod config)) g m h -> In r (g_rules h) -> ~ is_trivia_rule r -> pr_args r = [] ->
  forall P : closure -> Prop, (forall c, P c -> exists d, opens unicode c d /\ P d) -> P (Clo h [] (n_expr (pr_node r))) ->
  forall addr s p K, boundary s p -> valid_stack K -> forall k sv t,
  let parser := Rule (id m (pr_name r)) [] in
  try_parse addr s env property k parser p (mkState (mkStack K sv) t) = OutOfFuel /\
  check addr s env property k parser p (mkState (mkStack K sv) t) = OutOfFuel.
Proof.
  intros config fuel unicode g items H C Td Pt Fi Ty D id env Rr property m h r Lo Ir Nt Na P St Pc addr s p K B V k sv t parser.
  assert (E : try_parse addr s env property k parser p (mkState (mkStack K sv) t) = OutOfFuel).
  { pose proof (safe addr s env property k parser p K sv t B V) as (Np & _). cbv zeta in Np.
    destruct B as (pre & post & Hs & ->). destruct V as (Ks & F).
    destruct (C40_parser config fuel unicode g items H C Td Pt Fi Ty D id env Rr property m h r Lo Ir Nt Na addr s pre post K Ks Hs F) as (A1 & A2 & _ & _).
    assert (No := proj1 (no_result unicode property P St)).
    destruct (try_parse addr s env property k parser (blen pre) (mkState (mkStack K sv) t)) as [([(p', v)|], st')| |] eqn:E; [| |contradiction|reflexivity]; exfalso.
    - destruct (A1 _ _ _ _ _ _ E) as (x & post' & Ks' & _ & _ & _ & G). exact (No _ _ _ _ _ _ _ G Pc).
    - exact (No _ _ _ _ _ _ _ (A2 _ _ _ _ E) Pc). }
  split; [exact E|]. rewrite (check_forget addr s env property k parser p K sv t B V), E. reflexivity.
Qed.
Print Assumptions C89_left_recursive.

(** The parser of a package for a rule that is not left recursive decides every text: given enough steps, it returns the tree of the grammar as it is written, or,
    if the grammar does not match all of the text, a report of what the grammar tried. *)
Theorem C89_package : forall rust_ident manifest_dir path_exists read_file report path_text debug_path current_dir attrs g unicode m,
  Forall (accepted rust_ident) attrs -> written_grammar manifest_dir path_exists read_file attrs (forget (shape g)) ->
  setting "rules_mod" attrs m ->
  complete unicode g -> Spec_Inline.tidy unicode g -> plain_trivia g -> fine unicode g -> fine_types_mod (types_mod m) g -> distinct_properties unicode ->
  exists k0, forall k x, k0 <= k ->
  derive_parser rust_ident manifest_dir path_exists read_file (parse_text report) path_text debug_path current_dir k unicode attrs = Ret x ->
  forall id env, reads_rules (x_items x) unicode id env ->
  forall property l h r, located (types_mod m) g l h -> In r (g_rules h) -> ~ is_trivia_rule r -> pr_args r = [] ->
  not_left_recursive unicode property (Clo h [] (n_expr (pr_node r))) ->
  forall addr s, exists k1, forall k', k1 <= k' ->
  let stands_for := numbered_as (located (types_mod m) g) id in
  let tried := gtry_rule unicode property (open_own g) h r [] s [] in
  match text_try_parse addr s env property k' (Rule (id l (pr_name r)) []) with
  | Ret (inl v) => exists Ks ps, gtree unicode property (open_own g) h [] (n_expr (pr_node r)) [] s [] s [] Ks ps /\
      matched_all stands_for (for_self_or_for_each_child_pair env v) (if pr_silent r then [] else [Model_Pairs.mkPair (h, r) 0 (blen s) ps])
  | Ret (inr t) => (forall Ks, ~ gpeg unicode property h [] (n_expr (pr_node r)) [] s [] (Ok s [] Ks)) /\
      ((exists gtr, tried Fail gtr /\ tells stands_for gtr (finish t)) \/
       exists x rest Ks gtr, s = x ++ rest /\ rest <> [] /\ tried (Ok x rest Ks) gtr /\ tells_rest stands_for gtr (blen x) (finish t))
  | _ => False
  end.
Proof.
  intros rust_ident manifest_dir path_exists read_file report path_text debug_path current_dir attrs g unicode m A W M C T Pt F Ty D.
  destruct (C87_package rust_ident manifest_dir path_exists read_file report path_text debug_path current_dir attrs g unicode m A W M C T Pt F Ty D) as (k0 & E).
  exists k0. intros k x L X id env R property l h r Lo J Nt Ar Nl addr s. assert (Wr := E k x L X id env R property l h r Lo J Nt Ar addr s).
  destruct (located_complete unicode _ g l h Lo C F) as (C' & F').
  assert (Pr : proper unicode (Clo h [] (n_expr (pr_node r)))).
  { assert (P := rule_proper unicode h r [] C' F' J). rewrite Ar in P. apply P; [reflexivity|intros c []]. }
  destruct (gsettled unicode property _ Pr Nl [] s []) as (res & G).
  assert (Dec : (exists Ks, res = Ok s [] Ks) \/ forall Ks, res <> Ok s [] Ks).
  { destruct res as [|a b c]; [right; discriminate|]. destruct b as [|b0 b]; [|right; discriminate]. left. exists c.
    destruct (gpeg_forward unicode property _ _ _ _ _ _ _ G) as (y & -> & ->). rewrite app_nil_r. reflexivity. }
  destruct Dec as [(Ks & ->)|Ne].
  - destruct (written_accepted _ _ _ _ _ _ _ _ _ _ _ Wr Ks G) as (k1 & H). exists k1. intros k' L'. destruct (H k' L') as (v & Q). cbv zeta. rewrite Q. exact (written_tree _ _ _ _ _ _ _ _ _ _ _ Wr _ _ Q).
  - destruct (written_rejected _ _ _ _ _ _ _ _ _ _ _ Wr res G Ne) as (k1 & H). exists k1. intros k' L'. destruct (H k' L') as (t & Q). cbv zeta. rewrite Q. split.
    + intros Ks G'. apply (Ne Ks). symmetry. exact (proj1 (gpeg_unique unicode property D) _ _ _ _ _ _ _ G' C' (GE_nil _) _ G).
    + exact (written_report _ _ _ _ _ _ _ _ _ _ _ Wr _ _ Q).
Qed.
Print Assumptions C89_package.

(** A package is not rejected for being left recursive, but its parsers never return. *)
Theorem C89_package_left_recursive : forall rust_ident manifest_dir path_exists read_file report path_text debug_path current_dir attrs g unicode m,
  Forall (accepted rust_ident) attrs -> written_grammar manifest_dir path_exists read_file attrs (forget (shape g)) ->
  setting "rules_mod" attrs m ->
  complete unicode g -> Spec_Inline.tidy unicode g -> plain_trivia g -> fine unicode g -> fine_types_mod (types_mod m) g -> distinct_properties unicode ->
  exists k0, forall k x, k0 <= k ->
  derive_parser rust_ident manifest_dir path_exists read_file (parse_text report) path_text debug_path current_dir k unicode attrs = Ret x ->
  forall id env, reads_rules (x_items x) unicode id env ->
  forall property l h r, located (types_mod m) g l h -> In r (g_rules h) -> ~ is_trivia_rule r -> pr_args r = [] ->
  forall P : closure -> Prop, (forall c, P c -> exists d, opens unicode c d /\ P d) -> P (Clo h [] (n_expr (pr_node r))) ->
  forall addr s k', text_try_parse addr s env property k' (Rule (id l (pr_name r)) []) = OutOfFuel.
Proof.
  intros rust_ident manifest_dir path_exists read_file report path_text debug_path current_dir attrs g unicode m A W M C T Pt F Ty D.
  destruct (package_expands rust_ident manifest_dir path_exists read_file report path_text debug_path current_dir attrs _ A W) as (c & Mc & _ & _ & H).
  rewrite <- (setting_det _ _ _ _ Mc M) in *. destruct (H g eq_refl) as (k0 & E). exists k0. intros k x L X id env R property l h r Lo J Nt Ar P St Pc addr s k'.
  assert (G : generate_typed c k unicode g = Ret (x_items x)) by (apply (E k unicode L); eauto).
  assert (Q := fun sv t => proj1 (C89_left_recursive c k unicode g (x_items x) G C T Pt F Ty D id env R property l h r Lo J Nt Ar P St Pc addr s 0 [] (start_boundary s) valid_nil k' sv t)).
  assert (Z' : text_try_parse_partial addr s env property k' (Rule (id l (pr_name r)) []) = OutOfFuel).
  { unfold text_try_parse_partial, init_state, stack_new. change from_start with 0. rewrite Q. reflexivity. }
  destruct (full_outcome addr s env property k' (Rule (id l (pr_name r)) [])) as [(Y & _)|(res & tr & _ & Z)]; [exact Y|exfalso].
  destruct res; [destruct Z as (Z & _)|destruct Z as (_ & Z & _)]; congruence.
Qed.
Print Assumptions C89_package_left_recursive.

(** The package of C87_package_ex, whose file says [p(x) = _ "(" - x - ")"] and [m = p("1")]. *)
Definition m_body : parse_expr := call ["p"%string] [str "1"].
Definition p_rest : parse_expr := sq (nm "x") TriviaNone (str ")").
Definition p_body : parse_expr := sq (str "(") TriviaNone p_rest.
Definition p_env : list (text * closure) := [(lit "x", Clo layout_grammar [] (str "1"))].
Definition m_parts : list closure := map (Clo layout_grammar []) [m_body; str "1"] ++ map (Clo layout_grammar p_env) [p_body; str "("; p_rest; nm "x"; str ")"].
Lemma layout_name : forall rho x args d, lit "pest" <> x -> stands_for [] (Clo layout_grammar rho (PPath [x] args)) d ->
  assoc x rho d \/ exists r l, In r (g_rules layout_grammar) /\ pr_name r = x /\ call_arguments args l /\
    d = Clo layout_grammar (combine (pr_args r) (map (fun n => Clo layout_grammar rho (n_expr n)) l)) (n_expr (pr_node r)).
Proof.
  intros rho x args d Np H. inversion H as [? ? ? ? ? A|? ? ? ? l g' r N Nm Ca L|? ? ? n N Nm]; subst; [left; exact A| |].
  - right. exists r, l. inversion Nm as [|p x' O _]; subst. inversion O as [g1 r1 I _| |? alias g1 rest x1 I]; subst; [|destruct I]. auto.
  - exfalso. inversion Nm as [|p y O _]; subst; try congruence. inversion O as [|? ? ? ? I|? ? ? ? ? I]; subst; destruct I.
Qed.
Lemma layout_piece : forall c d, In c m_parts -> piece [] c d ->
  In (c, d) [(Clo layout_grammar [] m_body, Clo layout_grammar p_env p_body); (Clo layout_grammar p_env p_body, Clo layout_grammar p_env (str "("));
             (Clo layout_grammar p_env p_body, Clo layout_grammar p_env p_rest); (Clo layout_grammar p_env p_rest, Clo layout_grammar p_env (nm "x"));
             (Clo layout_grammar p_env p_rest, Clo layout_grammar p_env (str ")")); (Clo layout_grammar p_env (nm "x"), Clo layout_grammar [] (str "1"))].
Proof.
  intros c d Ic H. unfold m_parts, m_body, p_body, p_rest, nm, str, sq, call in Ic. cbn [map app In] in Ic.
  repeat (destruct Ic as [<-|Ic]; [inversion H as [? ? ? e' O N|? ? S|? ? l r t e' T|? ? ? n min max t e' Rp Rt T]; subst; clear H|]); try destruct Ic.
  all: try match goal with N : ~ is_path (PPath ?p ?a) |- _ => exfalso; apply N; exists p, a; reflexivity end.
  all: try match goal with O : operand_of _ _ |- _ => solve [inversion O; subst; cbn; tauto] end.
  all: try match goal with S : stands_for _ _ _ |- _ => solve [inversion S] end.
  all: try match goal with Rp : repetition _ _ _ _ |- _ => destruct (rep_no_trivia _ _ _ _ _ _ _ Rp Rt T) as ((? & Op) & Np); try (exfalso; eapply Np; reflexivity); inversion Op; subst; discriminate end.
  all: try match goal with T : trivia_body _ TriviaNone _ |- _ => destruct T as (? & ? & Z & _); discriminate Z end.
  all: match goal with S : stands_for _ _ _ |- _ => apply layout_name in S; [|discriminate];
         destruct S as [S|(r & l & I & E & Ca & ->)];
         [inversion S; subst; try (match goal with A : assoc _ [] _ |- _ => inversion A end); try congruence
         |destruct I as [<-|[<-|[]]]; try discriminate E; destruct Ca as [Ca|(Ca & ->)]; try discriminate Ca; try (injection Ca as <-)] end; cbn; tauto.
Qed.
Lemma layout_not_left_recursive : forall property, not_left_recursive [] property (Clo layout_grammar [] m_body).
Proof.
  intro property. assert (C : closed_grammar [] m_parts).
  { intros c d I P. assert (Q := layout_piece c d I P). repeat (destruct Q as [Q|Q]; [injection Q as <- <-; unfold m_parts; cbn [map app In]; tauto|]). destruct Q. }
  set (rank := fun c : closure => let 'Clo _ rho e := c in match e with PPath _ (Some _) => 4 | PSeq (mkNode (PStr _) _) _ _ => 3 | PSeq _ _ _ => 2 | PPath _ None => 1 | _ => 0 end).
  apply (C52_grammar_finite [] property m_parts C); [|left; reflexivity]. apply (granked _ _ _ rank C). intros a b I S.
  assert (Q := layout_piece a b I (starts_piece _ _ _ _ S)). repeat (destruct Q as [Q|Q]; [injection Q as <- <-; cbn; lia|]). destruct Q.
Qed.
Example C89_package_ex :
  Forall (accepted any_ident) wide_attrs /\ written_grammar None wide_has wide_package wide_attrs (forget (shape layout_grammar)) /\ setting "rules_mod" wide_attrs None /\
  complete [] layout_grammar /\ Spec_Inline.tidy [] layout_grammar /\ plain_trivia layout_grammar /\ fine [] layout_grammar /\
  fine_types_mod (types_mod None) layout_grammar /\ distinct_properties [] /\
  exists c x r, generate_typed c 20 [] layout_grammar = Ret (x_items x) /\ rules_mod c = None /\
    derive_parser any_ident None wide_has wide_package (parse_text no_report) sample_text sample_text [] 20 [] wide_attrs = Ret x /\ reads_rules (x_items x) [] written_id written_env /\
    In r (g_rules layout_grammar) /\ pr_name r = lit "m" /\ ~ is_trivia_rule r /\ pr_args r = [] /\ not_left_recursive [] (fun _ _ => false) (Clo layout_grammar [] (n_expr (pr_node r))) /\
    forall addr s, exists k0, forall k, k0 <= k -> returns (text_try_parse addr s written_env (fun _ _ => false) k (Rule (written_id [lit "rules"] (lit "m")) [])).
Proof.
  destruct C87_package_ex as (A & W & M & C & T & Pt & F & Ty & D & (x & X & R) & _).
  split; [exact A|]. split; [exact W|]. split; [exact M|]. split; [exact C|]. split; [exact T|]. split; [exact Pt|]. split; [exact F|]. split; [exact Ty|]. split; [exact D|].
  assert (Ex : exists c, generate_typed c 20 [] layout_grammar = Ret (x_items x) /\ rules_mod c = None).
  { exists (mkConfig false false None). split; [|reflexivity]. vm_compute in X. injection X as <-. vm_compute. reflexivity. }
  destruct Ex as (c & G & Rm). exists c, x, (rl "m" [] m_body). split; [exact G|]. split; [exact Rm|]. split; [exact X|]. split; [exact R|].
  assert (I : In (rl "m" [] m_body) (g_rules layout_grammar)) by (right; left; reflexivity). assert (Nt : ~ is_trivia_rule (rl "m" [] m_body)) by (intros [Q|Q]; discriminate).
  assert (Nl := layout_not_left_recursive (fun _ _ => false)).
  split; [exact I|]. split; [reflexivity|]. split; [exact Nt|]. split; [reflexivity|]. split; [exact Nl|]. intros addr s. rewrite <- Rm in Ty.
  destruct (C89_returns c 20 [] layout_grammar (x_items x) G C T Pt F Ty D written_id written_env R (fun _ _ => false) [types_mod (rules_mod c)] layout_grammar (rl "m" [] m_body) (Loc_top _ _) I Nt eq_refl Nl addr s) as (_ & k0 & H).
  rewrite Rm in H. exists k0. intros k L. exact (proj1 (proj2 (H k L))).
Qed.

(** [m = m - "1"], in place. *)
Definition loop_text : text := lit "m = m - ""1""".
Definition loop_attrs : list attribute := [attr "grammar_inline" (M_value (V_str loop_text))].
Definition loop_body : parse_expr := sq (nm "m") TriviaNone (str "1").
Definition loop_grammar : gmodule := grammar [rl "m" [] loop_body].
Definition loop_items : list (text * ritem) :=
  match derive_parser any_ident None nothing_exists no_files (parse_text no_report) sample_text sample_text [] 20 [] loop_attrs with Ret x => x_items x | _ => [] end.
Definition loop_id : list text -> text -> rule := numbered loop_items.
Definition loop_env : rule -> rule_def := read_env loop_items [] loop_id 20.
Lemma loop_written : w_file loop_text [] [W_rule [] (lit "m") [] false (T_seq (T_name [lit "m"]) (T_str (lit "1")) TriviaNone)].
Proof.
  apply (W_file [] [] [] ([] ++ lit "m = m - ""1""" ++ [] ++ []) _ []).
  - white.
  - constructor.
  - apply W_rule_item with (braced := false); [constructor| |white|constructor|right; left; reflexivity].
    apply (W_rule_text (lit "m") (lit " ") [] [] (lit " ") (lit "m - ""1""")); [left; name|white|constructor|white|].
    apply W_bare; [|discriminate]. apply W_plain, W_alternative. apply (W_sequence (lit "m") (lit " ") (lit "-") TriviaNone (lit " ") (lit """1""")); [|white|constructor|white|].
    + apply (operand (lit "m")). apply W_path, W_name. name.
    + apply W_operand, (operand (lit """1""")). apply (short_string (lit "1")). reflexivity.
  - eexists _, _, _, _, _. left. reflexivity.
  - left. reflexivity.
Qed.
Example C89_package_left_recursive_ex :
  Forall (accepted any_ident) loop_attrs /\ written_grammar None nothing_exists no_files loop_attrs (forget (shape loop_grammar)) /\ setting "rules_mod" loop_attrs None /\
  complete [] loop_grammar /\ Spec_Inline.tidy [] loop_grammar /\ plain_trivia loop_grammar /\ fine [] loop_grammar /\ fine_types_mod (types_mod None) loop_grammar /\ distinct_properties [] /\
  exists x r (P : closure -> Prop), derive_parser any_ident None nothing_exists no_files (parse_text no_report) sample_text sample_text [] 20 [] loop_attrs = Ret x /\ reads_rules (x_items x) [] loop_id loop_env /\
    generate_typed (mkConfig false false None) 20 [] loop_grammar = Ret (x_items x) /\
    In r (g_rules loop_grammar) /\ ~ is_trivia_rule r /\ pr_args r = [] /\
    (forall c, P c -> exists d, opens [] c d /\ P d) /\ P (Clo loop_grammar [] (n_expr (pr_node r))).
Proof.
  destruct (attrs_read loop_attrs [S_inline loop_text] (mkDConfig false false false (mkConfig false false None))) as (A & B & Ne & M & _); [vm_compute; reflexivity|].
  assert (F : fine [] loop_grammar) by (apply fineb_spec; vm_compute; reflexivity). assert (D : distinct_properties []) by constructor.
  assert (G : exists items, generate_items (mkConfig false false None) 20 [] loop_grammar = Ret items) by (eexists; vm_compute; reflexivity).
  assert (C : complete [] loop_grammar) by (apply (C63_accepts (mkConfig false false None) [] loop_grammar F D); destruct G; eauto).
  split; [exact A|]. split.
  { exists [S_inline loop_text], [(loop_text, None)], [forget (shape loop_grammar)]. do 2 (split; [assumption|]). split; [|split; [|reflexivity]].
    - constructor; [|constructor]. constructor.
    - constructor; [|constructor]. eapply W_loads; [exact loop_written|repeat constructor]. }
  split; [exact M|]. split; [exact C|]. split; [apply tidyb_spec; vm_compute; reflexivity|]. split.
  { intros r0 path l s J T P _ E. repeat (destruct J as [<-|J]; [destruct T; discriminate|]). destruct J. }
  split; [exact F|]. split; [left; reflexivity|]. split; [exact D|].
  assert (U : forall x y, names [] loop_grammar [lit "m"] x -> names [] loop_grammar [lit "m"] y -> x = y) by (apply C43_unique; exact C).
  eexists _, (rl "m" [] loop_body), (fun c => In c (map (Clo loop_grammar []) [loop_body; nm "m"])). split; [vm_compute; reflexivity|]. split; [apply check_reads_spec; vm_compute; reflexivity|]. split; [vm_compute; reflexivity|].
  split; [left; reflexivity|]. split; [intros [Q|Q]; discriminate|]. split; [reflexivity|]. split; [|left; reflexivity].
  intros c [<-|[<-|[]]].
  - eexists. split; [apply OP_seq|right; left; reflexivity].
  - exists (Clo loop_grammar [] loop_body). split; [|left; reflexivity]. apply OP_name; [|exact U].
    apply (SF_rule [] loop_grammar [] [lit "m"] None [] loop_grammar (rl "m" [] loop_body)).
    + intros x c _ Q. inversion Q.
    + apply N_own; [|intros q Q; discriminate Q]. apply (O_rule _ loop_grammar (rl "m" [] loop_body)); [left; reflexivity|intros [Q|Q]; discriminate Q].
    + right. auto.
    + reflexivity.
Qed.
