(** Theorems about all of the macro, from the written grammar to the generated parsers. *)
From Coq Require Import String List NArith Arith Bool Lia.
From Verif Require Import Model_Text Model_Message Model_Meta Model_Grammar Model_Import Model_Position Model_Span Model_Stack Model_Tracker Model_Node
  Model_Pest2 Model_Generator Model_Output Model_Inline Model_Derive
  Spec_Text Spec_Peg Spec_Run Spec_Yield Spec_Rust Spec_Grammar_Peg Spec_Occur Spec_Generator Spec_Inline Spec_Unescape Spec_Import Spec_Written Spec_Derive Spec_Whole
  Proof_Derive Proof_Alike Example_Generator Example_Fine Example_Inline Thm_Import Thm_Pest2 Thm_Derive Thm_Written Thm_Inline.
Import ListNotations.
Open Scope list_scope.

(** C74: what is generated does not depend on where the parts of a grammar are written. *)
Theorem C74_same : forall config k names g g', forget (shape g) = forget (shape g') ->
  generate_typed config k names g = generate_typed config k names g'.
Proof. exact alike_typed. Qed.
Print Assumptions C74_same.

Lemma together_shape : forall modules, forget (shape (merge_modules modules)) = together (map (fun m => forget (shape m)) modules).
Proof.
  intros modules. destruct (merged_parts modules) as (A & B & C). destruct (merge_modules modules) as [deps rules doc imports]. cbn [g_rules g_doc g_imports] in *. subst rules doc imports.
  unfold together. cbn [shape forget]. induction modules as [|[d r c i] l IH]; [reflexivity|]. cbn [flat_map map g_rules g_doc g_imports shape forget wt_rules wt_doc wt_imports] in *.
  rewrite !map_app. injection IH as -> -> ->. reflexivity.
Qed.
Section Package.
Variables (rust_ident : text -> bool) (manifest_dir : option text) (path_exists : path -> bool) (read_file : path -> text + text)
  (report : text -> N) (path_text debug_path : path -> text) (current_dir : path).
Notation expands := (derive_parser rust_ident manifest_dir path_exists read_file (parse_text report) path_text debug_path current_dir).
Lemma package_expands : forall attrs t, Forall (accepted rust_ident) attrs -> written_grammar manifest_dir path_exists read_file attrs t ->
  exists c, setting "rules_mod" attrs (rules_mod c) /\ flag "box_all_rules" attrs (box_rules_only_if_needed c) /\ no_getter c = false /\
  forall g, forget (shape g) = t -> exists k0, forall k names, k0 <= k -> forall items,
    generate_typed c k names g = Ret items <-> exists x, expands k names attrs = Ret x /\ x_items x = items.
Proof.
  intros attrs t A (sources & data & trees & So & Ne & D & W & ->).
  destruct (parse_derive rust_ident attrs) as [(sources', c)| |] eqn:P.
  2: { exfalso. apply C72_panic in P. destruct P as [P|P]; [contradiction|]. apply Ne. eapply sources_det; eassumption. }
  2: { exfalso. revert P. apply attributes_end. }
  pose proof P as P'. apply C72_exact in P'. destruct P' as (_ & So' & _ & _ & _ & _ & B & G & M).
  assert (sources' = sources) by (eapply sources_det; eassumption). subst sources'.
  exists (d_config c). split; [exact M|]. split; [exact B|]. split; [exact G|]. intros g Eg.
  assert (L : exists k0, forall k, k0 <= k -> exists modules, map (fun m => forget (shape m)) modules = trees /\
    load_sources manifest_dir read_file (parse_text report) path_text debug_path k data = Ret modules).
  { clear - W. induction W as [|d t data trees F W (k1 & IH)]; [exists 0; intros k _; exists []; split; reflexivity|].
    destruct (C70_loaded report read_file path_text debug_path _ _ _ F) as (k2 & H). exists (k1 + k2). intros k Lk. destruct (IH k ltac:(lia)) as (modules & E & Q).
    destruct (H k ltac:(lia)) as (m & reads & Em & Sm). exists (m :: modules). cbn [map]. rewrite E, Sm. split; [reflexivity|].
    cbn [load_sources]. unfold load_source at 1. rewrite Em. cbn [obind]. rewrite Q. reflexivity. }
  destruct L as (k0 & L). exists k0. intros k names Lk items. destruct (L k Lk) as (modules & E & Q).
  rewrite (alike_typed (d_config c) k names g (merge_modules modules)) by (rewrite together_shape, E; exact Eg).
  unfold derive_parser. rewrite P. cbn [obind]. apply C73_sources in D. rewrite D. cbn [obind]. rewrite Q. cbn [obind].
  destruct (generate_typed (d_config c) k names (merge_modules modules)) as [items'| |]; cbn [obind].
  - split; [intros [= ->]; eexists; split; reflexivity|]. intros (x & [= <-] & <-). reflexivity.
  - split; [discriminate|intros (x & F & _); discriminate].
  - split; [discriminate|intros (x & F & _); discriminate].
Qed.
End Package.

(** C74: so how a grammar is laid out does not matter, nor whether it is in a file or in place: two packages
    whose grammars are written alike, and that set the same flags, expand to the same items, or both not. *)
Theorem C74_layout : forall rust_ident rust_ident' manifest_dir manifest_dir' path_exists path_exists' read_file read_file' report report'
  path_text path_text' debug_path debug_path' current_dir current_dir' attrs attrs' t m b,
  Forall (accepted rust_ident) attrs -> Forall (accepted rust_ident') attrs' ->
  written_grammar manifest_dir path_exists read_file attrs t -> written_grammar manifest_dir' path_exists' read_file' attrs' t ->
  setting "rules_mod" attrs m -> setting "rules_mod" attrs' m -> flag "box_all_rules" attrs b -> flag "box_all_rules" attrs' b ->
  exists k0, forall k names, k0 <= k -> forall items,
    (exists x, derive_parser rust_ident manifest_dir path_exists read_file (parse_text report) path_text debug_path current_dir k names attrs = Ret x /\ x_items x = items) <->
    (exists x, derive_parser rust_ident' manifest_dir' path_exists' read_file' (parse_text report') path_text' debug_path' current_dir' k names attrs' = Ret x /\ x_items x = items).
Proof.
  intros rust_ident rust_ident' manifest_dir manifest_dir' path_exists path_exists' read_file read_file' report report'
    path_text path_text' debug_path debug_path' current_dir current_dir' attrs attrs' t m b A A' W W' M M' B B'.
  destruct (package_expands rust_ident manifest_dir path_exists read_file report path_text debug_path current_dir attrs t A W) as (c & Mc & Bc & Gc & H).
  destruct (package_expands rust_ident' manifest_dir' path_exists' read_file' report' path_text' debug_path' current_dir' attrs' t A' W') as (c' & Mc' & Bc' & Gc' & H').
  assert (c' = c). { destruct c as [c1 c2 c3], c' as [d1 d2 d3]. cbn in *.
    rewrite (setting_det _ _ _ _ Mc M), (setting_det _ _ _ _ Mc' M'), (flag_det _ _ _ _ Bc B), (flag_det _ _ _ _ Bc' B'), Gc, Gc'. reflexivity. }
  subst c'. assert (G : exists g, forget (shape g) = t).
  { exists (embed_module t). apply forget_embed. }
  destruct G as (g & G). destruct (H g G) as (k0 & E), (H' g G) as (k0' & E'). exists (k0 + k0'). intros k names L items.
  rewrite <- (E k names ltac:(lia) items), <- (E' k names ltac:(lia) items). reflexivity.
Qed.
Print Assumptions C74_layout.

(** C74: all steps together. The parsers that the macro makes from a package do what its grammar says: the
    grammar [g] is the one that is written, with any places. *)
Theorem C74_parser : forall rust_ident manifest_dir path_exists read_file report path_text debug_path current_dir attrs g unicode m,
  Forall (accepted rust_ident) attrs -> written_grammar manifest_dir path_exists read_file attrs (forget (shape g)) ->
  setting "rules_mod" attrs m ->
  complete unicode g -> Spec_Inline.tidy unicode g -> plain_trivia g -> fine unicode g -> fine_types_mod (types_mod m) g -> distinct_properties unicode ->
  exists k0, forall k x, k0 <= k ->
  derive_parser rust_ident manifest_dir path_exists read_file (parse_text report) path_text debug_path current_dir k unicode attrs = Ret x ->
  forall id env, reads_rules (x_items x) unicode id env ->
  forall property l h r, located (types_mod m) g l h -> In r (g_rules h) -> ~ is_trivia_rule r -> pr_args r = [] ->
  forall addr s pre post K Ks, s = pre ++ post -> Forall2 span_text K Ks ->
  let parser := Rule (id l (pr_name r)) [] in
  let says := gpeg unicode property h [] (n_expr (pr_node r)) pre post Ks in
  (forall k sv t p v st', try_parse addr s env property k parser (blen pre) (mkState (mkStack K sv) t) = Ret (Some (p, v), st') ->
     exists x post' Ks', post = x ++ post' /\ p = blen (pre ++ x) /\ Forall2 span_text (stk_items (st_stack st')) Ks' /\
       says (Ok (pre ++ x) post' Ks')) /\
  (forall k sv t st', try_parse addr s env property k parser (blen pre) (mkState (mkStack K sv) t) = Ret (None, st') -> says Fail) /\
  (forall x post' Ks', says (Ok (pre ++ x) post' Ks') ->
     exists v K', Forall2 span_text K' Ks' /\ yields addr s env property parser (blen pre) K (Some (blen (pre ++ x), v, K'))) /\
  (says Fail -> yields addr s env property parser (blen pre) K None).
Proof.
  intros rust_ident manifest_dir path_exists read_file report path_text debug_path current_dir attrs g unicode m A W M C T Pt F Ty D.
  destruct (package_expands rust_ident manifest_dir path_exists read_file report path_text debug_path current_dir attrs _ A W) as (c & Mc & _ & _ & H).
  rewrite <- (setting_det _ _ _ _ Mc M) in *. destruct (H g eq_refl) as (k0 & E). exists k0. intros k x L X id env R property l h r Lo J Nt Ar addr s pre post K Ks Es Fk.
  assert (G : generate_typed c k unicode g = Ret (x_items x)) by (apply (E k unicode L); eauto).
  exact (C40_parser c k unicode g (x_items x) G C T Pt F Ty D id env R property l h r Lo J Nt Ar addr s pre post K Ks Es Fk).
Qed.
Print Assumptions C74_parser.

(** A grammar in two layouts: one in the file [src/w.pest] of a package, one in place. *)
Definition wide_text : text := line "p(x) = _ ""("" - x - "")""" ++ lit "m = p(""1"")".
Definition dense_text : text := lit "p( x )=_{(""("")-x-"")""}m = p(/* one */""1"")".
Definition p_tree : tree := T_seq (T_str (lit "(")) (T_seq (T_name [lit "x"]) (T_str (lit ")")) TriviaNone) TriviaNone.
Definition layout_tree : wtree :=
  WTree [([], lit "p", [lit "x"], true, p_tree); ([], lit "m", [], false, T_call [lit "p"] [T_str (lit "1")])] [] [].
Definition layout_items : list w_item :=
  [W_rule [] (lit "p") [lit "x"] true p_tree; W_rule [] (lit "m") [] false (T_call [lit "p"] [T_str (lit "1")])].
Definition layout_grammar : gmodule := grammar [
  srl "p" ["x"%string] (sq (str "(") TriviaNone (sq (nm "x") TriviaNone (str ")")));
  rl "m" [] (call ["p"%string] [str "1"])].
Lemma short_string : forall s, forallb (fun c => negb (N.eqb c 34) && negb (N.eqb c 92))%N s = true -> w_core (34%N :: s ++ [34%N]) (T_str s).
Proof.
  intros s H. apply W_terminal, W_string. induction s as [|c s IH]; [constructor|]. cbn [forallb] in H. apply andb_true_iff in H. destruct H as (A & B).
  apply andb_true_iff in A. destruct A as (A & A'). apply D_plain; [intros ->; discriminate|intros ->; discriminate|apply IH, B].
Qed.
Lemma wide_written : w_file wide_text [] layout_items.
Proof.
  apply (W_file [] [] [] ([] ++ lit "p(x) = _ ""("" - x - "")""" ++ [10%N] ++ ([] ++ lit "m = p(""1"")" ++ [] ++ [])) layout_items []).
  - white.
  - constructor.
  - apply W_rule_item with (braced := false); [constructor| |white| |right; right; split; [discriminate|intros (o & k & w & r & O & _ & E); destruct O; discriminate]].
    + apply (W_rule_text (lit "p") [] (lit "(x) ") [lit "x"] (lit " ") (lit "_ ""("" - x - "")""")); [left; name|white| |white|].
      * apply (W_params [] (lit "x") [] [lit "x"] (lit " ")); [white|apply W_formal; name|white|white].
      * apply (W_silent_bare (lit " ") (lit """("" - x - "")""")); [white| |].
        -- intros (u & r & E & (c & t & -> & C & _)). injection E as <- _. lia.
        -- apply W_plain, W_alternative. apply (W_sequence (lit """(""") (lit " ") (lit "-") TriviaNone (lit " ") (lit "x - "")""")); [|white|constructor|white|].
           ++ apply (operand (lit """(""")). apply (short_string (lit "(")). reflexivity.
           ++ apply (W_sequence (lit "x") (lit " ") (lit "-") TriviaNone (lit " ") (lit """)""")); [|white|constructor|white|].
              ** apply (operand (lit "x")). apply W_path, W_name. name.
              ** apply W_operand, (operand (lit """)""")). apply (short_string (lit ")")). reflexivity.
    + apply W_rule_item with (braced := false); [constructor| |white|constructor|right; left; reflexivity].
      apply (W_rule_text (lit "m") (lit " ") [] [] (lit " ") (lit "p(""1"")")); [left; name|white|constructor|white|].
      apply W_bare; [|discriminate]. apply W_plain, W_alternative, W_operand, (operand (lit "p(""1"")")).
      apply (W_call (lit "p") [lit "p"] [] [] (lit """1""") [T_str (lit "1")] []); [apply W_name; name|white|white| |white].
      apply W_actual, W_plain, W_alternative, W_operand, (operand (lit """1""")). apply (short_string (lit "1")). reflexivity.
  - eexists _, _, _, _, _. left. reflexivity.
  - left. reflexivity.
Qed.
Lemma dense_written : w_file dense_text [] layout_items.
Proof.
  apply (W_file [] [] [] ([] ++ lit "p( x )=_{(""("")-x-"")""}" ++ [] ++ ([] ++ lit "m = p(/* one */""1"")" ++ [] ++ [])) layout_items []).
  - white.
  - constructor.
  - apply W_rule_item with (braced := true); [constructor| |white| |left; reflexivity].
    + apply (W_rule_text (lit "p") [] (lit "( x )") [lit "x"] [] (lit "_{(""("")-x-"")""}")); [left; name|white| |white|].
      * apply (W_params (lit " ") (lit "x") (lit " ") [lit "x"] []); [white|apply W_formal; name|white|white].
      * apply (W_silent_braces [] [] (lit "(""("")-x-"")""") []); [white|white| |white].
        apply W_plain, W_alternative. apply (W_sequence (lit "(""("")") [] (lit "-") TriviaNone [] (lit "x-"")""")); [|white|constructor|white|].
        -- apply (operand (lit "(""("")")). apply (W_parens [] (lit """(""") []); [white| |white].
           apply W_plain, W_alternative, W_operand, (operand (lit """(""")). apply (short_string (lit "(")). reflexivity.
        -- apply (W_sequence (lit "x") [] (lit "-") TriviaNone [] (lit """)""")); [|white|constructor|white|].
           ++ apply (operand (lit "x")). apply W_path, W_name. name.
           ++ apply W_operand, (operand (lit """)""")). apply (short_string (lit ")")). reflexivity.
    + apply W_rule_item with (braced := false); [constructor| |white|constructor|right; left; reflexivity].
      apply (W_rule_text (lit "m") (lit " ") [] [] (lit " ") (lit "p(/* one */""1"")")); [left; name|white|constructor|white|].
      apply W_bare; [|discriminate]. apply W_plain, W_alternative, W_operand, (operand (lit "p(/* one */""1"")")).
      apply (W_call (lit "p") [lit "p"] [] (lit "/* one */") (lit """1""") [T_str (lit "1")] []); [apply W_name; name|white| | |white].
      * apply (Blank_block (lit " one ") []); [|white]. repeat (apply Body_char; [no_head|no_head|]). apply Body_end.
      * apply W_actual, W_plain, W_alternative, W_operand, (operand (lit """1""")). apply (short_string (lit "1")). reflexivity.
  - eexists _, _, _, _, _. left. reflexivity.
  - left. reflexivity.
Qed.
Definition wide_package (p : path) : text + text := if path_eqb p (in_src_dir "w.pest") then inl wide_text else inr (lit "not found").
Definition wide_has (p : path) : bool := match wide_package p with inl _ => true | inr _ => false end.
Definition wide_attrs : list attribute := [is "grammar" "w.pest"; attr "no_span" M_path].
Definition dense_attrs : list attribute := [is "doc" "A parser."; attr "grammar_inline" (M_value (V_str dense_text))].
Definition nothing_exists (p : path) : bool := false.
Lemma attrs_read : forall attrs sources c, parse_derive any_ident attrs = Ret (sources, c) ->
  Forall (accepted any_ident) attrs /\ sources_of attrs sources /\ sources <> [] /\ setting "rules_mod" attrs (rules_mod (d_config c)) /\
  flag "box_all_rules" attrs (box_rules_only_if_needed (d_config c)).
Proof. intros attrs sources c P. apply C72_exact in P. destruct P as (A & B & C & _ & _ & _ & D & _ & E). auto 6. Qed.
Example C74_layout_ex :
  Forall (accepted any_ident) wide_attrs /\ Forall (accepted any_ident) dense_attrs /\
  written_grammar None wide_has wide_package wide_attrs layout_tree /\ written_grammar None nothing_exists no_files dense_attrs layout_tree /\
  setting "rules_mod" wide_attrs None /\ setting "rules_mod" dense_attrs None /\ flag "box_all_rules" wide_attrs false /\ flag "box_all_rules" dense_attrs false /\
  exists x y, derive_parser any_ident None wide_has wide_package (parse_text no_report) sample_text sample_text [] 20 [] wide_attrs = Ret x /\
    derive_parser any_ident None nothing_exists no_files (parse_text no_report) sample_text sample_text [] 20 [] dense_attrs = Ret y /\
    x_items x = x_items y /\ length (x_included x) = 1 /\ x_included y = [].
Proof.
  destruct (attrs_read wide_attrs [S_file (lit "w.pest")] (mkDConfig false true false (mkConfig false false None))) as (A & B & C & D & E); [vm_compute; reflexivity|].
  destruct (attrs_read dense_attrs [S_inline dense_text] (mkDConfig false false false (mkConfig false false None))) as (A' & B' & C' & D' & E'); [vm_compute; reflexivity|].
  do 2 (split; [assumption|]). split; [|split; [|do 4 (split; [assumption|])]].
  - exists [S_file (lit "w.pest")], [(wide_text, Some (in_src_dir "w.pest"))], [layout_tree]. do 2 (split; [assumption|]). split; [|split; [|reflexivity]].
    + constructor; [|constructor]. apply (proj1 (collect_one None wide_has wide_package _ _)). vm_compute. reflexivity.
    + constructor; [|constructor]. apply W_loads with (items := layout_items); [exact wide_written|repeat constructor].
  - exists [S_inline dense_text], [(dense_text, None)], [layout_tree]. do 2 (split; [assumption|]). split; [|split; [|reflexivity]].
    + constructor; [|constructor]. constructor.
    + constructor; [|constructor]. apply W_loads with (items := layout_items); [exact dense_written|repeat constructor].
  - eexists _, _. split; [vm_compute; reflexivity|]. split; [vm_compute; reflexivity|]. vm_compute. auto.
Qed.
Example C74_parser_ex :
  forget (shape layout_grammar) = layout_tree /\ complete [] layout_grammar /\ Spec_Inline.tidy [] layout_grammar /\ plain_trivia layout_grammar /\
  fine [] layout_grammar /\ fine_types_mod (types_mod None) layout_grammar /\ distinct_properties [] /\
  exists r, In r (g_rules layout_grammar) /\ ~ is_trivia_rule r /\ pr_args r = [] /\
    gpeg [] (fun _ _ => false) layout_grammar [] (n_expr (pr_node r)) [] (lit "(1)") [] (Ok (lit "(1)") [] []).
Proof.
  assert (F : fine [] layout_grammar) by (apply fineb_spec; vm_compute; reflexivity).
  assert (D : distinct_properties []) by constructor.
  destruct (decide_spec 60 [] layout_grammar 1 (lit "(1)") true F D) as (C & r & Er & Ok1); [vm_compute; reflexivity|].
  split; [reflexivity|]. split; [exact C|]. split; [apply tidyb_spec; vm_compute; reflexivity|]. split.
  { intros r0 path l s J T P _ E. repeat (destruct J as [<-|J]; [destruct T; discriminate|]). destruct J. }
  split; [exact F|]. split; [left; reflexivity|]. split; [exact D|].
  exists r. split; [eapply nth_error_In, Er|]. cbn in Er. injection Er as <-. split; [intros [T|T]; discriminate|]. split; [reflexivity|exact Ok1].
Qed.
