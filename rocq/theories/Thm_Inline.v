(** C40: the inlining of silent rules with parameters (meta/src/parser.rs [ParseExpr::replace],
    generator/src/typed/generator.rs [inline_silent_rules_with_args], [generate_typed]). *)
From Coq Require Import String List NArith ZArith Arith Bool Lia.
From Verif Require Import Model_Text Model_Message Model_Meta Model_Import Model_Position Model_Span Model_Stack Model_Tracker Model_Node
  Model_Generator Model_Output Model_Inline
  Spec_Text Spec_Peg Spec_Run Spec_Yield Spec_Rust Spec_Grammar_Peg Spec_Occur Spec_Generator Spec_Inline
  Proof_Text Proof_Emit Proof_Box Proof_Inline Proof_Inlining Proof_Inline_Ends Example_Generator Example_Fine Example_Inline Thm_Names Thm_Generated.
Import ListNotations.
Open Scope list_scope.

(** Replacing parameters one after the other is replacing them all at once, if they differ, occur in at
    most one argument of each call, and do not occur in what they are replaced by. *)
Theorem C40_substitution : forall (l : list (parse_expr * text)) e, NoDup (map snd l) ->
  (forall x, In x (map snd l) -> used_once x e) -> (forall a x y, In (a, x) l -> In y (map snd l) -> ~ mentions a y) ->
  substitutes (map (fun ax => (snd ax, fst ax)) l) e (fst (replace_all l e)).
Proof.
  intros l e D O N. apply replace_all_substitutes; [exact D|intros y J; apply used_once_once, O, J|].
  intros a x y J K U. apply (N a x y J K), used_names_spec, U.
Qed.
Print Assumptions C40_substitution.

(** A call is replaced just when some parameter of the silent rule occurs in its body. *)
Theorem C40_replaced : forall (l : list (parse_expr * text)) e,
  (forall x args, In x (map snd l) -> part (PPath [x] args) e -> args = None) ->
  (snd (replace_all l e) = true <-> exists x, In x (map snd l) /\ mentions e x).
Proof.
  intros l e A. rewrite (replace_all_found l e A). split; intros (x & J & U); exists x; (split; [exact J|]); apply used_names_spec, U.
Qed.
Print Assumptions C40_replaced.

(** If several grammars have a silent rule with the name, the one of the grammar itself is taken, and
    otherwise that of the imported file whose name comes first. *)
Theorem C40_precedence : forall g name s,
  (forall alias h, In (File alias h) (g_imports g) -> g_imports h = []) -> NoDup (map import_alias (g_imports g)) ->
  find_macro (collect_macros None g) name = Some s ->
  pr_name s = name /\
  (macro g s \/
   (forall s', macro g s' -> pr_name s' <> name) /\
   exists alias h, In (File alias h) (g_imports g) /\ macro h s /\
     forall alias' h' s', In (File alias' h') (g_imports g) -> text_before alias' alias -> macro h' s' -> pr_name s' <> name).
Proof.
  intros g name s Fl Nd H. assert (In_map : forall h, lookup name (macro_map (g_rules h)) = Some s -> pr_name s = name /\ macro h s).
  { intros h L. apply macro_map_from in L. destruct L as [L|(J & E)]; [discriminate|]. split; [exact E|]. apply is_macro_spec. apply filter_In in J. exact J. }
  destruct (find_first _ _ _ (collect_sorted g None) H) as (k & m & J & L & B). apply (collect_flat g None Fl Nd eq_refl) in J.
  destruct J as [(-> & ->)|(alias & h & J & -> & ->)].
  - destruct (In_map g L) as (E & M). split; [exact E|]. left. exact M.
  - destruct (In_map h L) as (E & M). split; [exact E|]. right. split.
    + apply macro_map_none. apply (B None); [|exact I]. apply (collect_flat g None Fl Nd eq_refl). left. split; reflexivity.
    + exists alias, h. split; [exact J|]. split; [exact M|]. intros alias' h' s' J' Q. apply macro_map_none. apply (B (Some alias')); [|exact Q].
      apply (collect_flat g None Fl Nd eq_refl). right. exists alias', h'. split; [exact J'|split; reflexivity].
Qed.
Print Assumptions C40_precedence.

(** The result has the other rules, in the same order, with the same names and parameters, and the same
    imports. *)
Theorem C40_removed : forall fuel g g', inline_macros fuel g = Ret g' ->
  (forall s, ~ macro g' s) /\ g_imports g' = g_imports g /\
  exists kept, (forall r, In r kept <-> In r (g_rules g) /\ ~ macro g r) /\
    Forall2 (fun r r' => pr_name r' = pr_name r /\ pr_args r' = pr_args r /\ pr_silent r' = pr_silent r /\ pr_doc r' = pr_doc r) kept (g_rules g').
Proof.
  intros fuel g g' H. unfold inline_macros in H. set (kept := filter (fun r => negb (is_macro r)) (g_rules g)) in *.
  destruct (inline_rules (collect_macros None g) fuel kept) as [rules| |] eqn:E; try discriminate. cbn [obind] in H. injection H as <-.
  assert (F : forall l l', inline_rules (collect_macros None g) fuel l = Ret l' ->
    Forall2 (fun r r' => pr_name r' = pr_name r /\ pr_args r' = pr_args r /\ pr_silent r' = pr_silent r /\ pr_doc r' = pr_doc r) l l').
  { induction l as [|r l IH]; intros l' Q; cbn [inline_rules] in Q; [injection Q as <-; constructor|].
    destruct (inline_expr (collect_macros None g) fuel (n_expr (pr_node r))) as [e| |]; try discriminate. cbn [obind] in Q.
    destruct (inline_rules (collect_macros None g) fuel l) as [rest| |]; try discriminate. cbn [obind] in Q. injection Q as <-.
    constructor; [repeat split|apply IH; reflexivity]. }
  specialize (F _ _ E).
  assert (K : forall r, In r kept <-> In r (g_rules g) /\ ~ macro g r).
  { intro r. unfold kept. rewrite filter_In, negb_true_iff, is_macro_spec. destruct (is_macro r); intuition congruence. }
  split; [|split; [reflexivity|exists kept; split; [exact K|exact F]]].
  intros s (J & Si & A). cbn [g_rules] in J. destruct (forall2_right _ _ _ F s J) as (r & I & _ & Ea & Es & _). apply K in I. destruct I as (I & N). apply N.
  split; [exact I|]. rewrite <- Es, <- Ea. split; assumption.
Qed.
Print Assumptions C40_removed.

(** A rule without parameters means the same after inlining. *)
Theorem C40_inlined : forall unicode property fuel g g',
  complete unicode g -> tidy unicode g -> inline_macros fuel g = Ret g' -> complete unicode g' ->
  forall r, In r (g_rules g) -> pr_args r = [] ->
  exists r', In r' (g_rules g') /\ pr_name r' = pr_name r /\ pr_args r' = [] /\
    forall pre post K res, gpeg unicode property g [] (n_expr (pr_node r)) pre post K res <-> gpeg unicode property g' [] (n_expr (pr_node r')) pre post K res.
Proof.
  intros unicode property fuel g g' C T E C' r J A.
  assert (M : is_macro r = false) by (unfold is_macro; rewrite A; apply andb_false_r).
  destruct (kept_there g g' fuel E r J M) as (r' & K). assert (K' := K). destruct K' as (_ & _ & J' & N & A' & _).
  exists r'. split; [exact J'|]. split; [symmetry; exact N|]. split; [congruence|]. intros pre post Ks res. eapply inlined_same; eassumption.
Qed.
Print Assumptions C40_inlined.

(** So the generated parsers do what the grammar with its silent rules says. *)
Theorem C40_parser : forall config fuel unicode g items,
  generate_typed config fuel unicode g = Ret items ->
  complete unicode g -> tidy unicode g -> plain_trivia g ->
  fine unicode g -> fine_types_mod (types_mod (rules_mod config)) g -> distinct_properties unicode ->
  forall id env, reads_rules items unicode id env ->
  forall property m h r, located (types_mod (rules_mod config)) g m h -> In r (g_rules h) -> ~ is_trivia_rule r -> pr_args r = [] ->
  forall addr s pre post K Ks, s = pre ++ post -> Forall2 span_text K Ks ->
  let parser := Rule (id m (pr_name r)) [] in
  let says := gpeg unicode property h [] (n_expr (pr_node r)) pre post Ks in
  (forall k sv t p v st', try_parse addr s env property k parser (blen pre) (mkState (mkStack K sv) t) = Ret (Some (p, v), st') ->
     exists x post' Ks', post = x ++ post' /\ p = blen (pre ++ x) /\ Forall2 span_text (stk_items (st_stack st')) Ks' /\
       says (Ok (pre ++ x) post' Ks')) /\
  (forall k sv t st', try_parse addr s env property k parser (blen pre) (mkState (mkStack K sv) t) = Ret (None, st') -> says Fail) /\
  (forall x post' Ks', says (Ok (pre ++ x) post' Ks') ->
     exists v K', Forall2 span_text K' Ks' /\ yields addr s env property parser (blen pre) K (Some (blen (pre ++ x), v, K'))) /\
  (says Fail -> yields addr s env property parser (blen pre) K None).
Proof.
  intros config fuel unicode g items G C T Pt F Ty D id env R property m h r Lo J Nt A addr s pre post K Ks Es Fk parser says.
  unfold generate_typed in G. destruct (inline_macros fuel g) as [g'| |] eqn:E; try discriminate. cbn [obind] in G.
  assert (F' := inlined_fine _ _ _ _ E F T Pt).
  assert (C' : complete unicode g') by (apply (C63_accepts config unicode g' F' D); eauto).
  destruct (result g g' fuel E) as (Ig & _).
  assert (Ty' : fine_types_mod (types_mod (rules_mod config)) g').
  { unfold fine_types_mod in *. rewrite Ig. exact Ty. }
  assert (Lo' : (m = [types_mod (rules_mod config)] /\ h = g) \/ located (types_mod (rules_mod config)) g' m h).
  { clear - Lo Ig. induction Lo as [|m h alias h' Lo IH I]; [left; split; reflexivity|]. right. destruct IH as [(-> & ->)|L].
    - apply (Loc_file _ g' [types_mod (rules_mod config)] g' alias h'); [constructor|rewrite Ig; exact I].
    - eapply Loc_file; eassumption. }
  destruct Lo' as [(-> & ->)|Lo'].
  - destruct (C40_inlined unicode property fuel g g' C T E C' r J A) as (r' & J' & N & A' & Q).
    assert (Nt' : ~ is_trivia_rule r') by (unfold is_trivia_rule in *; rewrite N; exact Nt).
    assert (P := C36_parser _ _ _ _ _ G F' Ty' D id env R property _ g' r' (Loc_top _ _) J' Nt' A' addr s pre post K Ks Es Fk). cbv zeta in P. rewrite N in P.
    destruct P as (P1 & P2 & P3 & P4). split; [|split; [|split]].
    + intros k sv t p v st' H. destruct (P1 _ _ _ _ _ _ H) as (x & post' & Ks' & X1 & X2 & X3 & X4). exists x, post', Ks'. repeat (split; [assumption|]). apply Q, X4.
    + intros k sv t st' H. apply Q. eapply P2. exact H.
    + intros x post' Ks' H. apply (P3 x post' Ks'), Q, H.
    + intro H. apply P4, Q, H.
  - exact (C36_parser _ _ _ _ _ G F' Ty' D id env R property m h r Lo' J Nt A addr s pre post K Ks Es Fk).
Qed.
Print Assumptions C40_parser.

(** A grammar without silent rules that have parameters is left as it is. *)
Theorem C40_none : forall g, (forall s, ~ some_macro g s) ->
  (exists fuel, inline_macros fuel g = Ret g) /\ forall fuel g', inline_macros fuel g = Ret g' -> g' = g.
Proof. exact none_same. Qed.
Print Assumptions C40_none.

(** Inlining ends, if the silent rules with parameters are not recursive. *)
Theorem C40_ends : forall unicode g rank, complete unicode g -> tidy unicode g -> ordered g rank ->
  exists fuel g', forall k, fuel <= k -> inline_macros k g = Ret g'.
Proof. intros unicode g rank C T O. eapply ordered_ends; eassumption. Qed.
Print Assumptions C40_ends.

(** A grammar with silent rules:
<<
    ~          = " "*
    digit      = '0'..'9'
    pair(a, b) =_ a ~ "," ~ b
    wrap(x)    =_ "(" ~ x ~ ")"
    both(y)    =_ wrap(y) | y
    keep(z)    = "<" - z - ">"
    main       = pair(both(digit), wrap(keep(digit)))
>> *)
Definition inline_sample : gmodule := grammar [
  rl "~" [] (PRep (nd (str " ")));
  rl "digit" [] (PRange 48%N 57%N);
  srl "pair" ["a"; "b"]%string (sq (nm "a") TriviaOptional (sq (str ",") TriviaOptional (nm "b")));
  srl "wrap" ["x"%string] (sq (str "(") TriviaOptional (sq (nm "x") TriviaOptional (str ")")));
  srl "both" ["y"%string] (alt (call ["wrap"%string] [nm "y"]) (nm "y"));
  rl "keep" ["z"%string] (sq (str "<") TriviaNone (sq (nm "z") TriviaNone (str ">")));
  rl "main" [] (call ["pair"%string] [call ["both"%string] [nm "digit"]; call ["wrap"%string] [call ["keep"%string] [nm "digit"]]])].
Definition inlined_sample : gmodule := grammar [
  rl "~" [] (PRep (nd (str " ")));
  rl "digit" [] (PRange 48%N 57%N);
  rl "keep" ["z"%string] (sq (str "<") TriviaNone (sq (nm "z") TriviaNone (str ">")));
  rl "main" [] (sq (alt (sq (str "(") TriviaOptional (sq (nm "digit") TriviaOptional (str ")"))) (nm "digit")) TriviaOptional
    (sq (str ",") TriviaOptional (sq (str "(") TriviaOptional (sq (call ["keep"%string] [nm "digit"]) TriviaOptional (str ")")))))].
Definition sample_rank (s : parse_rule) : nat := if text_eqb (pr_name s) (lit "both") then 1 else 0.
Example C40_ex :
  fine sample_unicode inline_sample /\ fine_types_mod (lit "rules") inline_sample /\ complete sample_unicode inline_sample /\ tidy sample_unicode inline_sample /\
  plain_trivia inline_sample /\ ordered inline_sample sample_rank /\ inline_macros 9 inline_sample = Ret inlined_sample /\ complete sample_unicode inlined_sample /\
  (exists items, generate_typed box_all 20 sample_unicode inline_sample = Ret items) /\
  exists r, In r (g_rules inline_sample) /\ pr_args r = [] /\
    gpeg sample_unicode (fun _ _ => false) inline_sample [] (n_expr (pr_node r)) [] (lit "(1),( <2>)") [] (Ok (lit "(1),( <2>)") [] []) /\
    gpeg sample_unicode (fun _ _ => false) inline_sample [] (n_expr (pr_node r)) [] (lit "(1),(<2 >)") [] Fail.
Proof.
  assert (F : fine sample_unicode inline_sample) by (apply fineb_spec; vm_compute; reflexivity).
  assert (F' : fine sample_unicode inlined_sample) by (apply fineb_spec; vm_compute; reflexivity).
  destruct (decide_spec 60 sample_unicode inline_sample 6 (lit "(1),( <2>)") true F sample_distinct) as (C & r & Er & Ok1); [vm_compute; reflexivity|].
  destruct (decide_spec 60 sample_unicode inline_sample 6 (lit "(1),(<2 >)") false F sample_distinct) as (_ & r' & Er' & Ok2); [vm_compute; reflexivity|].
  assert (r' = r) by congruence. subst r'.
  split; [exact F|]. split; [left; reflexivity|]. split; [exact C|]. split; [apply tidyb_spec; vm_compute; reflexivity|].
  split.
  { intros r0 path l s J T P _ E. destruct J as [<-|J].
    - apply parts_all in P. cbn in P. destruct P as [P|[P|[]]]; discriminate.
    - repeat (destruct J as [<-|J]; [destruct T; discriminate|]). destruct J. }
  split.
  { intros s l s' (J & Si & _) P (J' & Si' & _). apply parts_all in P.
    repeat (destruct J as [<-|J]; [try discriminate Si; cbn in P; repeat (destruct P as [P|P]; [try discriminate P|]); try contradiction|]); try contradiction.
    injection P as En _. unfold sample_rank. rewrite <- En. vm_compute. lia. }
  split; [vm_compute; reflexivity|]. split; [|split].
  - apply (C63_accepts box_all sample_unicode inlined_sample F' sample_distinct). exists 20. eexists. vm_compute. reflexivity.
  - eexists. vm_compute. reflexivity.
  - exists r. split; [eapply nth_error_In, Er|]. cbn in Er. injection Er as <-. split; [reflexivity|]. split; [exact Ok1|exact Ok2].
Qed.
Example C40_substitution_ex :
  let e := call ["f"%string] [nm "a"; sq (nm "b") TriviaNone (nm "b")] in
  let l := [(str "1", lit "a"); (nm "c", lit "b")] in
  NoDup (map snd l) /\ (forall x, In x (map snd l) -> used_once x e) /\ (forall a x y, In (a, x) l -> In y (map snd l) -> ~ mentions a y) /\
  fst (replace_all l e) = call ["f"%string] [str "1"; sq (nm "c") TriviaNone (nm "c")].
Proof.
  split; [|split; [|split]].
  - apply nodupb_spec. reflexivity.
  - intros x J. split.
    + intros args P. apply parts_all in P. destruct J as [<-|[<-|[]]]; cbn in P; repeat (destruct P as [P|P]; [try discriminate P; injection P as <-; reflexivity|]); contradiction.
    + intros path l1 a l2 b l3 P (A & B). apply parts_all in P. apply used_names_spec in A, B.
      destruct P as [P|P]; [|cbn in P; repeat (destruct P as [P|P]; [discriminate|]); contradiction]. injection P as _ P.
      assert (Q : at_most_one (fun n => text_in x (used_names (n_expr n))) (l1 ++ a :: l2 ++ b :: l3) = true).
      { rewrite <- P. destruct J as [<-|[<-|[]]]; reflexivity. }
      eapply at_most_one_spec; [exact Q|apply (reflect_iff _ _ (text_in_spec _ _)), A|apply (reflect_iff _ _ (text_in_spec _ _)), B].
  - intros a x y J K M. apply used_names_spec in M. destruct K as [<-|[<-|[]]], J as [J|[J|[]]]; injection J as <- <-; cbn in M; repeat (destruct M as [M|M]; [discriminate|]); contradiction.
  - reflexivity.
Qed.
(** Only the second parameter occurs in the body. *)
Example C40_replaced_ex :
  let e := call ["f"%string] [str "0"; nm "b"] in
  let l := [(str "1", lit "a"); (nm "c", lit "b")] in
  (forall x args, In x (map snd l) -> part (PPath [x] args) e -> args = None) /\ replace_all l e = (call ["f"%string] [str "0"; nm "c"], true).
Proof.
  split; [|reflexivity]. intros x args J P. apply parts_all in P. destruct J as [<-|[<-|[]]]; cbn in P; repeat (destruct P as [P|P]; [try discriminate P; injection P as <-; reflexivity|]); contradiction.
Qed.
(** Two files with the silent rule [m]: that of [a] is taken, not that of [ab]. *)
Definition two_files : gmodule :=
  mkModule [] [rl "main" [] (call ["m"%string] [str "1"])] []
    [File (lit "ab") (grammar [srl "m" ["x"%string] (nm "x")]); File (lit "a") (grammar [srl "m" ["y"%string] (nm "y")])].
Example C40_precedence_ex :
  (forall alias h, In (File alias h) (g_imports two_files) -> g_imports h = []) /\ NoDup (map import_alias (g_imports two_files)) /\
  find_macro (collect_macros None two_files) (lit "m") = Some (srl "m" ["y"%string] (nm "y")).
Proof.
  split; [|split].
  - intros alias h [J|[J|[]]]; injection J as <- <-; reflexivity.
  - apply nodupb_spec. reflexivity.
  - reflexivity.
Qed.
Example C40_none_ex : (forall s, ~ some_macro sample_main s) /\ inline_macros 9 sample_main = Ret sample_main.
Proof.
  split; [|vm_compute; reflexivity]. intros s H. inversion H as [? ? (J & Si & _)|? ? g' ? I H']; subst.
  - destruct J as [<-|[]]. discriminate.
  - destruct I as [I|[I|[]]]; [|discriminate]. injection I as <- <-. inversion H' as [? ? (J & Si & _)|? ? g' ? I H'']; subst.
    + cbn in J. repeat (destruct J as [<-|J]; [discriminate|]). destruct J.
    + destruct I.
Qed.

(** Without these conditions inlining is not substitution. [changed g]: after inlining, a rule without
    parameters rejects a text that it matched before. *)
Definition changed (g : gmodule) : Prop := exists g' r r' s,
  complete sample_unicode g /\ inline_macros 9 g = Ret g' /\ complete sample_unicode g' /\
  In r (g_rules g) /\ In r' (g_rules g') /\ pr_name r' = pr_name r /\ pr_args r = [] /\
  gpeg sample_unicode (fun _ _ => false) g [] (n_expr (pr_node r)) [] s [] (Ok s [] []) /\
  gpeg sample_unicode (fun _ _ => false) g' [] (n_expr (pr_node r')) [] s [] Fail.
Definition inlined (g : gmodule) : gmodule := match inline_macros 9 g with Ret g' => g' | _ => g end.
Definition first_is_main (g : gmodule) : bool :=
  match g_rules g with r :: _ => text_eqb (pr_name r) (lit "main") && is_nil (pr_args r) | [] => false end.
Lemma changed_if : forall g s, fine sample_unicode g -> fine sample_unicode (inlined g) -> inline_macros 9 g = Ret (inlined g) ->
  first_is_main g = true -> first_is_main (inlined g) = true ->
  decide 40 sample_unicode g 0 s = Some true -> decide 40 sample_unicode (inlined g) 0 s = Some false -> changed g.
Proof.
  intros g s F F' E N N' D D'. destruct (decide_spec _ _ _ _ _ _ F sample_distinct D) as (C & r & Er & S). destruct (decide_spec _ _ _ _ _ _ F' sample_distinct D') as (C' & r' & Er' & S').
  assert (Fm : forall h q, first_is_main h = true -> nth_error (g_rules h) 0 = Some q -> pr_name q = lit "main" /\ pr_args q = []).
  { intros h q M Q. unfold first_is_main in M. destruct (g_rules h) as [|p l]; [discriminate|]. injection Q as <-. apply andb_true_iff in M. destruct M as (M & A).
    split; [apply text_eqb_eq, M|]. destruct (pr_args p); [reflexivity|discriminate]. }
  destruct (Fm _ _ N Er) as (M & A). destruct (Fm _ _ N' Er') as (M' & _).
  exists (inlined g), r, r', s. split; [exact C|]. split; [exact E|]. split; [exact C'|].
  split; [eapply nth_error_In, Er|]. split; [eapply nth_error_In, Er'|]. split; [congruence|]. split; [exact A|]. split; assumption.
Qed.

(** A parameter in two arguments of one call: only the first is replaced.
<<
    main       = m("1")
    x          = "X"
    m(x)       =_ pair(x, x)
    pair(a, b) = a - b
>>
    On ["11"]: [main] becomes [pair("1", x)]. *)
Definition two_arguments : gmodule := grammar [
  rl "main" [] (call ["m"%string] [str "1"]);
  rl "x" [] (str "X");
  srl "m" ["x"%string] (call ["pair"%string] [nm "x"; nm "x"]);
  rl "pair" ["a"; "b"]%string (sq (nm "a") TriviaNone (nm "b"))].
Theorem C40_two_arguments_refuted : changed two_arguments.
Proof.
  apply (changed_if two_arguments (lit "11")); [apply fineb_spec|apply fineb_spec| | | | |]; vm_compute; reflexivity.
Qed.
Print Assumptions C40_two_arguments_refuted.

(** An argument that mentions the name of a later parameter: it is replaced again.
<<
    main    = m(b, "1")
    b       = "2"
    m(a, b) =_ a - b
>>
    On ["21"]: [main] becomes ["1" - "1"]. *)
Definition captured : gmodule := grammar [
  rl "main" [] (call ["m"%string] [nm "b"; str "1"]);
  rl "b" [] (str "2");
  srl "m" ["a"; "b"]%string (sq (nm "a") TriviaNone (nm "b"))].
Theorem C40_capture_refuted : changed captured.
Proof.
  apply (changed_if captured (lit "21")); [apply fineb_spec|apply fineb_spec| | | | |]; vm_compute; reflexivity.
Qed.
Print Assumptions C40_capture_refuted.

(** A name in the body of a silent rule that is a parameter of the caller.
<<
    main   = top("2")
    top(y) = m(y)
    y      = "1"
    m(x)   =_ x - y
>>
    On ["21"]: [top(y)] becomes [y - y]. *)
Definition hidden : gmodule := grammar [
  rl "main" [] (call ["top"%string] [str "2"]);
  rl "top" ["y"%string] (call ["m"%string] [nm "y"]);
  rl "y" [] (str "1");
  srl "m" ["x"%string] (sq (nm "x") TriviaNone (nm "y"))].
Theorem C40_caller_parameter_refuted : changed hidden.
Proof.
  apply (changed_if hidden (lit "21")); [apply fineb_spec|apply fineb_spec| | | | |]; vm_compute; reflexivity.
Qed.
Print Assumptions C40_caller_parameter_refuted.

(** A silent rule of an imported grammar: the names in its body are looked up in the main grammar.
<<
    use s                     s:  item = "i"
    main = s::m("1")              m(x) =_ x - item
    item = "j"
>>
    On ["1i"]: [main] becomes ["1" - item]. *)
Definition other_file : gmodule := grammar [rl "item" [] (str "i"); srl "m" ["x"%string] (sq (nm "x") TriviaNone (nm "item"))].
Definition file_rules (e : parse_expr) : gmodule :=
  mkModule [] [rl "main" [] e; rl "item" [] (str "j")] [] [File (lit "s") other_file].
Definition with_file : gmodule := file_rules (call ["s"; "m"]%string [str "1"]).
Lemma file_fine : forall e, fine sample_unicode (file_rules e).
Proof.
  intro e. constructor; cbn [g_imports g_rules file_rules map import_alias].
  - apply nodupb_spec. reflexivity.
  - intros i [<-|[]]. apply not_in. reflexivity.
  - intros alias p [I|[]]. discriminate.
  - intros r [<-|[<-|[]]]; apply not_in; reflexivity.
  - intros r x [<-|[<-|[]]] [].
  - intros r [<-|[<-|[]]] _; reflexivity.
  - intros t e0 B. apply body_of in B. destruct B as (r & [<-|[<-|[]]] & E & ->); destruct t; discriminate.
  - intros e0 e' B. apply body_of in B. destruct B as (r & [<-|[<-|[]]] & E & ->); discriminate.
  - intros alias g' [I|[]]. injection I as <- <-. apply fineb_spec. vm_compute. reflexivity.
Qed.
Theorem C40_imported_refuted : changed with_file.
Proof.
  assert (E : inlined with_file = file_rules (sq (str "1") TriviaNone (nm "item"))) by (vm_compute; reflexivity).
  apply (changed_if with_file (lit "1i")); [apply file_fine|rewrite E; apply file_fine| | | | |]; vm_compute; reflexivity.
Qed.
Print Assumptions C40_imported_refuted.

(** Grammars that meet all conditions, and that the generator rejects because a call is left over. *)
Definition left_over (g : gmodule) : Prop :=
  complete sample_unicode g /\ tidy sample_unicode g /\ fine sample_unicode g /\
  forall config fuel items, generate_typed config fuel sample_unicode g <> Ret items.
Lemma left_over_if : forall g g' s b, fineb g = true -> tidyb g = true -> decide 40 sample_unicode g 0 s = Some b ->
  inline_macros 9 g = Ret g' -> fineb g' = true -> ~ complete sample_unicode g' -> left_over g.
Proof.
  intros g g' s b F T D E F' N. apply (fineb_spec sample_unicode) in F, F'. split; [apply (decide_spec _ _ _ _ _ _ F sample_distinct D)|].
  split; [apply tidyb_spec, T|]. split; [exact F|]. intros config fuel items H. unfold generate_typed in H.
  destruct (inline_macros fuel g) as [g1| |] eqn:E1; try discriminate. assert (g1 = g') as -> by (eapply inline_macros_same; eassumption). cbn [obind] in H.
  apply N, (C63_accepts config sample_unicode g' F' sample_distinct). eauto.
Qed.
(** A silent rule that uses none of its parameters:
<<
    main = m("1")
    m(x) =_ "k"
>> *)
Definition unused : gmodule := grammar [rl "main" [] (call ["m"%string] [str "1"]); srl "m" ["x"%string] (str "k")].
Theorem C40_unused_parameter_refuted : left_over unused.
Proof.
  eapply (left_over_if unused (grammar [rl "main" [] (call ["m"%string] [str "1"])]) (lit "k")); try (vm_compute; reflexivity).
  intro C. assert (W := complete_named _ _ C _ (or_introl eq_refl)). inversion W as [x args I|path args x Np Nm _ _|e N]; subst.
  - destruct I.
  - destruct (names_one _ _ _ _ Nm) as [(r & J & _ & Ex & _)|(p & [] & _)]. destruct J as [<-|[]]. discriminate.
  - eapply N. reflexivity.
Qed.
Print Assumptions C40_unused_parameter_refuted.
(** A call of a silent rule in an argument of another rule:
<<
    main    = keep(m("1"))
    keep(y) = y - y
    m(x)    =_ x - x
>> *)
Definition nested : gmodule := grammar [
  rl "main" [] (call ["keep"%string] [call ["m"%string] [str "1"]]);
  rl "keep" ["y"%string] (sq (nm "y") TriviaNone (nm "y"));
  srl "m" ["x"%string] (sq (nm "x") TriviaNone (nm "x"))].
Theorem C40_nested_call_refuted : left_over nested.
Proof.
  eapply (left_over_if nested (grammar [rl "main" [] (call ["keep"%string] [call ["m"%string] [str "1"]]); rl "keep" ["y"%string] (sq (nm "y") TriviaNone (nm "y"))]) (lit "1111"));
    try (vm_compute; reflexivity).
  intro C. assert (W := complete_named _ _ C _ (or_introl eq_refl)). inversion W as [x args I|path args x Np Nm _ A|e N]; subst; [destruct I| |eapply N; reflexivity].
  assert (W' := A _ _ eq_refl (or_introl eq_refl)). clear Nm. inversion W' as [y args I|path args y Np' Nm _ _|e N]; subst; [destruct I| |eapply N; reflexivity].
  destruct (names_one _ _ _ _ Nm) as [(r & J & _ & Ex & _)|(p & [] & _)]. destruct J as [<-|[<-|[]]]; discriminate.
Qed.
Print Assumptions C40_nested_call_refuted.

(** A recursive silent rule is unfolded for ever, though the grammar has a meaning:
<<
    main = m("1")
    m(x) =_ "(" - m(x) - ")" | x
>> *)
Definition recursive : gmodule := grammar [
  rl "main" [] (call ["m"%string] [str "1"]);
  srl "m" ["x"%string] (alt (sq (str "(") TriviaNone (sq (call ["m"%string] [nm "x"]) TriviaNone (str ")"))) (nm "x"))].
Theorem C40_recursive_refuted :
  complete sample_unicode recursive /\ tidy sample_unicode recursive /\ fine sample_unicode recursive /\
  (exists r, In r (g_rules recursive) /\ gpeg sample_unicode (fun _ _ => false) recursive [] (n_expr (pr_node r)) [] (lit "((1))") [] (Ok (lit "((1))") [] [])) /\
  forall config fuel, generate_typed config fuel sample_unicode recursive = OutOfFuel.
Proof.
  assert (F : fine sample_unicode recursive) by (apply fineb_spec; vm_compute; reflexivity).
  destruct (decide_spec 60 sample_unicode recursive 0 (lit "((1))") true F sample_distinct) as (C & r & Er & S); [vm_compute; reflexivity|].
  split; [exact C|]. split; [apply tidyb_spec; vm_compute; reflexivity|]. split; [exact F|]. split; [exists r; split; [eapply nth_error_In, Er|exact S]|].
  intros config fuel. unfold generate_typed, inline_macros.
  assert (R : forall k, inline_expr (collect_macros None recursive) k (call ["m"%string] [str "1"]) = OutOfFuel).
  { induction k as [k IH] using (well_founded_induction lt_wf). destruct k as [|[|[|[|k]]]]; try reflexivity.
    assert (H := IH (Datatypes.S k) ltac:(lia)).
    assert (E : inline_here (collect_macros None recursive) (4 + k) (call ["m"%string] [str "1"]) =
      Ret (alt (sq (str "(") TriviaNone (sq (call ["m"%string] [str "1"]) TriviaNone (str ")"))) (str "1"))) by reflexivity.
    revert H E. generalize (collect_macros None recursive) as macros. intros macros H E. change (Datatypes.S (Datatypes.S (Datatypes.S (Datatypes.S k)))) with (4 + k).
    cbn [Nat.add] in *. rewrite inline_step, E. cbn [obind descend alt nd n_expr].
    assert (Lit : forall j c, inline_expr macros (Datatypes.S j) (str c) = Ret (str c)) by reflexivity.
    assert (L : inline_expr macros (3 + k) (sq (str "(") TriviaNone (sq (call ["m"%string] [str "1"]) TriviaNone (str ")"))) = OutOfFuel).
    { cbn [Nat.add]. rewrite inline_step. cbn [inline_here obind descend sq nd n_expr]. rewrite inline_step. cbn [inline_here obind descend sq nd n_expr]. rewrite Lit. cbn [obind].
      change (PPath (map lit ["m"%string]) _) with (call ["m"%string] [str "1"]). rewrite H. reflexivity. }
    cbn [Nat.add] in L. rewrite Lit, L. reflexivity. }
  cbn [recursive grammar g_rules filter is_macro rl srl pr_silent pr_args map andb negb inline_rules pr_node nd n_expr]. rewrite R. reflexivity.
Qed.
Print Assumptions C40_recursive_refuted.
