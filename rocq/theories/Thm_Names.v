(** Theorems about names in grammars (generator/src/typed/module.rs, generator.rs). *)
From Coq Require Import String List NArith ZArith Arith Bool Lia.
From Verif Require Import Model_Text Model_Message Model_Meta Model_Import Model_Tracker Model_Node Model_Generator Model_Output
  Spec_Text Spec_Peg Spec_Rust Spec_Grammar_Peg Spec_Occur Spec_Generator Proof_Text Proof_Emit Proof_Box Proof_Process Proof_Names
  Proof_Place Proof_Resolve Proof_Accept Example_Generator Example_Fine.
Import ListNotations.
Open Scope list_scope.

(** C43: once the rules of a grammar are processed, a path resolves exactly if it names something that is
    used as it should. *)
Theorem C43_resolves : forall config fuel unicode g o coll tr,
  process_rules config fuel (make_global unicode) [lit "super"] 0 g gt_new = Ret (o, coll, tr) ->
  fine unicode g -> distinct_properties unicode ->
  forall path args root,
  (exists i, sys_resolve (mkSys coll (make_global unicode)) (mkRuleRef path args) root = inl i) <->
  (exists x, names unicode g path x /\ takes x (usage_of args)).
Proof.
  intros config fuel unicode g o coll tr H F D path args root.
  destruct (process_rules_spec config fuel unicode (builtin_resolves_all unicode D) g 0 gt_new o coll tr H F good_new) as (_ & _ & M).
  apply coll_resolve; [exact D| |exact F]. eapply made_coll, (M tr), extends_refl.
Qed.
Print Assumptions C43_resolves.
(** C43: it names one thing only. *)
Theorem C43_unique : forall unicode g, complete unicode g ->
  forall path x y, names unicode g path x -> names unicode g path y -> x = y.
Proof. exact complete_unique. Qed.
Print Assumptions C43_unique.
(** C63: with enough fuel (depth of recursion) the generator succeeds exactly on the complete grammars. *)
Theorem C63_accepts : forall config unicode g, fine unicode g -> distinct_properties unicode ->
  ((exists fuel items, generate_items config fuel unicode g = Ret items) <-> complete unicode g).
Proof.
  intros config unicode g F D. rewrite <- (accepts_iff unicode D config g F). unfold generate_items. split.
  - intros (fuel & items & H). exists fuel. destruct (generate_output config fuel unicode g) as [(o, t)| |]; [eauto|discriminate|discriminate].
  - intros (fuel & o & t & H). exists fuel. rewrite H. cbn [obind]. eauto.
Qed.
Print Assumptions C63_accepts.

Example C43_C63_ex :
  fine sample_unicode sample_main /\ distinct_properties sample_unicode /\ complete sample_unicode sample_main /\
  (exists o coll tr, process_rules box_all 9 (make_global sample_unicode) [lit "super"] 0 sample_main gt_new = Ret (o, coll, tr)) /\
  names sample_unicode sample_main [lit "s"; lit "paren"] (E_rule sample (rl "paren" ["x"%string] (sq (str "(") TriviaOptional (sq (nm "x") TriviaOptional (str ")"))))) /\
  ~ complete sample_unicode (mkModule [] [rl "a" [] (nm "b")] [] []) /\
  ~ complete sample_unicode (mkModule [] [rl "a" [] (call ["a"%string] [str "x"])] [] []) /\
  ~ complete sample_unicode (mkModule [] [rl "a" [] (sq (str "x") TriviaOptional (str "y"))] [] []).
Proof.
  split; [exact sample_main_fine|]. split; [exact sample_distinct|].
  split.
  { apply (C63_accepts box_all); [exact sample_main_fine|exact sample_distinct|]. exists 9. eexists. vm_compute. reflexivity. }
  split; [do 3 eexists; vm_compute; reflexivity|].
  split.
  { apply N_own; [|intros q E; discriminate]. eapply O_file; [left; reflexivity|].
    match goal with |- own_name _ _ _ (E_rule _ ?r) => apply (O_rule _ sample r) end.
    - do 3 right. left. reflexivity.
    - intros [E|E]; discriminate. }
  assert (One : forall r p x, names sample_unicode (mkModule [] [r] [] []) p x -> (exists q, p = lit "pest" :: q) \/ (p = [pr_name r] /\ x = E_rule (mkModule [] [r] [] []) r)).
  { intros r p x Nm. inversion Nm as [q B|p' x' O _]; subst; [left; eauto|]. inversion O as [g r' I _|g alias q rest I _|g alias g' rest x1 I _]; subst;
      cbn [g_rules g_imports In] in I; try contradiction. destruct I as [<-|[]]. right. split; reflexivity. }
  split; [|split].
  - intro C. assert (W : forall r, In r _ -> well_named _ _ (pr_args r) (n_expr (pr_node r))) by (inversion C; eassumption). specialize (W _ (or_introl eq_refl)). cbn in W.
    inversion W as [x args I|path args x N Nm _ _|e N]; subst.
    + destruct I.
    + destruct (One _ _ _ Nm) as [(q & E)|(E & _)]; discriminate.
    + eapply N. reflexivity.
  - intro C. assert (W : forall r, In r _ -> well_named _ _ (pr_args r) (n_expr (pr_node r))) by (inversion C; eassumption). specialize (W _ (or_introl eq_refl)). cbn in W.
    inversion W as [x args I|path args x N Nm Tk _|e N]; subst.
    + destruct I.
    + destruct (One _ _ _ Nm) as [(q & E)|(_ & ->)]; [discriminate|]. cbn [usage_in] in Tk. inversion Tk.
    + eapply N. reflexivity.
  - intro C. inversion C; subst. match goal with X : forall r t name, In r _ -> _ |- _ => rename X into T end.
    destruct (T _ TriviaOptional (lit "~") (or_introl eq_refl)) as (r & I & E); [left; do 2 eexists; apply Part_self|reflexivity|].
    destruct I as [<-|[]]. discriminate.
Qed.

(** C43: a built-in rule imported under another name resolves, but to a type that does not exist:
<<
    use pest::any a
    x = a
>> *)
Definition renamed : gmodule := mkModule [] [rl "x" [] (nm "a")] [] [Builtin (lit "a") [lit "pest"; lit "any"]].
Theorem C43_renamed_builtin_refuted : exists items s,
  generate_items box_all 9 sample_unicode renamed = Ret items /\ is_struct items [lit "rules"] s /\ gs_name s = lit "x" /\
  forall fuel id, read_type items sample_unicode id fuel [lit "rules"] [] (gs_inner s) = None.
Proof.
  do 2 eexists. split; [vm_compute; reflexivity|]. split.
  - eexists. split; [vm_compute; reflexivity|]. instantiate (1 := mkStruct (lit "x") [] false true _ _ _). vm_compute. reflexivity.
  - split; [reflexivity|]. intros [|fuel] id; [reflexivity|]. vm_compute. reflexivity.
Qed.
Print Assumptions C43_renamed_builtin_refuted.
