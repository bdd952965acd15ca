(** C94: renaming a grammar renames the rules in its trees and in its reports of errors, and changes nothing else
    (generator/src/typed/generator.rs, module.rs, core/src/typed/traits.rs L24-53, L136-254, core/src/typed/tracker.rs). *)
From Coq Require Import String List NArith ZArith Arith Bool Lia.
From Verif Require Import Proof_Grammar_Tree_Inline Proof_Grammar_Tree_Det Proof_Grammar_Trace_Det Proof_Det Proof_Text Model_Text Model_Message Model_Meta Model_Import Model_Position Model_Span Model_Stack Model_Tracker Model_Node Model_Pairs
  Model_Generator Model_Output Model_Inline
  Spec_Text Spec_Peg Spec_Run Spec_Yield Spec_Rust Spec_Grammar_Peg Spec_Occur Spec_Generator Spec_Inline Spec_Grammar_Tree Spec_Grammar_Trace Spec_Local Spec_Renaming
  Proof_Local Proof_Local_Tree Proof_Laws_Tree Proof_Renaming Proof_Renaming_Tree Example_Generator Example_Fine Example_Inline Thm_Generated Thm_Local Thm_Laws_Tree Thm_Grammar_Tree Thm_Grammar_Trace Thm_Whole_Tree Thm_Local_Tree Thm_Renaming.
Import ListNotations.
Open Scope list_scope.

(** A renamed grammar gives the trees that the grammar gives, with the rules renamed, *)
Theorem C94_trees : forall unicode property f h g, renaming f h ->
  forall e pre post K pre' post' K' ps, gtree unicode property (open_own g) g [] e pre post K pre' post' K' ps ->
  exists qs, gtree unicode property (open_own (re_module f g)) (re_module f g) [] (re_expr f e) pre post K pre' post' K' qs /\ matched_all (renamed_label f g) ps qs.
Proof.
  intros unicode property f h g R e pre post K pre' post' K' ps H.
  exact (proj1 (renamed_trees unicode property f h R g) _ _ _ _ _ _ _ _ _ _ H f (re_module f g) [] (W_here _ _) (RE_nil _ _ _)).
Qed.
Print Assumptions C94_trees.
(** and tries the renamed rules. *)
Theorem C94_tries : forall unicode property f h g, renaming f h ->
  forall r pre post K res tr, In r (g_rules g) -> gtry_rule unicode property (open_own g) g r pre post K res tr ->
  exists tr', gtry_rule unicode property (open_own (re_module f g)) (re_module f g) (re_rule f r) pre post K res tr' /\ Forall2 (event_alike (renamed_label f g)) tr tr'.
Proof.
  intros unicode property f h g R r pre post K res gtr I (tr & H & ->).
  assert (Ke : renamed_label f g (g, r) (re_module f g, re_rule f r)) by (left; cbn; auto).
  destruct (proj1 (renamed_tries unicode property f h R g) _ _ _ _ _ _ _ _ _ _ H [((re_module f g, re_rule f r), blen pre)] f (re_module f g) []) as (tr' & H' & F).
  - constructor; [split; [exact Ke|reflexivity]|constructor].
  - constructor.
  - constructor.
  - rewrite <- rule_node in H'. eexists. split; [exists tr'; split; [exact H'|reflexivity]|]. apply Forall2_app; [exact F|]. rewrite (renamed_tried f g _ _ F). destruct (tried_grammar_rule tr); [constructor|].
    constructor; [constructor; [constructor|exact Ke]|constructor].
Qed.
Print Assumptions C94_tries.

(** Numbers of the parsers of [g] and of the renamed grammar that stand for a rule and the renamed one. *)
Definition renamed_number (f : text -> text) (g : gmodule) (tm tm' : text) (id id' : list text -> text -> rule) (x x' : rule) : Prop :=
  exists l l', numbered_as (located tm g) id x l /\ numbered_as (located tm' (re_module f g)) id' x' l' /\ renamed_label f g l l'.

(** What the parsers of a rule and of the renamed rule return for a text is the same, but for the names. *)
Theorem C94_parse : forall unicode f h g tm tm' id id' env env', renaming f h ->
  generated unicode g tm id env -> generated unicode (re_module f g) tm' id' env' ->
  forall property r, In r (g_rules g) -> ~ is_trivia_rule r -> pr_args r = [] ->
  forall addr s k k' o o',
  text_try_parse addr s env property k (Rule (id [tm] (pr_name r)) []) = Ret o ->
  text_try_parse addr s env' property k' (Rule (id' [tm'] (f (pr_name r))) []) = Ret o' ->
  returns_alike (renamed_number f g tm tm' id id') env env' o o'.
Proof.
  intros unicode f h g tm tm' id id' env env' R Gn Gn' property r I Nt Na addr s k k' o o' E E'.
  destruct (renamed_rule f h g r R I Nt Na) as (I' & Nt' & Na').
  destruct Gn as (config & fuel & items & G & -> & C & T & Pt & F & Ty & D & Rd). destruct Gn' as (config' & fuel' & items' & G' & -> & C' & T' & Pt' & F' & Ty' & _ & Rd').
  assert (W := typed_written config fuel unicode g items G C T Pt F Ty D id env Rd property _ g r (Loc_top _ _) I Nt Na addr s).
  assert (W' := typed_written config' fuel' unicode (re_module f g) items' G' C' T' Pt' F' Ty' D id' env' Rd' property _ _ _ (Loc_top _ _) I' Nt' Na' addr s).
  set (g' := re_module f g) in *. set (r' := re_rule f r) in *. assert (Er : n_expr (pr_node r') = re_expr f (n_expr (pr_node r))) by apply rule_node.
  assert (One : forall res res', gpeg unicode property g' [] (n_expr (pr_node r')) [] s [] res -> gpeg unicode property g' [] (n_expr (pr_node r')) [] s [] res' -> res = res')
    by (intros res res' A B; first [exact (proj1 (gpeg_unique unicode property D) _ _ _ _ _ _ _ A C' (GE_nil _) _ B)|symmetry; exact (proj1 (gpeg_unique unicode property D) _ _ _ _ _ _ _ A C' (GE_nil _) _ B)]).
  assert (Mean : forall res, gpeg unicode property g [] (n_expr (pr_node r)) [] s [] res -> gpeg unicode property g' [] (n_expr (pr_node r')) [] s [] res) by (intros res H; rewrite Er; apply (C93_meaning unicode property f h g R), H).
  assert (Tg := fun res tr H => proj2 (C86_exists unicode property (open_own g) (open_own_dec g) g r [] s [] res) (ex_intro _ tr H)).
  assert (Tg' := fun res tr H => proj2 (C86_exists unicode property (open_own g') (open_own_dec g') g' r' [] s [] res) (ex_intro _ tr H)).
  set (S := or_end (renamed_number f g (types_mod (rules_mod config)) (types_mod (rules_mod config')) id id')).
  assert (RS : forall x x' l l', numbered_as (located (types_mod (rules_mod config)) g) id x l -> numbered_as (located (types_mod (rules_mod config')) g') id' x' l' -> renamed_label f g l l' -> S x x')
    by (intros x x' l l' A B K; left; exists l, l'; auto).
  assert (En : S EOI EOI) by (right; auto).
  change (f (pr_name r)) with (pr_name r') in E'.
  destruct o as [v|t], o' as [v'|t'].
  - destruct (written_tree _ _ _ _ _ _ _ _ _ _ _ W _ _ E) as (Ks & ps & Tr & M). destruct (written_tree _ _ _ _ _ _ _ _ _ _ _ W' _ _ E') as (Ks' & ps' & Tr' & M').
    destruct (C94_trees unicode property f h g R _ _ _ _ _ _ _ _ Tr) as (qs & Tq & Mq). fold g' in Tq. rewrite <- Er in Tq.
    destruct (C85_unique unicode property (open_own g') g' _ D C' _ _ _ _ _ _ _ _ _ _ _ Tq Tr') as (_ & _ & _ & ->).
    refine (matched_chain _ _ _ _ _ _ _ _ _ _ _ M _ M'). change (pr_silent r') with (pr_silent r). destruct (pr_silent r); [constructor|]. constructor; [|constructor]. constructor; [|exact Mq].
    left. split; reflexivity.
  - destruct (written_tree _ _ _ _ _ _ _ _ _ _ _ W _ _ E) as (Ks & ps & Tr & _). apply (proj1 (gtree_gpeg unicode property (open_own g))), Mean in Tr.
    destruct (written_report _ _ _ _ _ _ _ _ _ _ _ W' _ _ E') as [(tr & H & _)|(x & rest & Ks' & tr & _ & N & H & _)]; apply Tg' in H; assert (Q := One _ _ Tr H); [discriminate Q|]. injection Q as _ Q _. destruct N. symmetry. exact Q.
  - destruct (written_tree _ _ _ _ _ _ _ _ _ _ _ W' _ _ E') as (Ks & ps & Tr & _). apply (proj1 (gtree_gpeg unicode property (open_own g'))) in Tr.
    destruct (written_report _ _ _ _ _ _ _ _ _ _ _ W _ _ E) as [(tr & H & _)|(x & rest & Ks' & tr & _ & N & H & _)]; apply Tg, Mean in H; assert (Q := One _ _ Tr H); [discriminate Q|]. injection Q as _ Q _. destruct N. symmetry. exact Q.
  - assert (Both : forall res tr, gtry_rule unicode property (open_own g) g r [] s [] res tr -> forall res' tr', gtry_rule unicode property (open_own g') g' r' [] s [] res' tr' ->
      res' = res /\ Forall2 (event_alike (renamed_label f g)) tr tr').
    { intros res tr H res' tr' H'. destruct (C94_tries unicode property f h g R r _ _ _ _ _ I H) as (q & Hq & Fq).
      destruct (C86_unique unicode property (open_own g') g' r' D C' _ _ _ _ _ _ _ Hq H') as (-> & ->). split; [reflexivity|exact Fq]. }
    destruct (written_report _ _ _ _ _ _ _ _ _ _ _ W _ _ E) as [(tr & H & Te)|(x & rest & Ks & tr & Es & N & H & Te)];
    destruct (written_report _ _ _ _ _ _ _ _ _ _ _ W' _ _ E') as [(tr' & H' & Te')|(x' & rest' & Ks' & tr' & Es' & N' & H' & Te')];
    destruct (Both _ _ H _ _ H') as (Q & Fq); try discriminate Q.
    + split; [exact (tells_alike _ _ _ _ RS _ _ _ _ Fq Te Te')|]. refine (tells_alike _ _ (fun l' l => renamed_label f g l l') (fun x' x => S x x') _ _ _ _ _ (event_back _ _ _ Fq) Te' Te). intros; eapply RS; eassumption.
    + injection Q as -> _ _. split; [exact (rest_alike _ _ _ _ RS En _ _ _ _ _ Fq Te Te')|].
      refine (rest_alike _ _ (fun l' l => renamed_label f g l l') (fun x' x => S x x') _ _ _ _ _ _ _ (event_back _ _ _ Fq) Te' Te); [intros; eapply RS; eassumption|exact En].
Qed.
Print Assumptions C94_parse.

(** If one returns, so does the other. *)
Theorem C94_returns : forall unicode f h g tm tm' id id' env env', renaming f h ->
  generated unicode g tm id env -> generated unicode (re_module f g) tm' id' env' ->
  forall property r, In r (g_rules g) -> ~ is_trivia_rule r -> pr_args r = [] ->
  forall addr s,
  (exists k o, text_try_parse addr s env property k (Rule (id [tm] (pr_name r)) []) = Ret o) <->
  (exists k o, text_try_parse addr s env' property k (Rule (id' [tm'] (f (pr_name r))) []) = Ret o).
Proof.
  assert (Half : forall unicode f h g tm tm' id id' env env', renaming f h ->
    generated unicode g tm id env -> generated unicode (re_module f g) tm' id' env' ->
    forall property r, In r (g_rules g) -> ~ is_trivia_rule r -> pr_args r = [] ->
    forall addr s, (exists k o, text_try_parse addr s env property k (Rule (id [tm] (pr_name r)) []) = Ret o) ->
    exists k o, text_try_parse addr s env' property k (Rule (id' [tm'] (f (pr_name r))) []) = Ret o).
  { intros unicode f h g tm tm' id id' env env' R Gn Gn' property r I Nt Na addr s (k & o & E).
    destruct (renamed_rule f h g r R I Nt Na) as (I' & Nt' & Na').
    destruct Gn as (config & fuel & items & G & -> & C & T & Pt & F & Ty & D & Rd). destruct Gn' as (config' & fuel' & items' & G' & -> & C' & T' & Pt' & F' & Ty' & _ & Rd').
    assert (W := typed_written config fuel unicode g items G C T Pt F Ty D id env Rd property _ g r (Loc_top _ _) I Nt Na addr s).
    assert (W' := typed_written config' fuel' unicode (re_module f g) items' G' C' T' Pt' F' Ty' D id' env' Rd' property _ _ _ (Loc_top _ _) I' Nt' Na' addr s).
    set (g' := re_module f g) in *. set (r' := re_rule f r) in *. assert (Er : n_expr (pr_node r') = re_expr f (n_expr (pr_node r))) by apply rule_node.
    assert (Mean : forall res, gpeg unicode property g [] (n_expr (pr_node r)) [] s [] res -> gpeg unicode property g' [] (n_expr (pr_node r')) [] s [] res) by (intros res H; rewrite Er; apply (C93_meaning unicode property f h g R), H).
    assert (Tg := fun res tr H => proj2 (C86_exists unicode property (open_own g) (open_own_dec g) g r [] s [] res) (ex_intro _ tr H)).
    assert (No : forall res, gpeg unicode property g' [] (n_expr (pr_node r')) [] s [] res -> (forall Ks, res <> Ok s [] Ks) -> exists k o, text_try_parse addr s env' property k (Rule (id' [types_mod (rules_mod config')] (pr_name r')) []) = Ret o).
    { intros res H Q. destruct (written_rejected _ _ _ _ _ _ _ _ _ _ _ W' _ H Q) as (k0 & K). destruct (K k0 (le_n _)) as (t & Et). eauto. }
    destruct o as [v|t].
    - destruct (written_tree _ _ _ _ _ _ _ _ _ _ _ W _ _ E) as (Ks & ps & Tr & _). apply (proj1 (gtree_gpeg unicode property (open_own g))), Mean in Tr.
      destruct (written_accepted _ _ _ _ _ _ _ _ _ _ _ W' _ Tr) as (k0 & K). destruct (K k0 (le_n _)) as (v' & Ev). eauto.
    - destruct (written_report _ _ _ _ _ _ _ _ _ _ _ W _ _ E) as [(tr & H & _)|(x & rest & Ks' & tr & _ & N & H & _)]; apply Tg, Mean in H; apply (No _ H); intros Ks Q; [discriminate Q|]. injection Q as _ Q _. destruct (N Q). }
  intros unicode f h g tm tm' id id' env env' R Gn Gn' property r I Nt Na addr s.
  destruct (renamed_rule f h g r R I Nt Na) as (I' & Nt' & Na').
  split; [eapply Half; eassumption|]. intro H.
  assert (Gb : generated unicode (re_module h (re_module f g)) tm id env) by (rewrite (module_twice f h (re_undo _ _ R)); exact Gn).
  assert (X := Half unicode h f (re_module f g) tm' tm id' id env' env (renaming_back _ _ R) Gn' Gb property (re_rule f r) I' Nt' Na' addr s H).
  cbn [re_rule pr_name] in X. rewrite (re_undo _ _ R) in X. exact X.
Qed.
Print Assumptions C94_returns.

(** For ["a 1"] the rule [r] of the grammar of C93 gives the tree [r(0, 3, [d(2, 3)])], and the rule [d] of the renamed one [d(0, 3, [item(2, 3)])]. For ["a x"] one reports that [d] was
    expected in [r] at 2, the other that [item] was expected in [d]. *)
Definition try_named (g : gmodule) (rule_name s : string) : option (list (pair rule) + nat * list (option rule * tracked)) :=
  match text_try_parse 0 (lit s) (env_of g) (fun _ _ => false) 60 (Rule (named g rule_name) []) with
  | Ret (inl v) => Some (inl (for_self_or_for_each_child_pair (env_of g) v))
  | Ret (inr t) => Some (inr (finish t))
  | _ => None
  end.
Example C94_ex :
  (exists f h, renaming f h /\ exchanged = re_module f small /\ f (lit "r") = lit "d" /\ f (lit "d") = lit "item") /\
  generated sample_unicode small (lit "rules") (id_of small) (env_of small) /\ generated sample_unicode exchanged (lit "rules") (id_of exchanged) (env_of exchanged) /\
  try_named small "r" "a 1" = Some (inl [mkPair (named small "r") 0 3 [mkPair (named small "d") 2 3 []]]) /\
  try_named exchanged "d" "a 1" = Some (inl [mkPair (named exchanged "d") 0 3 [mkPair (named exchanged "item") 2 3 []]]) /\
  try_named small "r" "a x" = Some (inr (2, [(Some (named small "r"), ([named small "d"], [], []))])) /\
  try_named exchanged "d" "a x" = Some (inr (2, [(Some (named exchanged "d"), ([named exchanged "item"], [], []))])) /\
  (exists r, In r (g_rules small) /\ pr_name r = lit "r" /\ ~ is_trivia_rule r /\ pr_args r = []).
Proof.
  destruct C93_ex as (_ & (h & R) & _ & _ & G & G' & _). split; [eexists; exists h; split; [exact R|]; split; [reflexivity|]; split; reflexivity|]. split; [exact G|]. split; [exact G'|].
  split; [vm_compute; reflexivity|]. split; [vm_compute; reflexivity|]. split; [vm_compute; reflexivity|]. split; [vm_compute; reflexivity|].
  eexists. split; [right; left; reflexivity|]. split; [reflexivity|]. split; [intros [E|E]; discriminate E|reflexivity].
Qed.
