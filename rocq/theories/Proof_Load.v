(** Loading grammar files: the cache is invisible, and every file that is read is recorded. *)
From Coq Require Import String List NArith ZArith Arith Bool Lia.
From Verif Require Import Model_Text Model_Message Model_Unescape Model_Meta Model_Grammar Model_Import
  Spec_Unescape Spec_Message Spec_Grammar Spec_Import Proof_Grammar Proof_Reading Proof_Import.
Import ListNotations.
Open Scope list_scope.

Scheme file_means_mind := Minimality for file_means Sort Prop
  with items_mean_mind := Minimality for items_mean Sort Prop
  with item_means_mind := Minimality for item_means Sort Prop.
Combined Scheme means_mind from file_means_mind, items_mean_mind, item_means_mind.

(** Kinds of items. *)
Lemma rule_syntax_rule : forall p ds name ns silent e, rule_syntax p ds name ns silent e -> pp_rule p = R_grammar_rule.
Proof. intros. match goal with H : rule_syntax _ _ _ _ _ _ |- _ => destruct H end. reflexivity. Qed.
Lemma import_syntax_rule : forall p names file alias a b, import_syntax p names file alias a b -> pp_rule p = R_import.
Proof. intros. match goal with H : import_syntax _ _ _ _ _ _ |- _ => destruct H end. reflexivity. Qed.
Lemma import_means_rule : forall root p x, import_means root p x -> pp_rule p = R_import.
Proof. intros root p x M. destruct M; eapply import_syntax_rule; eassumption. Qed.
Lemma doc_rule : forall r m p d, doc_pair r m p d -> pp_rule p = r.
Proof. intros r m p d (H & _). exact H. Qed.
Lemma rule_value : forall path p ds name ns silent e n, rule_syntax p ds name ns silent e -> syn_expression e -> tame e ->
  den_expression path e n -> parse_grammar_rule path p = ok (mkParseRule ds name ns (at_pair path p) n silent).
Proof.
  intros path p ds name ns silent e n R S T D. rewrite (parse_rule_reads path _ _ _ _ _ _ R).
  rewrite (proj2 (parse_node_iff (at_pair path p) e n S T) D). reflexivity.
Qed.
Lemma rule_error : forall path p ds name ns silent e f, rule_syntax p ds name ns silent e -> syn_expression e -> tame e ->
  first_fault e f -> parse_grammar_rule path p = Ret (inr f).
Proof.
  intros path p ds name ns silent e f R S T F. rewrite (parse_rule_reads path _ _ _ _ _ _ R).
  rewrite (proj2 (parse_node_fault (at_pair path p) e f S T) F). reflexivity.
Qed.

Section Files.
Variable parse_file : text -> list ppair + N.
Variable read_file : path -> text + text.
Variable path_text : path -> text.
Variable debug_path : path -> text.
Notation file_means := (file_means parse_file read_file path_text debug_path).
Notation items_mean := (items_mean parse_file read_file path_text debug_path).
Notation item_means := (item_means parse_file read_file path_text debug_path).
Notation declares := (declares parse_file).
Notation reaches := (reaches parse_file read_file).
Notation load_items := (load_items read_file path_text debug_path).
Notation load_fuel := (load_fuel parse_file read_file path_text debug_path).
Notation syn_file := (syn_file parse_file).

(** * The meaning is unique. *)
Definition file_det (root : path) (input : text) (r : load_result) : Prop := forall r', file_means root input r' -> r = r'.
Definition items_det (root : path) (l : list ppair) (r : load_result) : Prop := forall r', items_mean root l r' -> r = r'.
Definition item_det (root : path) (p : ppair) (r : item_result) : Prop := forall r', item_means root p r' -> r = r'.
Ltac kinds :=
  repeat match goal with
  | H : rule_syntax _ _ _ _ _ _ |- _ => lazymatch goal with _ : pp_rule _ = R_grammar_rule |- _ => fail | _ => pose proof (rule_syntax_rule _ _ _ _ _ _ H) end
  | H : import_means _ _ _ |- _ => lazymatch goal with _ : pp_rule _ = R_import |- _ => fail | _ => pose proof (import_means_rule _ _ _ H) end
  | H : doc_pair _ _ _ _ |- _ => lazymatch goal with _ : pp_rule _ = R_grammar_doc |- _ => fail | _ => pose proof (doc_rule _ _ _ _ H) end
  end.
Ltac same_import :=
  match goal with
  | H : import_means ?root ?p ?x, H' : import_means ?root ?p ?y |- _ => pose proof (import_det _ _ _ _ H H'); clear H'
  end.
Lemma means_det :
  (forall root input r, file_means root input r -> file_det root input r) /\
  (forall root l r, items_mean root l r -> items_det root l r) /\
  (forall root p r, item_means root p r -> item_det root p r).
Proof.
  apply means_mind.
  - intros root input e E r' M. inversion M; subst; congruence.
  - intros root input pairs r E M IH r' M'. inversion M' as [? ? ? E'|? ? ? ? E' M'']; subst; [congruence|].
    rewrite E in E'. injection E' as <-. apply IH, M''.
  - intros root r' M. inversion M; reflexivity.
  - intros root p i l t MI IHI ML IHL r' M.
    inversion M as [|? ? ? ? ? MI' ML'|? ? ? ? ? MI' ML' N|? ? ? ? MI'|? ? ? MI']; subst.
    + pose proof (IHI _ MI') as Q. injection Q as <-. pose proof (IHL _ ML') as Q. injection Q as <-. reflexivity.
    + exfalso. apply (N t). symmetry. apply IHL, ML'.
    + specialize (IHI _ MI'). discriminate.
    + specialize (IHI _ MI'). discriminate.
  - intros root p i l r MI IHI ML IHL N r' M.
    inversion M as [|? ? ? ? ? MI' ML'|? ? ? ? ? MI' ML' N'|? ? ? ? MI'|? ? ? MI']; subst.
    + exfalso. eapply N, IHL, ML'.
    + apply IHL, ML'.
    + specialize (IHI _ MI'). discriminate.
    + specialize (IHI _ MI'). discriminate.
  - intros root p e l MI IHI r' M.
    inversion M as [|? ? ? ? ? MI' ML'|? ? ? ? ? MI' ML' N'|? ? ? ? MI'|? ? ? MI']; subst;
      specialize (IHI _ MI'); try discriminate. injection IHI as ->. reflexivity.
  - intros root p l MI IHI r' M.
    inversion M as [|? ? ? ? ? MI' ML'|? ? ? ? ? MI' ML' N'|? ? ? ? MI'|? ? ? MI']; subst;
      specialize (IHI _ MI'); try discriminate. reflexivity.
  - intros root p ds name ns silent e n R S T D r' M.
    pose proof (rule_value (path_text root) _ _ _ _ _ _ _ R S T D) as V.
    inversion M as [? ? ? ? ? ? ? ? R' S' T' D'|? ? ? ? ? ? ? ? R' S' T' F'| | | | | | | |]; subst; kinds; try congruence.
    + rewrite (rule_value (path_text root) _ _ _ _ _ _ _ R' S' T' D') in V. injection V as -> -> -> -> ->. reflexivity.
    + rewrite (rule_error (path_text root) _ _ _ _ _ _ _ R' S' T' F') in V. discriminate.
  - intros root p ds name ns silent e f R S T F r' M.
    pose proof (rule_error (path_text root) _ _ _ _ _ _ _ R S T F) as V.
    inversion M as [? ? ? ? ? ? ? ? R' S' T' D'|? ? ? ? ? ? ? ? R' S' T' F'| | | | | | | |]; subst; kinds; try congruence.
    + rewrite (rule_value (path_text root) _ _ _ _ _ _ _ R' S' T' D') in V. discriminate.
    + rewrite (rule_error (path_text root) _ _ _ _ _ _ _ R' S' T' F') in V. injection V as ->. reflexivity.
  - intros root p d D r' M. inversion M; subst; kinds; try congruence.
    match goal with H : doc_pair _ _ _ ?d' |- _ => lazymatch d' with d => fail | _ => apply grammar_doc_read in H; rename H into G end end.
    apply grammar_doc_read in D. rewrite D in G. injection G as ->. reflexivity.
  - intros root p E r' M. inversion M; subst; kinds; try congruence.
  - intros root p e I r' M. inversion M; subst; kinds; try congruence; same_import; congruence.
  - intros root p I r' M. inversion M; subst; kinds; try congruence; same_import; congruence.
  - intros root p x names a b I r' M. inversion M; subst; kinds; try congruence; same_import; congruence.
  - intros root p x q a b e I R r' M. inversion M; subst; kinds; try congruence; same_import; congruence.
  - intros root p x q a b c t I R MF IH r' M. inversion M; subst; kinds; try congruence; same_import; try congruence.
    + match goal with H : Refers _ _ _ _ = _ |- _ => injection H as <- <- <- <- end.
      match goal with H : read_file q = inl ?c' |- _ => assert (c' = c) as -> by congruence end.
      match goal with H : file_means q c _ |- _ => lazymatch type of H with file_means q c (Loaded t) => fail | _ => pose proof (IH _ H) as Q end end.
      injection Q as <-. reflexivity.
    + exfalso. match goal with H : Refers _ _ _ _ = _ |- _ => injection H as <- <- <- <- end.
      match goal with H : read_file q = inl ?c' |- _ => assert (c' = c) as -> by congruence end.
      match goal with N : forall t, ?r <> Loaded t, H : file_means q c ?r |- _ => apply (N t); symmetry; apply IH, H end.
  - intros root p x q a b c r I R MF IH N r' M. inversion M; subst; kinds; try congruence; same_import; try congruence.
    exfalso. match goal with H : Refers _ _ _ _ = _ |- _ => injection H as <- <- <- <- end.
    match goal with H : read_file q = inl ?c', H' : file_means q ?c' (Loaded ?t) |- _ => assert (c' = c) as -> by congruence; apply (N t), IH, H' end.
Qed.
Lemma file_means_det : forall root input r r', file_means root input r -> file_means root input r' -> r = r'.
Proof. intros root input r r' M M'. exact (proj1 means_det _ _ _ M _ M'). Qed.
Lemma item_means_det : forall root p r r', item_means root p r -> item_means root p r' -> r = r'.
Proof. intros root p r r' M M'. exact (proj2 (proj2 means_det) _ _ _ M _ M'). Qed.

(** * One item. *)
Definition tree_app (t u : mtree) : mtree :=
  let 'MTree r d i := t in let 'MTree r' d' i' := u in MTree (r ++ r') (d ++ d') (i ++ i').
Definition one (i : item) : mtree := add_item i (MTree [] [] []).
Lemma tree_app_one : forall t i u, tree_app (tree_app t (one i)) u = tree_app t (add_item i u).
Proof. intros [r d m] i [r' d' m']. destruct i; cbn [one add_item tree_app]; rewrite <- ?app_assoc, ?app_nil_r; reflexivity. Qed.
Lemma tree_app_nil : forall t, tree_app t (MTree [] [] []) = t.
Proof. intros [r d m]. cbn [tree_app]. rewrite !app_nil_r. reflexivity. Qed.
Lemma shape_import : forall m i, shape (add_import i m) =
  tree_app (shape m) (one (I_import (match i with Builtin a n => M_builtin a n | File a m => M_file a (shape m) end))).
Proof. intros [d r o i'] i. cbn [add_import g_deps g_rules g_doc g_imports shape tree_app one add_item]. rewrite map_app, !app_nil_r. reflexivity. Qed.
Lemma shape_rule : forall m r, shape (add_rule r m) = tree_app (shape m) (one (I_rule r)).
Proof. intros [d r o i'] r'. cbn [add_rule g_deps g_rules g_doc g_imports shape tree_app one add_item]. rewrite !app_nil_r. reflexivity. Qed.
Lemma shape_doc : forall m d, shape (add_doc d m) = tree_app (shape m) (one (I_doc d)).
Proof. intros [d r o i'] r'. cbn [add_doc g_deps g_rules g_doc g_imports shape tree_app one add_item]. rewrite !app_nil_r. reflexivity. Qed.
Lemma shape_deps : forall m l, shape (add_deps l m) = shape m.
Proof. intros [d r o i'] l. reflexivity. Qed.
Lemma shape_dep : forall m q, shape (add_dep q m) = shape m.
Proof. intros [d r o i'] q. reflexivity. Qed.

Definition valid (st : lstate) : Prop := forall q m, cache_get q (ls_cache st) = Some m ->
  exists c, read_file q = inl c /\ file_means q c (Loaded (shape m)).
Lemma cache_get_cons : forall q p m c, cache_get q ((p, m) :: c) = if path_eqb q p then Some m else cache_get q c.
Proof. reflexivity. Qed.
Lemma valid_add : forall st q m c, valid st -> read_file q = inl c -> file_means q c (Loaded (shape m)) ->
  valid (mkLState ((q, m) :: ls_cache st) (ls_reads st)).
Proof.
  intros st q m c V R M q' m'. cbn [ls_cache]. rewrite cache_get_cons. destruct (path_eqb_spec q' q) as [->|N]; [|apply V].
  intro E. injection E as <-. exists c. auto.
Qed.

Section Steps.
Variable load : text -> path -> lstate -> presult (gmodule * lstate).
Lemma step_rule : forall root p rest m st, pp_rule p = R_grammar_rule ->
  load_items load root (p :: rest) m st =
  let? r := parse_grammar_rule (path_text root) p in load_items load root rest (add_rule r m) st.
Proof. intros root p rest m st E. cbn [Model_Import.load_items]. rewrite E. reflexivity. Qed.
Lemma step_doc : forall root p rest m st, pp_rule p = R_grammar_doc ->
  load_items load root (p :: rest) m st = let? d := parse_grammar_doc p in load_items load root rest (add_doc d m) st.
Proof. intros root p rest m st E. cbn [Model_Import.load_items]. rewrite E. reflexivity. Qed.
Lemma step_eoi : forall root p rest m st, pp_rule p = R_eoi ->
  load_items load root (p :: rest) m st = load_items load root rest m st.
Proof. intros root p rest m st E. cbn [Model_Import.load_items]. rewrite E. reflexivity. Qed.
(** What an import does after it has been read. *)
Definition do_import (root : path) (rest : list ppair) (m : gmodule) (st : lstate) (x : import_result) : presult (gmodule * lstate) :=
  match x with
  | Misread e => Ret (inr e)
  | No_directory => Panic
  | Refers x (To_builtin names) _ _ => load_items load root rest (add_import (Builtin x names) m) st
  | Refers x (To_file q) a b =>
      match cache_get q (ls_cache st) with
      | Some module => load_items load root rest (add_import (File x module) m) st
      | None =>
          match read_file q with
          | inr e => err (lit "cannot read from " ++ debug_path q ++ lit " due to: " ++ e) a b
          | inl content =>
              let! r := load content q (mkLState (ls_cache st) (ls_reads st ++ [q])) in
              match r with
              | inr _ => Panic
              | inl (module, st) =>
                  load_items load root rest
                    (add_import (File x module) (add_deps (g_deps module) (add_dep q m)))
                    (mkLState ((q, module) :: ls_cache st) (ls_reads st))
              end
          end
      end
  end.
Lemma step_import : forall root p rest m st x, import_means root p x ->
  load_items load root (p :: rest) m st = do_import root rest m st x.
Proof.
  intros root p rest m st x M. cbn [Model_Import.load_items]. rewrite (import_means_rule _ _ _ M).
  rewrite (import_read root (path_text root) p x M). destruct x as [x t a b|e|]; cbn [import_value pbind obind]; [|reflexivity|reflexivity].
  destruct t; reflexivity.
Qed.
End Steps.

(** * What has a meaning is loaded as that, whatever the cache. *)
Definition is_result (o : presult (gmodule * lstate)) (t0 : mtree) (r : load_result) : Prop :=
  match r with
  | Loaded t => exists m st, o = Ret (inl (m, st)) /\ shape m = tree_app t0 t /\ valid st
  | Failed e => o = Ret (inr e)
  | Crash => o = Panic
  end.
Definition none : mtree := MTree [] [] [].
Definition file_loads root input r := exists k0, forall k, k0 <= k -> forall st, valid st ->
  is_result (load_fuel k input root st) none r.
Definition items_load root l r := exists k0, forall k, k0 <= k -> forall m st, valid st ->
  is_result (load_items (load_fuel k) root l m st) (shape m) r.
Definition item_step (load : text -> path -> lstate -> presult (gmodule * lstate)) root p (r : item_result) : Prop :=
  forall rest m st, valid st ->
  match r with
  | Good i => exists m' st', load_items load root (p :: rest) m st = load_items load root rest m' st' /\
      shape m' = tree_app (shape m) (one i) /\ valid st'
  | Bad e => load_items load root (p :: rest) m st = Ret (inr e)
  | Fatal => load_items load root (p :: rest) m st = Panic
  end.
Definition item_loads root p r := exists k0, forall k, k0 <= k -> item_step (load_fuel k) root p r.
Lemma item_step_rule : forall load root p ds name ns silent e n, rule_syntax p ds name ns silent e -> syn_expression e -> tame e ->
  den_expression (path_text root) e n ->
  item_step load root p (Good (I_rule (mkParseRule ds name ns (at_pair (path_text root) p) n silent))).
Proof.
  intros load root p ds name ns silent e n R S T D rest m st V. rewrite (step_rule _ _ _ _ _ _ (rule_syntax_rule _ _ _ _ _ _ R)).
  rewrite (rule_value _ _ _ _ _ _ _ _ R S T D). eexists _, _. split; [reflexivity|]. split; [apply shape_rule|exact V].
Qed.
Lemma item_step_fault : forall load root p ds name ns silent e f, rule_syntax p ds name ns silent e -> syn_expression e -> tame e ->
  first_fault e f -> item_step load root p (Bad f).
Proof.
  intros load root p ds name ns silent e f R S T F rest m st V. rewrite (step_rule _ _ _ _ _ _ (rule_syntax_rule _ _ _ _ _ _ R)).
  rewrite (rule_error _ _ _ _ _ _ _ _ R S T F). reflexivity.
Qed.
Lemma item_step_doc : forall load root p d, doc_pair R_grammar_doc (lit "//!") p d -> item_step load root p (Good (I_doc d)).
Proof.
  intros load root p d D rest m st V. rewrite (step_doc _ _ _ _ _ _ (doc_rule _ _ _ _ D)). rewrite (grammar_doc_read _ _ D).
  eexists _, _. split; [reflexivity|]. split; [apply shape_doc|exact V].
Qed.
Lemma item_step_eoi : forall load root p, pp_rule p = R_eoi -> item_step load root p (Good I_nothing).
Proof.
  intros load root p E rest m st V. rewrite (step_eoi _ _ _ _ _ _ E). eexists _, _. split; [reflexivity|].
  split; [symmetry; apply tree_app_nil|exact V].
Qed.
Lemma item_step_builtin : forall load root p x names a b, import_means root p (Refers x (To_builtin names) a b) ->
  item_step load root p (Good (I_import (M_builtin x names))).
Proof.
  intros load root p x names a b M rest m st V. rewrite (step_import _ _ _ _ _ _ _ M). cbn [do_import].
  eexists _, _. split; [reflexivity|]. split; [apply (shape_import _ (Builtin x names))|exact V].
Qed.
Lemma item_step_misread : forall load root p e, import_means root p (Misread e) -> item_step load root p (Bad e).
Proof. intros load root p e M rest m st V. rewrite (step_import _ _ _ _ _ _ _ M). reflexivity. Qed.
Lemma item_step_nowhere : forall load root p, import_means root p No_directory -> item_step load root p Fatal.
Proof. intros load root p M rest m st V. rewrite (step_import _ _ _ _ _ _ _ M). reflexivity. Qed.
Lemma item_step_unreadable : forall load root p x q a b e, import_means root p (Refers x (To_file q) a b) -> read_file q = inr e ->
  item_step load root p (Bad (CustomError (lit "cannot read from " ++ debug_path q ++ lit " due to: " ++ e) a b)).
Proof.
  intros load root p x q a b e M R rest m st V. rewrite (step_import _ _ _ _ _ _ _ M). cbn [do_import].
  destruct (cache_get q (ls_cache st)) as [m0|] eqn:C; [|rewrite R; reflexivity].
  exfalso. destruct (V _ _ C) as (c & R' & _). congruence.
Qed.

Lemma complete :
  (forall root input r, file_means root input r -> file_loads root input r) /\
  (forall root l r, items_mean root l r -> items_load root l r) /\
  (forall root p r, item_means root p r -> item_loads root p r).
Proof.
  apply means_mind.
  - intros root input e E. exists 1. intros [|k] L st V; [lia|]. cbn [Model_Import.load_fuel]. rewrite E. reflexivity.
  - intros root input pairs r E M (k0 & IH). exists (S k0). intros [|k] L st V; [lia|]. cbn [Model_Import.load_fuel]. rewrite E.
    apply (IH k ltac:(lia) empty_module st V).
  - intros root. exists 0. intros k L m st V. cbn [Model_Import.load_items]. exists m, st. split; [reflexivity|].
    split; [symmetry; apply tree_app_nil|exact V].
  - intros root p i l t MI (k1 & IH1) ML (k2 & IH2). exists (k1 + k2). intros k L m st V.
    destruct (IH1 k ltac:(lia) l m st V) as (m1 & st1 & E & SH & V1). rewrite E.
    destruct (IH2 k ltac:(lia) m1 st1 V1) as (m2 & st2 & E2 & SH2 & V2). exists m2, st2. split; [exact E2|].
    split; [|exact V2]. rewrite SH2, SH. apply tree_app_one.
  - intros root p i l r MI (k1 & IH1) ML (k2 & IH2) N. exists (k1 + k2). intros k L m st V.
    destruct (IH1 k ltac:(lia) l m st V) as (m1 & st1 & E & SH & V1). rewrite E.
    specialize (IH2 k ltac:(lia) m1 st1 V1). destruct r as [t| |]; [exfalso; apply (N t); reflexivity|exact IH2|exact IH2].
  - intros root p e l MI (k1 & IH1). exists k1. intros k L m st V. exact (IH1 k L l m st V).
  - intros root p l MI (k1 & IH1). exists k1. intros k L m st V. exact (IH1 k L l m st V).
  - intros. exists 0. intros k L. eapply item_step_rule; eassumption.
  - intros. exists 0. intros k L. eapply item_step_fault; eassumption.
  - intros. exists 0. intros k L. eapply item_step_doc; eassumption.
  - intros. exists 0. intros k L. eapply item_step_eoi; eassumption.
  - intros. exists 0. intros k L. eapply item_step_misread; eassumption.
  - intros. exists 0. intros k L. eapply item_step_nowhere; eassumption.
  - intros. exists 0. intros k L. eapply item_step_builtin; eassumption.
  - intros. exists 0. intros k L. eapply item_step_unreadable; eassumption.
  - intros root p x q a b c t I R MF (k0 & IH). exists k0. intros k L rest m st V.
    rewrite (step_import _ _ _ _ _ _ _ I). cbn [do_import].
    destruct (cache_get q (ls_cache st)) as [m0|] eqn:C.
    + destruct (V _ _ C) as (c' & R' & M'). assert (c' = c) as -> by congruence.
      pose proof (file_means_det _ _ _ _ M' MF) as Q. injection Q as <-.
      eexists _, _. split; [reflexivity|]. split; [apply (shape_import _ (File x m0))|exact V].
    + rewrite R. destruct (IH k L (mkLState (ls_cache st) (ls_reads st ++ [q])) V) as (m1 & st1 & E & SH & V1). rewrite E. cbn [obind].
      assert (SH' : shape m1 = t) by (rewrite SH; destruct t; reflexivity).
      eexists _, _. split; [reflexivity|]. split.
      * rewrite (shape_import _ (File x m1)), shape_deps, shape_dep, SH'. reflexivity.
      * eapply valid_add; [exact V1|exact R|]. rewrite SH'. exact MF.
  - intros root p x q a b c r I R MF (k0 & IH) N. exists k0. intros k L rest m st V.
    rewrite (step_import _ _ _ _ _ _ _ I). cbn [do_import].
    destruct (cache_get q (ls_cache st)) as [m0|] eqn:C.
    + exfalso. destruct (V _ _ C) as (c' & R' & M'). assert (c' = c) as -> by congruence.
      apply (N (shape m0)). apply (file_means_det _ _ _ _ MF M').
    + rewrite R. specialize (IH k L (mkLState (ls_cache st) (ls_reads st ++ [q])) V).
      destruct r as [t|e|]; [exfalso; apply (N t); reflexivity| |]; cbn [is_result] in IH; rewrite IH; reflexivity.
Qed.

(** * What is loaded is the meaning. *)
Hypothesis nice : forall q c, read_file q = inl c -> syn_file c.
Lemma sound_items : forall k,
  (forall root input st, syn_file input -> valid st -> load_fuel k input root st <> OutOfFuel ->
     exists r, file_means root input r /\ is_result (load_fuel k input root st) none r) ->
  forall root l m st, Forall syn_item l -> valid st -> load_items (load_fuel k) root l m st <> OutOfFuel ->
  exists r, items_mean root l r /\ is_result (load_items (load_fuel k) root l m st) (shape m) r.
Proof.
  intros k IHF root l. induction l as [|p l IH]; intros m st F V T.
  - exists (Loaded none). split; [constructor|]. exists m, st. split; [reflexivity|]. split; [symmetry; apply tree_app_nil|exact V].
  - pose proof (Forall_inv F) as SP. apply Forall_inv_tail in F.
    assert (STEP : forall i, item_means root p i -> item_step (load_fuel k) root p i ->
      exists r, items_mean root (p :: l) r /\ is_result (load_items (load_fuel k) root (p :: l) m st) (shape m) r).
    { intros i MI SI. specialize (SI l m st V). destruct i as [i|e|].
      - destruct SI as (m1 & st1 & E & SH & V1). rewrite E in T. destruct (IH m1 st1 F V1 T) as (r & MR & RR).
        rewrite E. destruct r as [t|e|].
        + exists (Loaded (add_item i t)). split; [eapply ITM_more; eassumption|]. destruct RR as (m2 & st2 & E2 & SH2 & V2).
          exists m2, st2. split; [exact E2|]. split; [|exact V2]. rewrite SH2, SH. apply tree_app_one.
        + exists (Failed e). split; [eapply ITM_later; [eassumption|eassumption|discriminate]|exact RR].
        + exists Crash. split; [eapply ITM_later; [eassumption|eassumption|discriminate]|exact RR].
      - exists (Failed e). split; [apply ITM_bad, MI|exact SI].
      - exists Crash. split; [apply ITM_fatal, MI|exact SI]. }
    destruct SP as [p ds name ns silent e R S TM|p names file alias a b S|p d D|p E].
    + destruct (parse_node_total (at_pair (path_text root) p) e S TM) as ([n|f] & E).
      * apply parse_node_iff in E; [|assumption|assumption]. cbn [at_pair ms_path] in E. eapply STEP; [eapply IT_rule; eassumption|eapply item_step_rule; eassumption].
      * apply parse_node_fault in E; [|assumption|assumption]. eapply STEP; [eapply IT_fault; eassumption|eapply item_step_fault; eassumption].
    + destruct (import_total root _ _ _ _ _ _ S) as (x & M). destruct x as [x [names'|q] a' b'|e|].
      * eapply STEP; [eapply IT_builtin; eassumption|eapply item_step_builtin; eassumption].
      * destruct (read_file q) as [c|e] eqn:R; [|eapply STEP; [eapply IT_unreadable; eassumption|eapply item_step_unreadable; eassumption]].
        pose proof T as T'. rewrite (step_import _ _ _ _ _ _ _ M) in T'. cbn [do_import] in T'.
        destruct (cache_get q (ls_cache st)) as [m0|] eqn:C.
        -- destruct (V _ _ C) as (c' & R' & M'). assert (c' = c) as -> by congruence.
           destruct (IH _ _ F V T') as (r & MR & RR). rewrite (shape_import _ (File x m0)) in RR.
           rewrite (step_import _ _ _ _ _ _ _ M). cbn [do_import]. rewrite C.
           assert (MI : item_means root p (Good (I_import (M_file x (shape m0))))) by (eapply IT_file; eassumption).
           destruct r as [t|e|].
           ++ eexists. split; [eapply ITM_more; eassumption|]. destruct RR as (m2 & st2 & E2 & SH2 & V2).
              exists m2, st2. split; [exact E2|]. split; [|exact V2]. rewrite SH2. apply tree_app_one.
           ++ exists (Failed e). split; [eapply ITM_later; [eassumption|eassumption|discriminate]|exact RR].
           ++ exists Crash. split; [eapply ITM_later; [eassumption|eassumption|discriminate]|exact RR].
        -- rewrite R in T'. destruct (IHF q c (mkLState (ls_cache st) (ls_reads st ++ [q])) (nice q c R) V) as (r & MR & RR).
           { intro Q. rewrite Q in T'. apply T'. reflexivity. }
           rewrite (step_import _ _ _ _ _ _ _ M). cbn [do_import]. rewrite C, R.
           destruct r as [t|e|].
           ++ destruct RR as (m1 & st1 & E1 & SH1 & V1). rewrite E1 in *. cbn [obind] in T' |- *.
              assert (SH' : shape m1 = t) by (rewrite SH1; destruct t; reflexivity).
              assert (MI : item_means root p (Good (I_import (M_file x (shape m1))))) by (eapply IT_file; [eassumption|eassumption|rewrite SH'; exact MR]).
              assert (V2 : valid (mkLState ((q, m1) :: ls_cache st1) (ls_reads st1))).
              { eapply valid_add; [exact V1|exact R|]. rewrite SH'. exact MR. }
              destruct (IH _ _ F V2 T') as (r & MR' & RR'). rewrite (shape_import _ (File x m1)), shape_deps, shape_dep in RR'.
              destruct r as [t'|e|].
              ** eexists. split; [eapply ITM_more; eassumption|]. destruct RR' as (m2 & st2 & E2 & SH2 & V3).
                 exists m2, st2. split; [exact E2|]. split; [|exact V3]. rewrite SH2. apply tree_app_one.
              ** exists (Failed e). split; [eapply ITM_later; [eassumption|eassumption|discriminate]|exact RR'].
              ** exists Crash. split; [eapply ITM_later; [eassumption|eassumption|discriminate]|exact RR'].
           ++ cbn [is_result] in RR. rewrite RR. exists Crash. split; [|reflexivity]. apply ITM_fatal. eapply IT_nested; [eassumption|eassumption|exact MR|discriminate].
           ++ cbn [is_result] in RR. rewrite RR. exists Crash. split; [|reflexivity]. apply ITM_fatal. eapply IT_nested; [eassumption|eassumption|exact MR|discriminate].
      * eapply STEP; [eapply IT_misread; eassumption|eapply item_step_misread; eassumption].
      * eapply STEP; [eapply IT_nowhere; eassumption|eapply item_step_nowhere; eassumption].
    + eapply STEP; [eapply IT_doc; eassumption|eapply item_step_doc; eassumption].
    + eapply STEP; [eapply IT_eoi; eassumption|eapply item_step_eoi; eassumption].
Qed.
Lemma sound : forall k root input st, syn_file input -> valid st -> load_fuel k input root st <> OutOfFuel ->
  exists r, file_means root input r /\ is_result (load_fuel k input root st) none r.
Proof.
  induction k as [|k IH]; intros root input st S V T; cbn [Model_Import.load_fuel] in *; [contradiction|].
  destruct (parse_file input) as [pairs|e] eqn:E.
  - destruct (sound_items k IH root pairs empty_module st (S _ E) V T) as (r & MR & RR). exists r. split; [eapply FM_items; eassumption|exact RR].
  - exists (Failed (SyntaxError e)). split; [constructor; exact E|reflexivity].
Qed.
Lemma sound_loaded : forall k root input st m st', syn_file input -> valid st -> load_fuel k input root st = Ret (inl (m, st')) ->
  file_means root input (Loaded (shape m)) /\ valid st'.
Proof.
  intros k root input st m st' S V E. destruct (sound k root input st S V) as (r & M & R); [rewrite E; discriminate|].
  rewrite E in R. destruct r as [t|e|]; cbn [is_result] in R; [|discriminate|discriminate].
  destruct R as (m' & s' & Q & SH & V'). injection Q as <- <-. split; [|exact V']. rewrite SH. destruct t; exact M.
Qed.

(** * A file that is loaded successfully does not import itself. *)
Fixpoint tsize (t : mtree) : nat :=
  let 'MTree _ _ imports := t in
  S (fold_right (fun i n => match i with M_builtin _ _ => n | M_file _ u => tsize u + n end) 0 imports).
Lemma add_item_size : forall i t, tsize t <= tsize (add_item i t).
Proof. intros i [r d im]. destruct i as [r'|d'|[a n|a u]|]; cbn [add_item tsize fold_right]; lia. Qed.
Lemma declared_smaller : forall root input t q, file_means root input (Loaded t) -> declares root input q ->
  exists c u, read_file q = inl c /\ file_means q c (Loaded u) /\ tsize u < tsize t.
Proof.
  intros root input t q M (pairs & p & x & a & b & E & IN & I).
  inversion M as [|? ? pairs' ? E' MI]; subst. rewrite E in E'. injection E' as <-. clear M E.
  revert t MI. induction pairs as [|p' l IH]; intros t MI; [destruct IN|].
  inversion MI as [|? ? i ? u MP ML|? ? ? ? ? ? ? N|? ? ? ? ?|? ? ? ?]; subst; [|exfalso; eapply N; reflexivity].
  destruct IN as [->|IN].
  - inversion MP; subst; kinds; try congruence; same_import; try congruence.
    match goal with H : Refers _ _ _ _ = Refers _ _ _ _ |- _ => injection H as <- <- <- <- end.
    eexists _, _. split; [eassumption|]. split; [eassumption|]. destruct u as [r d im]. cbn [add_item tsize fold_right]. lia.
  - destruct (IH IN u ML) as (c & v & R & MV & L). exists c, v. split; [exact R|]. split; [exact MV|]. pose proof (add_item_size i u). lia.
Qed.
Lemma reached_smaller : forall root input q, reaches root input q -> forall t, file_means root input (Loaded t) ->
  exists c u, read_file q = inl c /\ file_means q c (Loaded u) /\ tsize u < tsize t.
Proof.
  induction 1 as [root input q D|root input q c q' D R RC IH]; intros t M; [apply (declared_smaller root input); assumption|].
  destruct (declared_smaller _ _ _ _ M D) as (c' & u & R' & MU & L). assert (c' = c) as -> by congruence.
  destruct (IH u MU) as (c'' & v & R'' & MV & L'). exists c'', v. split; [exact R''|]. split; [exact MV|lia].
Qed.
Lemma not_cyclic : forall q c t, read_file q = inl c -> file_means q c (Loaded t) -> ~ reaches q c q.
Proof.
  intros q c t R M RC. destruct (reached_smaller _ _ _ RC t M) as (c' & u & R' & MU & L). assert (c' = c) as -> by congruence.
  pose proof (file_means_det _ _ _ _ M MU) as Q. injection Q as <-. lia.
Qed.

(** * The files that are read. *)
Lemma set_insert_in : forall x p l, In x (set_insert p l) <-> x = p \/ In x l.
Proof.
  intros x p l. unfold set_insert. destruct (existsb (path_eqb p) l) eqn:E.
  - apply existsb_exists in E. destruct E as (y & IN & Q). destruct (path_eqb_spec p y) as [->|]; [|discriminate]. split; [auto|]. intros [->|H]; assumption.
  - rewrite in_app_iff. cbn [In]. split; [intros [H|[->|[]]]; auto|intros [->|H]; auto].
Qed.
Lemma set_extend_in : forall x l' l, In x (set_extend l l') <-> In x l \/ In x l'.
Proof.
  intros x l'. unfold set_extend. induction l' as [|p l' IH]; intro l; cbn [fold_left In]; [tauto|].
  rewrite IH, set_insert_in. split; [intros [[->|H]|H]; auto|intros [H|[<-|H]]; auto].
Qed.
Definition cached (st : lstate) (q : path) : Prop := exists m, cache_get q (ls_cache st) = Some m.
Lemma cached_dec : forall st q, cached st q \/ ~ cached st q.
Proof. intros st q. unfold cached. destruct (cache_get q (ls_cache st)) as [m|]; [left; exists m; reflexivity|right; intros (m & E); discriminate]. Qed.
Lemma cached_add : forall c r q m x, cached (mkLState ((q, m) :: c) r) x <-> x = q \/ exists m', cache_get x c = Some m'.
Proof.
  intros c r q m x. unfold cached. cbn [ls_cache]. rewrite cache_get_cons. destruct (path_eqb_spec x q) as [->|N].
  - split; [left; reflexivity|]. intros _. exists m. reflexivity.
  - split; [right; assumption|]. intros [->|H]; [contradiction|exact H].
Qed.
(** [pending] are the files being loaded. *)
Record inv (pending : list path) (st : lstate) : Prop := {
  inv_valid : valid st;
  inv_nodup : NoDup (ls_reads st);
  inv_reads : forall x, In x (ls_reads st) <-> cached st x \/ In x pending;
  inv_closed : forall q c x, cached st q -> read_file q = inl c -> reaches q c x -> cached st x }.
Definition traced (pending : list path) (st st' : lstate) (from : path -> Prop) (m m' : gmodule) : Prop :=
  inv pending st' /\
  exists new, ls_reads st' = ls_reads st ++ new /\
    (forall x, In x (g_deps m') <-> In x (g_deps m) \/ In x new) /\
    (forall x, In x new -> from x) /\
    (forall x, cached st' x <-> cached st x \/ In x new).
Lemma traced_items : forall k,
  (forall pending root input st m st', syn_file input -> inv pending st -> (forall x, In x pending -> ~ reaches root input x) ->
     load_fuel k input root st = Ret (inl (m, st')) ->
     traced pending st st' (reaches root input) empty_module m /\ (forall x, reaches root input x -> cached st' x)) ->
  forall pending root input all l m st m' st', parse_file input = inl all -> incl l all -> Forall syn_item l ->
  inv pending st -> (forall x, In x pending -> ~ reaches root input x) ->
  load_items (load_fuel k) root l m st = Ret (inl (m', st')) ->
  traced pending st st' (reaches root input) m m' /\
  (forall p x q a b, In p l -> import_means root p (Refers x (To_file q) a b) -> cached st' q).
Proof.
  intros k IHF pending root input all l. induction l as [|p l IH]; intros m st m' st' PF IL F V P E.
  - cbn [Model_Import.load_items] in E. injection E as <- <-. split; [|intros p x q a b []]. split; [exact V|]. exists [].
    rewrite app_nil_r. split; [reflexivity|]. cbn [In]. split; [tauto|]. split; [tauto|tauto].
  - pose proof (Forall_inv F) as SP. apply Forall_inv_tail in F.
    assert (INP : In p all) by (apply IL; left; reflexivity).
    assert (IL' : incl l all) by (intros z Z; apply IL; right; exact Z).
    (* an item without an imported file *)
    assert (PLAIN : forall m1, g_deps m1 = g_deps m -> load_items (load_fuel k) root l m1 st = Ret (inl (m', st')) ->
      (forall x q a b, ~ import_means root p (Refers x (To_file q) a b)) ->
      traced pending st st' (reaches root input) m m' /\
      (forall p' x q a b, In p' (p :: l) -> import_means root p' (Refers x (To_file q) a b) -> cached st' q)).
    { intros m1 GD E1 NI. destruct (IH m1 st m' st' PF IL' F V P E1) as ((V' & new & RN & DN & FN & CN) & CI). split.
      - split; [exact V'|]. exists new. split; [exact RN|]. split; [intro x; rewrite DN, GD; tauto|]. split; [exact FN|exact CN].
      - intros p' x q a b [<-|IN] IM; [exfalso; exact (NI _ _ _ _ IM)|eapply CI; eassumption]. }
    destruct SP as [p ds name ns silent e R S TM|p names file alias a b S|p d D|p EO].
    + rewrite (step_rule _ _ _ _ _ _ (rule_syntax_rule _ _ _ _ _ _ R)) in E.
      destruct (parse_grammar_rule (path_text root) p) as [[r|e']| |]; cbn [pbind obind] in E; try discriminate.
      eapply PLAIN; [|exact E|]; [reflexivity|]. intros x q a b IM. kinds. congruence.
    + destruct (import_total root _ _ _ _ _ _ S) as (x & M). rewrite (step_import _ _ _ _ _ _ _ M) in E. destruct x as [x [names'|q] a' b'|e|]; cbn [do_import] in E; try discriminate.
      * eapply PLAIN; [|exact E|]; [reflexivity|]. intros x' q a'' b'' IM. same_import. discriminate.
      * assert (DQ : declares root input q) by (exists all, p, x, a', b'; auto).
        destruct (cache_get q (ls_cache st)) as [m0|] eqn:C.
        -- destruct (IH _ st m' st' PF IL' F V P E) as ((V' & new & RN & DN & FN & CN) & CI). split.
           ++ split; [exact V'|]. exists new. split; [exact RN|]. split; [intro y; rewrite DN; reflexivity|]. split; [exact FN|exact CN].
           ++ intros p' x' q' a'' b'' [<-|IN] IM; [|eapply CI; eassumption]. same_import. match goal with H : Refers _ _ _ _ = _ |- _ => injection H as <- <- <- <- end.
              apply CN. left. exists m0. exact C.
        -- destruct (read_file q) as [c|e] eqn:R; [|discriminate].
           destruct (load_fuel k c q (mkLState (ls_cache st) (ls_reads st ++ [q]))) as [[(m1, st1)|e]| |] eqn:E1; cbn [obind] in E; try discriminate.
           destruct (sound_loaded k q c (mkLState (ls_cache st) (ls_reads st ++ [q])) m1 st1 (nice q c R) (inv_valid _ _ V) E1) as (M1 & V1).
           assert (NQ : ~ In q (ls_reads st)).
           { intro IN. apply (inv_reads _ _ V) in IN. destruct IN as [(m2 & C2)|IN]; [congruence|]. apply (P q IN). apply Reach_direct, DQ. }
           assert (I0 : inv (q :: pending) (mkLState (ls_cache st) (ls_reads st ++ [q]))).
           { constructor.
             - exact (inv_valid _ _ V).
             - cbn [ls_reads]. apply NoDup_app_remove_l || idtac. rewrite <- (rev_involutive (ls_reads st ++ [q])). apply NoDup_rev. rewrite rev_unit.
               constructor; [rewrite <- in_rev; exact NQ|apply NoDup_rev, (inv_nodup _ _ V)].
             - intro y. cbn [ls_reads In]. rewrite in_app_iff. cbn [In]. rewrite (inv_reads _ _ V y). unfold cached. cbn [ls_cache]. tauto.
             - exact (inv_closed _ _ V). }
           assert (P0 : forall y, In y (q :: pending) -> ~ reaches q c y).
           { intros y [<-|IN] RY; [exact (not_cyclic q c _ R M1 RY)|]. apply (P y IN). eapply Reach_more; eassumption. }
           destruct (IHF (q :: pending) q c _ m1 st1 (nice q c R) I0 P0 E1) as ((I1 & new1 & RN1 & DN1 & FN1 & CN1) & RC1).
           set (st2 := mkLState ((q, m1) :: ls_cache st1) (ls_reads st1)) in *.
           assert (I2 : inv pending st2).
           { constructor.
             - eapply valid_add; [exact V1|exact R|exact M1].
             - exact (inv_nodup _ _ I1).
             - intro y. change (ls_reads st2) with (ls_reads st1). rewrite (inv_reads _ _ I1 y). unfold st2. rewrite cached_add. unfold cached. cbn [In].
               split; [intros [H|[->|H]]; auto|intros [[->|H]|H]; auto].
             - intros y c' z CY RY RZ. unfold st2 in CY |- *. rewrite cached_add in CY |- *. right.
               destruct CY as [->|CY]; [assert (c' = c) as -> by congruence; exact (RC1 z RZ)|exact (inv_closed _ _ I1 y c' z CY RY RZ)]. }
           destruct (IH _ st2 m' st' PF IL' F I2 P E) as ((V' & new & RN & DN & FN & CN) & CI). split.
           ++ split; [exact V'|]. exists (q :: new1 ++ new). split; [|split; [|split]].
              ** rewrite RN. change (ls_reads st2) with (ls_reads st1). rewrite RN1. cbn [ls_reads]. rewrite <- !app_assoc. reflexivity.
              ** intro y. rewrite DN. cbn [add_import add_deps add_dep g_deps]. rewrite set_extend_in, set_insert_in. rewrite (DN1 y). cbn [empty_module g_deps In].
                 rewrite in_app_iff. split; [intros [[[->|H]|[[]|H]]|H]; auto|intros [H|[->|[H|H]]]; auto].
              ** intros y IN. cbn [In] in IN. rewrite in_app_iff in IN. destruct IN as [<-|[IN|IN]]; [apply Reach_direct, DQ| |apply FN, IN].
                 eapply Reach_more; [exact DQ|exact R|]. apply FN1, IN.
              ** intro y. rewrite CN. unfold st2 at 1. rewrite cached_add. change (exists m2, cache_get y (ls_cache st1) = Some m2) with (cached st1 y).
                 rewrite (CN1 y). change (cached (mkLState (ls_cache st) (ls_reads st ++ [q])) y) with (cached st y). cbn [In]. rewrite in_app_iff.
                 split; [intros [[->|[H|H]]|H]; auto|intros [H|[<-|[H|H]]]; auto].
           ++ intros p' x' q' a'' b'' [<-|IN] IM; [|eapply CI; eassumption]. same_import. match goal with H : Refers _ _ _ _ = _ |- _ => injection H as <- <- <- <- end.
              apply CN. left. unfold st2. apply cached_add. left. reflexivity.
    + rewrite (step_doc _ _ _ _ _ _ (doc_rule _ _ _ _ D)) in E. rewrite (grammar_doc_read _ _ D) in E.
      eapply PLAIN; [|exact E|]; [reflexivity|]. intros x q a b IM. kinds. congruence.
    + rewrite (step_eoi _ _ _ _ _ _ EO) in E. eapply PLAIN; [|exact E|]; [reflexivity|]. intros x q a b IM. kinds. congruence.
Qed.
Lemma traced_file : forall k pending root input st m st', syn_file input -> inv pending st -> (forall x, In x pending -> ~ reaches root input x) ->
  load_fuel k input root st = Ret (inl (m, st')) ->
  traced pending st st' (reaches root input) empty_module m /\ (forall x, reaches root input x -> cached st' x).
Proof.
  induction k as [|k IH]; intros pending root input st m st' S V P E; cbn [Model_Import.load_fuel] in E; [discriminate|].
  destruct (parse_file input) as [pairs|e] eqn:PF; [|discriminate].
  destruct (traced_items k IH pending root input pairs pairs empty_module st m st' PF (incl_refl _) (S _ PF) V P E) as (T & CI).
  split; [exact T|]. destruct T as (V' & _).
  assert (D : forall q, declares root input q -> cached st' q).
  { intros q (pairs' & p & x & a & b & PF' & IN & IM). rewrite PF in PF'. injection PF' as <-. eapply CI; eassumption. }
  intros x RX. inversion RX as [? ? ? DX|? ? q c ? DQ RQ RC]; subst; [apply D, DX|]. exact (inv_closed _ _ V' q c x (D q DQ) RQ RC).
Qed.
Lemma inv_start : inv [] (mkLState [] []).
Proof.
  constructor; cbn [ls_reads ls_cache]; [intros q m H; discriminate|constructor| |].
  - intro x. unfold cached. cbn. split; [intros []|intros [(m & E)|[]]; discriminate].
  - intros q c x (m & E). discriminate.
Qed.
Theorem load_reads : forall k root input m reads, syn_file input ->
  load_file parse_file read_file path_text debug_path k input root = Ret (inl (m, reads)) ->
  NoDup reads /\ (forall q, In q reads <-> reaches root input q) /\ (forall q, In q (g_deps m) <-> reaches root input q).
Proof.
  intros k root input m reads S E. unfold load_file in E.
  destruct (load_fuel k input root (mkLState [] [])) as [[(m', st')|e]| |] eqn:L; cbn [pbind obind] in E; try discriminate.
  injection E as <- <-.
  destruct (traced_file k [] root input (mkLState [] []) m' st' S inv_start ltac:(intros x []) L) as ((V & new & RN & DN & FN & CN) & RC).
  cbn [ls_reads app] in RN. subst new. split; [exact (inv_nodup _ _ V)|].
  assert (A : forall q, In q (ls_reads st') <-> reaches root input q).
  { intro q. split; [apply FN|]. intro R. apply RC in R. apply CN in R. destruct R as [(x & R)|R]; [discriminate|exact R]. }
  split; [exact A|]. intro q. rewrite DN. cbn [empty_module g_deps In]. rewrite <- A. tauto.
Qed.
Definition outcome_of (r : load_result) (o : presult (gmodule * list path)) : Prop :=
  match r with
  | Loaded t => exists m reads, o = Ret (inl (m, reads)) /\ shape m = t
  | Failed e => o = Ret (inr e)
  | Crash => o = Panic
  end.
Lemma is_outcome : forall r k root input, is_result (load_fuel k input root (mkLState [] [])) none r ->
  outcome_of r (load_file parse_file read_file path_text debug_path k input root).
Proof.
  intros r k root input R. unfold load_file. destruct r as [t|e|]; cbn [is_result outcome_of] in *.
  - destruct R as (m & st & -> & SH & _). exists m, (ls_reads st). split; [reflexivity|]. rewrite SH. destruct t; reflexivity.
  - rewrite R. reflexivity.
  - rewrite R. reflexivity.
Qed.
Lemma valid_start : valid (mkLState [] []).
Proof. intros q m H. discriminate. Qed.
Theorem load_complete : forall root input r, file_means root input r ->
  exists k0, forall k, k0 <= k -> outcome_of r (load_file parse_file read_file path_text debug_path k input root).
Proof.
  intros root input r M. destruct (proj1 complete _ _ _ M) as (k0 & H). exists k0. intros k L. apply is_outcome, H; [exact L|exact valid_start].
Qed.
Theorem load_sound : forall k root input, syn_file input ->
  load_file parse_file read_file path_text debug_path k input root <> OutOfFuel ->
  exists r, file_means root input r /\ outcome_of r (load_file parse_file read_file path_text debug_path k input root).
Proof.
  intros k root input S T. destruct (sound k root input (mkLState [] []) S valid_start) as (r & M & R).
  { intro Q. apply T. unfold load_file. rewrite Q. reflexivity. }
  exists r. split; [exact M|apply is_outcome, R].
Qed.
(** Without cyclic imports, everything has a meaning. *)
Definition imports_file (q' q : path) : Prop := exists c, read_file q = inl c /\ declares q c q'.
Lemma means_step : forall root input, syn_file input ->
  (forall q c, declares root input q -> read_file q = inl c -> exists r, file_means q c r) -> exists r, file_means root input r.
Proof.
  intros root input S IH.
  destruct (parse_file input) as [pairs|e] eqn:PF; [|eexists; apply FM_syntax, PF].
  assert (IT : Forall (fun p => exists i, item_means root p i) pairs).
  { apply Forall_forall. intros p IN. pose proof (proj1 (Forall_forall _ _) (S _ PF) p IN) as SP.
    destruct SP as [p ds name ns silent e R SY TM|p names file alias a b SY|p d D|p EO].
    - destruct (parse_node_total (at_pair (path_text root) p) e SY TM) as ([n|f] & E).
      + apply parse_node_iff in E; [|assumption|assumption]. eexists. eapply IT_rule; eassumption.
      + apply parse_node_fault in E; [|assumption|assumption]. eexists. eapply IT_fault; eassumption.
    - destruct (import_total root _ _ _ _ _ _ SY) as ([x [names'|q] a' b'|e|] & M).
      + eexists. eapply IT_builtin; eassumption.
      + destruct (read_file q) as [c|e] eqn:R; [|eexists; eapply IT_unreadable; eassumption].
        destruct (IH q c) as ([t|e|] & MQ); [|exact R| | |].
        * exists pairs, p, x, a', b'. auto.
        * eexists. eapply IT_file; eassumption.
        * eexists. eapply IT_nested; [eassumption|eassumption|eassumption|discriminate].
        * eexists. eapply IT_nested; [eassumption|eassumption|eassumption|discriminate].
      + eexists. eapply IT_misread; eassumption.
      + eexists. eapply IT_nowhere; eassumption.
    - eexists. eapply IT_doc; eassumption.
    - eexists. eapply IT_eoi; eassumption. }
  assert (IS : exists r, items_mean root pairs r).
  { clear PF S. induction pairs as [|p l IHL]; [eexists; constructor|]. pose proof (Forall_inv IT) as ([i|e|] & MI).
    - destruct (IHL (Forall_inv_tail IT)) as ([t|e|] & ML); eexists.
      + eapply ITM_more; eassumption.
      + eapply ITM_later; [eassumption|eassumption|discriminate].
      + eapply ITM_later; [eassumption|eassumption|discriminate].
    - eexists. apply ITM_bad, MI.
    - eexists. apply ITM_fatal, MI. }
  destruct IS as (r & MI). exists r. eapply FM_items; eassumption.
Qed.
Lemma acc_means : forall q, Acc imports_file q -> forall c, read_file q = inl c -> exists r, file_means q c r.
Proof.
  induction 1 as [q _ IH]. intros c R. apply means_step; [exact (nice q c R)|]. intros q' c' D R'. apply (IH q'); [exists c; auto|exact R'].
Qed.
Lemma reaches_snoc : forall root input q, reaches root input q -> forall c q', read_file q = inl c -> declares q c q' -> reaches root input q'.
Proof.
  induction 1 as [root input q D|root input q c q' D R RC IH]; intros c' q'' R' D'.
  - eapply Reach_more; [exact D|exact R'|]. apply Reach_direct, D'.
  - eapply Reach_more; [exact D|exact R|]. eapply IH; eassumption.
Qed.
Lemma finite_acc : forall root input files,
  (forall q c, reaches root input q -> read_file q = inl c -> In q files) ->
  (forall q c, reaches root input q -> read_file q = inl c -> ~ reaches q c q) ->
  forall n visited q, NoDup visited -> incl visited files -> length files <= length visited + n ->
  reaches root input q -> (forall v, In v visited -> exists c, read_file v = inl c /\ reaches v c q) -> Acc imports_file q.
Proof.
  intros root input files FIN CYC. induction n as [|n IH]; intros visited q ND INC L RQ VR; constructor; intros q' (c & R & D).
  - exfalso. assert (NV : ~ In q visited).
    { intro IN. destruct (VR q IN) as (c' & R' & RC). exact (CYC q c' RQ R' RC). }
    assert (LE : length (q :: visited) <= length files).
    { apply NoDup_incl_length; [constructor; assumption|]. intros y [<-|IN]; [apply (FIN q c RQ R)|apply INC, IN]. }
    cbn [length] in LE. lia.
  - assert (NV : ~ In q visited).
    { intro IN. destruct (VR q IN) as (c' & R' & RC). exact (CYC q c' RQ R' RC). }
    apply (IH (q :: visited)).
    + constructor; assumption.
    + intros y [<-|IN]; [apply (FIN q c RQ R)|apply INC, IN].
    + cbn [length]. lia.
    + eapply reaches_snoc; eassumption.
    + intros v [<-|IN]; [exists c; split; [exact R|apply Reach_direct, D]|]. destruct (VR v IN) as (c' & R' & RC).
      exists c'. split; [exact R'|]. eapply reaches_snoc; eassumption.
Qed.
Theorem load_terminates : forall root input files, syn_file input ->
  (forall q c, reaches root input q -> read_file q = inl c -> In q files) ->
  (forall q c, reaches root input q -> read_file q = inl c -> ~ reaches q c q) ->
  exists k0, forall k, k0 <= k -> load_file parse_file read_file path_text debug_path k input root <> OutOfFuel.
Proof.
  intros root input files S FIN CYC. destruct (means_step root input S) as (r & M).
  - intros q c D R. apply acc_means; [|exact R].
    apply (finite_acc root input files FIN CYC (length files) [] q); [constructor|intros y []|cbn [length]; lia|apply Reach_direct, D|intros v []].
  - destruct (load_complete root input r M) as (k0 & H). exists k0. intros k L. specialize (H k L).
    destruct r as [t|e|]; cbn [outcome_of] in H; [destruct H as (m & reads & -> & _)|rewrite H|rewrite H]; discriminate.
Qed.
End Files.
