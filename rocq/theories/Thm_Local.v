(** C81: what a rule matches depends only on the rules that it refers to, directly or not (generator/src/typed/generator.rs, module.rs). *)
From Coq Require Import String List NArith ZArith Arith Bool Lia Permutation.
From Verif Require Import Model_Text Model_Message Model_Meta Model_Import Model_Position Model_Span Model_Stack Model_Tracker Model_Node
  Model_Generator Model_Output Model_Inline
  Spec_Text Spec_Peg Spec_Run Spec_Yield Spec_Rust Spec_Grammar_Peg Spec_Occur Spec_Generator Spec_Inline Spec_Local
  Proof_Text Proof_Peg Proof_Yield Proof_Run Proof_Entry Proof_Local Proof_Read Proof_Exists Example_Generator Example_Fine Example_Inline Thm_Names Thm_Generated Thm_Inline Thm_Moved.
Import ListNotations.
Open Scope list_scope.

(** Two grammars that agree on some names, and the rules of which with these names refer to such names only, give the same meaning to what
    refers to such names only. *)
Theorem C81_meaning : forall unicode property P g g', agree P g g' -> closed_under P g ->
  (forall r, In r (g_rules g) -> is_trivia_rule r -> pr_args r = []) ->
  forall e pre post K res, refers P [] e ->
  gpeg unicode property g [] e pre post K res <-> gpeg unicode property g' [] e pre post K res.
Proof.
  intros unicode property P g g' A C T e pre post K res R.
  assert (A' : agree P g' g).
  { destruct A as (A & B & D). split; [|split]; intros; symmetry; eauto. }
  assert (C' : closed_under P g').
  { intros r I Pr. apply C; [|exact Pr]. apply (proj1 A r Pr). exact I. }
  assert (T' : forall r, In r (g_rules g') -> P (pr_name r) -> is_trivia_rule r -> pr_args r = []).
  { intros r I Pr Q. apply T; [|exact Q]. apply (proj1 A r Pr). exact I. }
  split; intro H.
  - apply (proj1 (same_meaning unicode property P g g' A C (fun r I _ => T r I)) _ _ _ _ _ _ _ H); [right; split; [|split]; [reflexivity|reflexivity|exact R]|constructor].
  - apply (proj1 (same_meaning unicode property P g' g A' C' T') _ _ _ _ _ _ _ H); [right; split; [|split]; [reflexivity|reflexivity|exact R]|constructor].
Qed.
Print Assumptions C81_meaning.

(** The program that is generated for [g]: its types are in the module [tm], [id] are the numbers of the structs, [env] is what they are. *)
Definition generated (unicode : list text) (g : gmodule) (tm : text) (id : list text -> text -> rule) (env : rule -> rule_def) : Prop :=
  exists config fuel items,
    generate_typed config fuel unicode g = Ret items /\ tm = types_mod (rules_mod config) /\
    complete unicode g /\ tidy unicode g /\ plain_trivia g /\ fine unicode g /\ fine_types_mod tm g /\ distinct_properties unicode /\
    reads_rules items unicode id env.

(** Results that differ at most in the trees. *)
Definition alike (o o' : option (nat * value * list span)) : Prop :=
  match o, o' with
  | None, None => True
  | Some (p, _, K), Some (p', _, K') => p = p' /\ exists Ks, Forall2 span_text K Ks /\ Forall2 span_text K' Ks
  | _, _ => False
  end.

Lemma generated_says : forall unicode g tm id env, generated unicode g tm id env ->
  forall property r, In r (g_rules g) -> ~ is_trivia_rule r -> pr_args r = [] ->
  forall addr s pre post K Ks, s = pre ++ post -> Forall2 span_text K Ks ->
  forall o, yields addr s env property (Rule (id [tm] (pr_name r)) []) (blen pre) K o ->
  match o with
  | Some (p, v, K') => exists x post' Ks', post = x ++ post' /\ p = blen (pre ++ x) /\ Forall2 span_text K' Ks' /\
      gpeg unicode property g [] (n_expr (pr_node r)) pre post Ks (Ok (pre ++ x) post' Ks')
  | None => gpeg unicode property g [] (n_expr (pr_node r)) pre post Ks Fail
  end.
Proof.
  intros unicode g tm id env (config & fuel & items & G & -> & C & T & Pt & F & Ty & D & R) property r I Nt A addr s pre post K Ks Es Fk o Y.
  destruct (C40_parser config fuel unicode g items G C T Pt F Ty D id env R property _ g r (Loc_top _ _) I Nt A addr s pre post K Ks Es Fk) as (S1 & S2 & _).
  destruct (Y [] (tracker_new 0)) as (k & Yk). destruct (Yk k (le_n k)) as (V & _). unfold Spec_Yield.visible in V.
  destruct (try_parse _ _ _ _ _ _ _ _) as [([(p, v)|], st)| |] eqn:E; try discriminate V; injection V as <-.
  - destruct (S1 _ _ _ _ _ _ E) as (x & post' & Ks' & H). exists x, post', Ks'. exact H.
  - exact (S2 _ _ _ _ E).
Qed.
Lemma says_generated : forall unicode g tm id env, generated unicode g tm id env ->
  forall property r, In r (g_rules g) -> ~ is_trivia_rule r -> pr_args r = [] ->
  forall addr s pre post K Ks, s = pre ++ post -> Forall2 span_text K Ks ->
  (forall x post' Ks', gpeg unicode property g [] (n_expr (pr_node r)) pre post Ks (Ok (pre ++ x) post' Ks') ->
     exists v K', Forall2 span_text K' Ks' /\ yields addr s env property (Rule (id [tm] (pr_name r)) []) (blen pre) K (Some (blen (pre ++ x), v, K'))) /\
  (gpeg unicode property g [] (n_expr (pr_node r)) pre post Ks Fail -> yields addr s env property (Rule (id [tm] (pr_name r)) []) (blen pre) K None).
Proof.
  intros unicode g tm id env (config & fuel & items & G & -> & C & T & Pt & F & Ty & D & R) property r I Nt A addr s pre post K Ks Es Fk.
  destruct (C40_parser config fuel unicode g items G C T Pt F Ty D id env R property _ g r (Loc_top _ _) I Nt A addr s pre post K Ks Es Fk) as (_ & _ & S).
  exact S.
Qed.

(** The parsers of a rule in both programs do the same on every text, with every stack. *)
Theorem C81_parser : forall unicode P g g' tm tm' id id' env env',
  generated unicode g tm id env -> generated unicode g' tm' id' env' -> agree P g g' -> closed_under P g ->
  forall property r, In r (g_rules g) -> P (pr_name r) -> ~ is_trivia_rule r -> pr_args r = [] ->
  forall addr s pre post K Ks, s = pre ++ post -> Forall2 span_text K Ks ->
  let parser := Rule (id [tm] (pr_name r)) [] in
  let parser' := Rule (id' [tm'] (pr_name r)) [] in
  (forall o, yields addr s env property parser (blen pre) K o -> exists o', yields addr s env' property parser' (blen pre) K o' /\ alike o o') /\
  (forall o', yields addr s env' property parser' (blen pre) K o' -> exists o, yields addr s env property parser (blen pre) K o /\ alike o o').
Proof.
  intros unicode P g g' tm tm' id id' env env' G G' A C property r I Pr Nt Na addr s pre post K Ks Es Fk parser parser'.
  assert (I' : In r (g_rules g')) by (apply (proj1 A r Pr); exact I).
  assert (M : forall res, gpeg unicode property g [] (n_expr (pr_node r)) pre post Ks res <-> gpeg unicode property g' [] (n_expr (pr_node r)) pre post Ks res).
  { intro res. eapply C81_meaning; [exact A|exact C| |rewrite <- Na; apply C; assumption].
    destruct G as (config & fuel & items & _ & _ & _ & _ & _ & F & _). inversion F; subst. assumption. }
  destruct (says_generated _ _ _ _ _ G property r I Nt Na addr s pre post K Ks Es Fk) as (B1 & B2).
  destruct (says_generated _ _ _ _ _ G' property r I' Nt Na addr s pre post K Ks Es Fk) as (B1' & B2').
  split; intros o Y.
  - assert (S := generated_says _ _ _ _ _ G property r I Nt Na addr s pre post K Ks Es Fk o Y). destruct o as [((p, v), K1)|].
    + destruct S as (x & post' & Ks' & E & -> & F1 & S). apply M in S. destruct (B1' _ _ _ S) as (v' & K' & F2 & Y').
      eexists. split; [exact Y'|]. split; [reflexivity|]. exists Ks'. split; assumption.
    + exists None. split; [|constructor]. apply B2', M, S.
  - assert (S := generated_says _ _ _ _ _ G' property r I' Nt Na addr s pre post K Ks Es Fk o Y). destruct o as [((p, v), K1)|].
    + destruct S as (x & post' & Ks' & E & -> & F1 & S). apply M in S. destruct (B1 _ _ _ S) as (v' & K' & F2 & Y').
      eexists. split; [exact Y'|]. split; [reflexivity|]. exists Ks'. split; assumption.
    + exists None. split; [|constructor]. apply B2, M, S.
Qed.
Print Assumptions C81_parser.

Lemma accepts_yields : forall addr s env property n,
  (exists k v, text_try_parse addr s env property k n = Ret (inl v)) <-> exists v K, yields addr s env property n 0 [] (Some (blen s, v, K)).
Proof.
  intros addr s env property n. split.
  - intros (k & v & H). apply full_ok in H. unfold text_try_parse_partial, to_result, init_state, stack_new in H.
    destruct (try_parse _ _ _ _ _ _ _ _) as [([(p, w)|], st)| |] eqn:E; try discriminate H. injection H as -> ->.
    exists v, (stk_items (st_stack st)). apply (yields_once addr s env property n [] s [] _ k [] (tracker_new from_start) eq_refl valid_nil).
    unfold Spec_Yield.visible. change (blen []) with from_start. rewrite E. reflexivity.
  - intros (v & K & Y). destruct (Y [] (tracker_new from_start)) as (k & Yk). destruct (Yk k (le_n k)) as (V & _). exists k, v. apply full_ok.
    unfold text_try_parse_partial, to_result, init_state, stack_new. unfold Spec_Yield.visible in V. change 0 with from_start in V at 1.
    destruct (try_parse _ _ _ _ _ _ _ _) as [([(p, w)|], st)| |] eqn:E; try discriminate V. injection V as -> -> _. reflexivity.
Qed.
(** They accept the same texts. *)
Theorem C81_accepts : forall unicode P g g' tm tm' id id' env env',
  generated unicode g tm id env -> generated unicode g' tm' id' env' -> agree P g g' -> closed_under P g ->
  forall property r, In r (g_rules g) -> P (pr_name r) -> ~ is_trivia_rule r -> pr_args r = [] ->
  forall addr s,
  (exists k v, text_try_parse addr s env property k (Rule (id [tm] (pr_name r)) []) = Ret (inl v)) <->
  (exists k v, text_try_parse addr s env' property k (Rule (id' [tm'] (pr_name r)) []) = Ret (inl v)).
Proof.
  intros unicode P g g' tm tm' id id' env env' G G' A C property r I Pr Nt Na addr s. rewrite !accepts_yields.
  destruct (C81_parser unicode P g g' tm tm' id id' env env' G G' A C property r I Pr Nt Na addr s [] s [] [] eq_refl (Forall2_nil _)) as (F & B).
  split; intros (v & K & Y).
  - destruct (F _ Y) as ([((p, w), K')|] & Y' & Al); [|destruct Al]. destruct Al as (<- & _). eauto.
  - destruct (B _ Y) as ([((p, w), K')|] & Y' & Al); [|destruct Al]. destruct Al as (<- & _). eauto.
Qed.
Print Assumptions C81_accepts.

Definition everything (_ : text) : Prop := True.
Lemma order_agree : forall g g', Permutation (g_rules g) (g_rules g') -> Permutation (g_imports g) (g_imports g') ->
  (forall name r, last_rule g name r <-> last_rule g' name r) -> agree everything g g' /\ closed_under everything g.
Proof.
  intros g g' Pr Pi L. split.
  - split; [|split].
    + intros q _. split; apply Permutation_in; [exact Pr|apply Permutation_sym, Pr].
    + intros t name q _ _. apply L.
    + intros i _. split; apply Permutation_in; [exact Pi|apply Permutation_sym, Pi].
  - intros q _ _. split; [left; exact Logic.I|]. intros; exact Logic.I.
Qed.
(** The order of the rules and of the imports does not matter (only that of several rules for the same trivia does). *)
Theorem C81_order : forall unicode g g' tm tm' id id' env env',
  generated unicode g tm id env -> generated unicode g' tm' id' env' ->
  Permutation (g_rules g) (g_rules g') -> Permutation (g_imports g) (g_imports g') ->
  (forall name r, last_rule g name r <-> last_rule g' name r) ->
  forall property r, In r (g_rules g) -> ~ is_trivia_rule r -> pr_args r = [] ->
  forall addr s,
  (exists k v, text_try_parse addr s env property k (Rule (id [tm] (pr_name r)) []) = Ret (inl v)) <->
  (exists k v, text_try_parse addr s env' property k (Rule (id' [tm'] (pr_name r)) []) = Ret (inl v)).
Proof.
  intros unicode g g' tm tm' id id' env env' G G' Pr Pi L property r I Nt Na addr s. destruct (order_agree g g' Pr Pi L) as (A & C).
  exact (C81_accepts unicode everything g g' tm tm' id id' env env' G G' A C property r I Logic.I Nt Na addr s).
Qed.
Print Assumptions C81_order.

Lemma last_added : forall g deps doc more imports name r, (forall q, In q more -> pr_name q <> name) ->
  last_rule g name r <-> last_rule (mkModule deps (g_rules g ++ more) doc imports) name r.
Proof.
  intros g deps doc more imports name r N. unfold last_rule. cbn [g_rules]. split; intros (a & b & E & En & L).
  - exists a, (b ++ more). split; [rewrite E, <- app_assoc; reflexivity|]. split; [exact En|]. intros q I. apply in_app_or in I. destruct I; auto.
  - apply app_eq_app in E. destruct E as (l & [(E1 & E2)|(E1 & E2)]).
    + destruct l as [|q l]; cbn [app] in E2.
      * destruct (N r); [rewrite <- E2; left; reflexivity|exact En].
      * injection E2 as <- E2. exists a, l. split; [exact E1|]. split; [exact En|]. intros q I. apply L. rewrite E2. apply in_or_app. left. exact I.
    + destruct (N r); [rewrite E2; apply in_or_app; right; left; reflexivity|exact En].
Qed.
(** The names that are not those of [more]. *)
Definition others (more : list parse_rule) (x : text) : Prop := forall q, In q more -> x <> pr_name q.
Lemma added_agree : forall unicode g deps doc more tm' id' env', let g' := mkModule deps (g_rules g ++ more) doc (g_imports g) in
  generated unicode g' tm' id' env' -> (forall q, In q more -> ~ is_trivia_rule q) ->
  (forall q r path args, In q more -> In r (g_rules g) -> ~ part (PPath (pr_name q :: path) args) (n_expr (pr_node r))) ->
  agree (others more) g g' /\ closed_under (others more) g /\ forall r, In r (g_rules g) -> others more (pr_name r).
Proof.
  intros unicode g deps doc more tm' id' env' g' G' Nm M.
  assert (New : forall q q', In q more -> In q' (g_rules g) -> pr_name q' <> pr_name q).
  { destruct G' as (config & fuel & items & _ & _ & C & _). inversion C as [? Nd _ _ _]; subst. cbn [g' g_rules g_imports] in Nd.
    intros q q' Iq Iq' E. apply Proof_Place.nodup_app_r in Nd. rewrite filter_app, map_app in Nd.
    assert (Tq : forall x, pr_name x = pr_name q -> negb (text_eqb (pr_name x) (lit "~") || text_eqb (pr_name x) (lit "^")) = true).
    { intros x Ex. rewrite Ex. apply negb_true_iff, orb_false_iff. specialize (Nm q Iq).
      split; (destruct (text_eqb _ _) eqn:Q; [|reflexivity]); apply text_eqb_eq in Q; destruct Nm; [left|right]; exact Q. }
    eapply (Proof_Place.nodup_app_no _ _ (pr_name q) Nd).
    - rewrite <- E. apply in_map, filter_In. split; [exact Iq'|apply Tq, E].
    - apply in_map, filter_In. split; [exact Iq|apply Tq; reflexivity]. }
  assert (Tn : forall t name q, trivia_name t = Some name -> In q more -> pr_name q <> name).
  { intros t name q E Iq En. apply (Nm q Iq). destruct t; cbn in E; [discriminate| |]; injection E as <-; [left|right]; exact En. }
  split; [|split].
  - split; [|split].
    + intros x Px. cbn [g' g_rules]. rewrite in_app_iff. split; [auto|]. intros [J|J]; [exact J|]. destruct (Px x J eq_refl).
    + intros t name x _ E. apply last_added. intros q Iq. eapply Tn; eassumption.
    + intros i _. reflexivity.
  - intros x Ix _. split.
    + intros y path args Pt. left. intros q Iq ->. exact (M q x path args Iq Ix Pt).
    + intros t name _ E q Iq En. exact (Tn t name q E Iq (eq_sym En)).
  - intros r I q Iq. apply New; assumption.
Qed.
(** Rules can be added to a grammar, if it does not mention their names: what the other rules match does not change. *)
Theorem C81_added : forall unicode g deps doc more tm tm' id id' env env',
  let g' := mkModule deps (g_rules g ++ more) doc (g_imports g) in
  generated unicode g tm id env -> generated unicode g' tm' id' env' ->
  (forall q, In q more -> ~ is_trivia_rule q) ->
  (forall q r path args, In q more -> In r (g_rules g) -> ~ part (PPath (pr_name q :: path) args) (n_expr (pr_node r))) ->
  forall property r, In r (g_rules g) -> ~ is_trivia_rule r -> pr_args r = [] ->
  forall addr s,
  (exists k v, text_try_parse addr s env property k (Rule (id [tm] (pr_name r)) []) = Ret (inl v)) <->
  (exists k v, text_try_parse addr s env' property k (Rule (id' [tm'] (pr_name r)) []) = Ret (inl v)).
Proof.
  intros unicode g deps doc more tm tm' id id' env env' g' G G' Nm M property r I Nt Na addr s.
  destruct (added_agree unicode g deps doc more tm' id' env' G' Nm M) as (A & C & O).
  exact (C81_accepts unicode (others more) g g' tm tm' id id' env env' G G' A C property r I (O r I) Nt Na addr s).
Qed.
Print Assumptions C81_added.

(** The grammars
<<
    ~ = " "
    r = "a" ~ d
    d = '0'..'9'
>>
    and the same with the rule [e = r ~ d]; and with another rule for the trivia, [~ = "."]. *)
Definition small_rules : list parse_rule := [rl "~" [] (str " "); rl "r" [] (sq (str "a") TriviaOptional (nm "d")); rl "d" [] (PRange 48%N 57%N)].
Definition small : gmodule := grammar small_rules.
Definition larger : gmodule := grammar (small_rules ++ [rl "e" [] (sq (nm "r") TriviaOptional (nm "d"))]).
Definition dotted : gmodule := grammar (small_rules ++ [rl "~" [] (str ".")]).
Definition items_of (g : gmodule) : list (text * ritem) := match generate_typed box_all 20 sample_unicode g with Ret items => items | _ => [] end.
Definition id_of (g : gmodule) : list text -> text -> rule := numbered (items_of g).
Definition env_of (g : gmodule) : rule -> rule_def := read_env (items_of g) sample_unicode (id_of g) 20.
Definition no_calls (g : gmodule) : bool := is_nil (g_imports g) && forallb (fun r => is_nil (pr_args r)) (g_rules g).
Lemma generated_if : forall g, no_calls g = true -> fineb g = true -> tidyb g = true ->
  generate_typed box_all 20 sample_unicode g = Ret (items_of g) -> check_reads (items_of g) sample_unicode (id_of g) 20 = true ->
  generated sample_unicode g (lit "rules") (id_of g) (env_of g).
Proof.
  intros g N F T G R. exists box_all, 20, (items_of g). apply (fineb_spec sample_unicode) in F. apply (tidyb_spec sample_unicode) in T. apply check_reads_spec in R.
  unfold no_calls in N. apply andb_true_iff in N. destruct N as (Ni & Na).
  assert (Nm : forall s, ~ some_macro g s).
  { intros s Ms. inversion Ms as [? ? (J & _ & A)|? ? h ? J _]; subst.
    - rewrite forallb_forall in Na. specialize (Na s J). destruct (pr_args s); [destruct A; reflexivity|discriminate Na].
    - destruct (g_imports g); [destruct J|discriminate Ni]. }
  split; [exact G|]. split; [reflexivity|]. split.
  { apply (C63_accepts box_all sample_unicode g F sample_distinct). unfold generate_typed in G. destruct (inline_macros 20 g) as [g'| |] eqn:E; try discriminate G.
    rewrite (proj2 (C40_none g Nm) 20 g' E) in G. cbn [obind] in G. eauto. }
  split; [exact T|]. split; [intros r path l s _ _ _ Ms; destruct (Nm s Ms)|]. split; [exact F|]. split; [left; reflexivity|]. split; [exact sample_distinct|exact R].
Qed.
Lemma small_generated : generated sample_unicode small (lit "rules") (id_of small) (env_of small).
Proof. apply generated_if; vm_compute; reflexivity. Qed.
Lemma larger_generated : generated sample_unicode larger (lit "rules") (id_of larger) (env_of larger).
Proof. apply generated_if; vm_compute; reflexivity. Qed.
Lemma dotted_generated : generated sample_unicode dotted (lit "rules") (id_of dotted) (env_of dotted).
Proof. apply generated_if; vm_compute; reflexivity. Qed.
Definition r_parser (g : gmodule) : node := Rule (id_of g [lit "rules"] (lit "r")) [].
Definition verdict (o : outcome (value + tracker)) : option bool := match o with Ret (inl _) => Some true | Ret (inr _) => Some false | _ => None end.
Lemma verdict_yes : forall o, verdict o = Some true -> exists v, o = Ret (inl v).
Proof. intros [[v|t]| |] H; try discriminate H. exists v. reflexivity. Qed.
Lemma differ_if : forall addr s env property k n v k', verdict (text_try_parse addr s env property k' n) = Some false ->
  text_try_parse addr s env property k n = Ret (inl v) -> False.
Proof.
  intros addr s env property k n v k' A H. unfold text_try_parse, to_result in *.
  destruct (try_parse_with addr s env property k n _ _) as [([w|], st)| |] eqn:E; try discriminate H.
  destruct (try_parse_with addr s env property k' n _ _) as [([w'|], st')| |] eqn:E'; try discriminate A.
  assert (F := full_fuel _ _ _ _ _ _ _ _ _ _ (Nat.le_max_l k k') E). assert (F' := full_fuel _ _ _ _ _ _ _ _ _ _ (Nat.le_max_r k k') E'). congruence.
Qed.
Definition accepted (g : gmodule) (s : text) : option bool := verdict (text_try_parse 0 s (env_of g) (fun _ _ => false) 60 (r_parser g)).
Lemma last_unique : forall g name r, NoDup (map pr_name (g_rules g)) -> last_rule g name r <-> In r (g_rules g) /\ pr_name r = name.
Proof.
  intros g name r N. split.
  - intros (a & b & E & En & _). split; [rewrite E; apply in_or_app; right; left; reflexivity|exact En].
  - intros (I & En). apply in_split in I. destruct I as (a & b & E). exists a, b. split; [exact E|]. split; [exact En|].
    intros q J Q. rewrite E, map_app in N. apply NoDup_remove_2 in N. apply N. apply in_or_app. right. rewrite En, <- Q. apply in_map, J.
Qed.
(** [r] matches ["a 1"] and not ["a.1"], with and without the rule [e]; also if the rules are in the reverse order. *)
Definition reversed : gmodule := grammar (rev small_rules).
Example C81_ex :
  generated sample_unicode small (lit "rules") (id_of small) (env_of small) /\ generated sample_unicode larger (lit "rules") (id_of larger) (env_of larger) /\
  generated sample_unicode reversed (lit "rules") (id_of reversed) (env_of reversed) /\
  (forall q r path args, In q [rl "e" [] (sq (nm "r") TriviaOptional (nm "d"))] -> In r (g_rules small) -> ~ part (PPath (pr_name q :: path) args) (n_expr (pr_node r))) /\
  (forall name r, last_rule small name r <-> last_rule reversed name r) /\ Permutation (g_rules small) (g_rules reversed) /\
  map (fun g => accepted g (lit "a 1")) [small; larger; reversed] = [Some true; Some true; Some true] /\
  map (fun g => accepted g (lit "a.1")) [small; larger; reversed] = [Some false; Some false; Some false].
Proof.
  split; [exact small_generated|]. split; [exact larger_generated|]. split; [apply generated_if; vm_compute; reflexivity|]. split.
  { intros q r path args [<-|[]] I P. apply parts_all in P.
    destruct I as [<-|[<-|[<-|[]]]]; vm_compute in P; repeat (destruct P as [P|P]; [discriminate P|]); exact P. }
  split; [|split; [apply Permutation_rev|split; vm_compute; reflexivity]].
  intros name r. rewrite !last_unique by (apply nodupb_spec; vm_compute; reflexivity).
  change (g_rules reversed) with (rev (g_rules small)). rewrite <- in_rev. reflexivity.
Qed.

(** A second rule for the same trivia replaces the first one, also for the rules that were there before. *)
Theorem C81_trivia_refuted : exists unicode g g' r tm tm' id id' env env' q s,
  generated unicode g tm id env /\ generated unicode g' tm' id' env' /\ g_rules g' = g_rules g ++ [q] /\ is_trivia_rule q /\ g_imports g' = g_imports g /\
  In r (g_rules g) /\ pr_args r = [] /\ ~ is_trivia_rule r /\
  (exists k v, text_try_parse 0 s env (fun _ _ => false) k (Rule (id [tm] (pr_name r)) []) = Ret (inl v)) /\
  ~ (exists k v, text_try_parse 0 s env' (fun _ _ => false) k (Rule (id' [tm'] (pr_name r)) []) = Ret (inl v)).
Proof.
  exists sample_unicode, small, dotted, (nth 1 small_rules (rl "" [] (str ""))), (lit "rules"), (lit "rules"), (id_of small), (id_of dotted), (env_of small), (env_of dotted),
    (rl "~" [] (str ".")), (lit "a 1").
  split; [exact small_generated|]. split; [exact dotted_generated|]. split; [reflexivity|]. split; [left; reflexivity|]. split; [reflexivity|].
  split; [right; left; reflexivity|]. split; [reflexivity|]. split; [intros [E|E]; discriminate E|]. split.
  - exists 60. apply verdict_yes. vm_compute. reflexivity.
  - intros (k & v & H). assert (A : accepted dotted (lit "a 1") = Some false) by (vm_compute; reflexivity). unfold accepted in A.
    eapply differ_if; [exact A|exact H].
Qed.
Print Assumptions C81_trivia_refuted.
