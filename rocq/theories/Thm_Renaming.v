(** C93: the names in a grammar file do not matter (generator/src/typed/generator.rs, module.rs, core/src/typed/traits.rs L136-254). *)
From Coq Require Import String List NArith ZArith Arith Bool Lia.
From Verif Require Import Model_Text Model_Message Model_Meta Model_Import Model_Position Model_Span Model_Stack Model_Tracker Model_Node
  Model_Generator Model_Output Model_Inline
  Spec_Text Spec_Peg Spec_Run Spec_Yield Spec_Rust Spec_Grammar_Peg Spec_Occur Spec_Generator Spec_Inline Spec_Renaming
  Proof_Text Proof_Renaming Proof_Read Proof_Exists Example_Generator Example_Fine Example_Inline Thm_Generated Thm_Inline Thm_Local.
Import ListNotations.
Open Scope list_scope.

(** Renaming the rules, parameters and imports of a file consistently keeps the meaning of every expression, *)
Theorem C93_meaning : forall unicode property f h g, renaming f h -> forall e pre post K res,
  gpeg unicode property g [] e pre post K res <-> gpeg unicode property (re_module f g) [] (re_expr f e) pre post K res.
Proof.
  intros unicode property f h g R e pre post K res. split; intro H.
  - apply (proj1 (renamed_meaning unicode property f h R g) _ _ _ _ _ _ _ H f (re_module f g) []); constructor.
  - assert (X := proj1 (renamed_meaning unicode property h f (renaming_back _ _ R) (re_module f g)) _ _ _ _ _ _ _ H h (re_module h (re_module f g)) [] (W_here _ _) (RE_nil _ _ _)).
    rewrite (module_twice f h (re_undo _ _ R)), (re_twice f h (re_undo _ _ R)) in X. exact X.
Qed.
Print Assumptions C93_meaning.

Lemma renamed_rule : forall f h g r, renaming f h -> In r (g_rules g) -> ~ is_trivia_rule r -> pr_args r = [] ->
  In (re_rule f r) (g_rules (re_module f g)) /\ ~ is_trivia_rule (re_rule f r) /\ pr_args (re_rule f r) = [].
Proof.
  intros f h g r R I Nt Na. split; [apply (in_map (re_rule f)), I|]. split; [|cbn; rewrite Na; reflexivity].
  intros [E|E]; apply Nt; [left|right]; apply (f_inj f h R); cbn in E; rewrite E; symmetry; [apply (re_optional _ _ R)|apply (re_mandatory _ _ R)].
Qed.
(** the parsers of a rule under both names do the same on every text, with every stack, *)
Theorem C93_parser : forall unicode f h g tm tm' id id' env env', renaming f h ->
  generated unicode g tm id env -> generated unicode (re_module f g) tm' id' env' ->
  forall property r, In r (g_rules g) -> ~ is_trivia_rule r -> pr_args r = [] ->
  forall addr s pre post K Ks, s = pre ++ post -> Forall2 span_text K Ks ->
  let parser := Rule (id [tm] (pr_name r)) [] in
  let parser' := Rule (id' [tm'] (f (pr_name r))) [] in
  (forall o, yields addr s env property parser (blen pre) K o -> exists o', yields addr s env' property parser' (blen pre) K o' /\ alike o o') /\
  (forall o', yields addr s env' property parser' (blen pre) K o' -> exists o, yields addr s env property parser (blen pre) K o /\ alike o o').
Proof.
  intros unicode f h g tm tm' id id' env env' R G G' property r I Nt Na addr s pre post K Ks Es Fk parser parser'.
  destruct (renamed_rule f h g r R I Nt Na) as (I' & Nt' & Na').
  assert (M : forall res, gpeg unicode property g [] (n_expr (pr_node r)) pre post Ks res <-> gpeg unicode property (re_module f g) [] (n_expr (pr_node (re_rule f r))) pre post Ks res).
  { intro res. cbn [re_rule pr_node]. rewrite node_expr. eapply C93_meaning, R. }
  destruct (says_generated _ _ _ _ _ G property r I Nt Na addr s pre post K Ks Es Fk) as (B1 & B2).
  destruct (says_generated _ _ _ _ _ G' property _ I' Nt' Na' addr s pre post K Ks Es Fk) as (B1' & B2').
  split; intros o Y.
  - assert (S := generated_says _ _ _ _ _ G property r I Nt Na addr s pre post K Ks Es Fk o Y). destruct o as [((p, v), K1)|].
    + destruct S as (x & post' & Ks' & E & -> & F1 & S). apply M in S. destruct (B1' _ _ _ S) as (v' & K' & F2 & Y').
      eexists. split; [exact Y'|]. split; [reflexivity|]. exists Ks'. split; assumption.
    + exists None. split; [|constructor]. apply B2', M, S.
  - assert (S := generated_says _ _ _ _ _ G' property _ I' Nt' Na' addr s pre post K Ks Es Fk o Y). destruct o as [((p, v), K1)|].
    + destruct S as (x & post' & Ks' & E & -> & F1 & S). apply M in S. destruct (B1 _ _ _ S) as (v' & K' & F2 & Y').
      eexists. split; [exact Y'|]. split; [reflexivity|]. exists Ks'. split; assumption.
    + exists None. split; [|constructor]. apply B2, M, S.
Qed.
Print Assumptions C93_parser.
(** and accept the same texts. *)
Theorem C93_accepts : forall unicode f h g tm tm' id id' env env', renaming f h ->
  generated unicode g tm id env -> generated unicode (re_module f g) tm' id' env' ->
  forall property r, In r (g_rules g) -> ~ is_trivia_rule r -> pr_args r = [] ->
  forall addr s,
  (exists k v, text_try_parse addr s env property k (Rule (id [tm] (pr_name r)) []) = Ret (inl v)) <->
  (exists k v, text_try_parse addr s env' property k (Rule (id' [tm'] (f (pr_name r))) []) = Ret (inl v)).
Proof.
  intros unicode f h g tm tm' id id' env env' R G G' property r I Nt Na addr s. rewrite !accepts_yields.
  destruct (C93_parser unicode f h g tm tm' id id' env env' R G G' property r I Nt Na addr s [] s [] [] eq_refl (Forall2_nil _)) as (F & B).
  split; intros (v & K & Y).
  - destruct (F _ Y) as ([((p, w), K')|] & Y' & Al); [|destruct Al]. destruct Al as (<- & _). eauto.
  - destruct (B _ Y) as ([((p, w), K')|] & Y' & Al); [|destruct Al]. destruct Al as (<- & _). eauto.
Qed.
Print Assumptions C93_accepts.

(** Exchanging two names is such a renaming; so is giving a rule a name that the file does not use. *)
Definition exchange (a b x : text) : text := if text_eqb x a then b else if text_eqb x b then a else x.
Theorem C93_exchange : forall a b, (forall n, In n ["pest"; "~"; "^"]%string -> a <> lit n /\ b <> lit n) -> renaming (exchange a b) (exchange a b).
Proof.
  intros a b N.
  assert (U : forall x, exchange a b (exchange a b x) = x).
  { intro x. unfold exchange. destruct (text_eqb x a) eqn:E.
    - apply text_eqb_eq in E. subst x. rewrite (proj2 (text_eqb_eq b b) eq_refl). destruct (text_eqb b a) eqn:E'; [apply text_eqb_eq, E'|reflexivity].
    - destruct (text_eqb x b) eqn:E'; [|rewrite E, E'; reflexivity]. apply text_eqb_eq in E'. subst x. rewrite (proj2 (text_eqb_eq a a) eq_refl). reflexivity. }
  assert (K : forall n, In n ["pest"; "~"; "^"]%string -> exchange a b (lit n) = lit n).
  { intros n I. destruct (N n I) as (Na & Nb). unfold exchange. destruct (text_eqb (lit n) a) eqn:E; [apply text_eqb_eq in E; congruence|]. destruct (text_eqb (lit n) b) eqn:E'; [apply text_eqb_eq in E'; congruence|reflexivity]. }
  split; [exact U|exact U| | |]; apply K; cbn; auto.
Qed.
Print Assumptions C93_exchange.

(** The grammar of C81 with the rules [r] and [d] called [d] and [item]: [r] matches ["a 1"] and not ["a.1"], and so does [d] of the renamed one. *)
Definition exchanged : gmodule := re_module (fun x => exchange (lit "item") (lit "r") (exchange (lit "r") (lit "d") x)) small.
Example C93_ex :
  renaming (exchange (lit "r") (lit "d")) (exchange (lit "r") (lit "d")) /\
  (exists h, renaming (fun x => exchange (lit "item") (lit "r") (exchange (lit "r") (lit "d") x)) h) /\
  map pr_name (g_rules small) = [lit "~"; lit "r"; lit "d"] /\ map pr_name (g_rules exchanged) = [lit "~"; lit "d"; lit "item"] /\
  generated sample_unicode small (lit "rules") (id_of small) (env_of small) /\ generated sample_unicode exchanged (lit "rules") (id_of exchanged) (env_of exchanged) /\
  map (fun s => verdict (text_try_parse 0 (lit s) (env_of exchanged) (fun _ _ => false) 60 (Rule (id_of exchanged [lit "rules"] (lit "d")) []))) ["a 1"; "a.1"]%string = [Some true; Some false] /\
  map (fun s => accepted small (lit s)) ["a 1"; "a.1"]%string = [Some true; Some false].
Proof.
  assert (R : renaming (exchange (lit "r") (lit "d")) (exchange (lit "r") (lit "d"))) by (apply C93_exchange; intros n [<-|[<-|[<-|[]]]]; split; discriminate).
  assert (R' : renaming (exchange (lit "item") (lit "r")) (exchange (lit "item") (lit "r"))) by (apply C93_exchange; intros n [<-|[<-|[<-|[]]]]; split; discriminate).
  split; [exact R|]. split.
  { exists (fun x => exchange (lit "r") (lit "d") (exchange (lit "item") (lit "r") x)). split; intros; rewrite ?(re_undo _ _ R'), ?(re_undo _ _ R), ?(re_undo _ _ R'); reflexivity. }
  split; [reflexivity|]. split; [vm_compute; reflexivity|]. split; [exact small_generated|]. split; [apply generated_if; vm_compute; reflexivity|]. split; vm_compute; reflexivity.
Qed.
