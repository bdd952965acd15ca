(** C82: laws of grammar expressions, and that parts of a grammar can be replaced by means of them (generator/src/typed/generator.rs, module.rs). *)
From Coq Require Import String List NArith ZArith Arith Bool Lia.
From Verif Require Import Model_Text Model_Message Model_Meta Model_Import Model_Position Model_Span Model_Stack Model_Tracker Model_Node
  Model_Generator Model_Output Model_Inline
  Spec_Text Spec_Peg Spec_Run Spec_Yield Spec_Rust Spec_Grammar_Peg Spec_Occur Spec_Generator Spec_Inline Spec_Laws
  Proof_Text Proof_Det Proof_Laws Example_Generator Example_Fine Example_Inline Thm_Generated Thm_Local.
Import ListNotations.
Open Scope list_scope.

(** In a complete grammar an expression has at most one result. *)
Theorem C82_one_result : forall unicode property g, complete unicode g -> distinct_properties unicode ->
  forall e pre post K r r', gpeg unicode property g [] e pre post K r -> gpeg unicode property g [] e pre post K r' -> r = r'.
Proof. intros unicode property g C D e pre post K r r' H J. exact (proj1 (gpeg_unique unicode property D) _ _ _ _ _ _ _ H C (GE_nil _) _ J). Qed.
Print Assumptions C82_one_result.

(** The laws hold in every grammar, complete or not, whatever the parameters stand for. *)
Theorem C82_law : forall unicode property g rho e e', law e e' ->
  forall pre post K r, gpeg unicode property g rho e pre post K r <-> gpeg unicode property g rho e' pre post K r.
Proof. intros unicode property g rho e e' L. exact (law_alike unicode property g rho e e' L). Qed.
Print Assumptions C82_law.
(** A common beginning of two alternatives can be taken out. *)
Theorem C82_factor : forall unicode property g, complete unicode g -> distinct_properties unicode -> forall e e', law_det e e' ->
  forall pre post K r, gpeg unicode property g [] e pre post K r <-> gpeg unicode property g [] e' pre post K r.
Proof. intros unicode property g C D e e' L. exact (factor_alike unicode property D g [] e e' C (GE_nil _) L). Qed.
Print Assumptions C82_factor.

(** Whatever expressions match the same in a place, parts can be replaced there. *)
Theorem C82_inside : forall unicode property g rho (L : parse_expr -> parse_expr -> Prop),
  (forall e e', L e e' -> forall pre post K r, gpeg unicode property g rho e pre post K r <-> gpeg unicode property g rho e' pre post K r) ->
  forall e e', rewritten L e e' ->
  forall pre post K r, gpeg unicode property g rho e pre post K r <-> gpeg unicode property g rho e' pre post K r.
Proof. intros unicode property g rho L H e e' R. exact (rewritten_alike unicode property L g rho H e e' R). Qed.
Print Assumptions C82_inside.

Definition laws (e e' : parse_expr) : Prop := law e e' \/ law_det e e'.
(** Parts of the rules of a grammar can be replaced by means of the laws, also in the rules for trivia and in arguments. *)
Theorem C82_grammar : forall unicode property g g', complete unicode g -> complete unicode g' -> distinct_properties unicode ->
  rewritten_grammar laws g g' -> forall e e', rewritten laws e e' ->
  forall pre post K r, gpeg unicode property g [] e pre post K r <-> gpeg unicode property g' [] e' pre post K r.
Proof.
  intros unicode property g g' C C' D R. apply (rewritten_meaning unicode property laws g g' C C'); [|exact R].
  intros rho e e' Ge [L|L]; split; [apply law_alike, L|apply law_alike, L|apply factor_alike; assumption|apply factor_alike; assumption].
Qed.
Print Assumptions C82_grammar.

Lemma parsers_alike : forall unicode g g' tm tm' id id' env env',
  generated unicode g tm id env -> generated unicode g' tm' id' env' ->
  forall property r r', In r (g_rules g) -> In r' (g_rules g') -> ~ is_trivia_rule r -> ~ is_trivia_rule r' -> pr_args r = [] -> pr_args r' = [] ->
  (forall pre post K res, gpeg unicode property g [] (n_expr (pr_node r)) pre post K res <-> gpeg unicode property g' [] (n_expr (pr_node r')) pre post K res) ->
  forall addr s pre post K Ks, s = pre ++ post -> Forall2 span_text K Ks ->
  let parser := Rule (id [tm] (pr_name r)) [] in
  let parser' := Rule (id' [tm'] (pr_name r')) [] in
  (forall o, yields addr s env property parser (blen pre) K o -> exists o', yields addr s env' property parser' (blen pre) K o' /\ Thm_Local.alike o o') /\
  (forall o', yields addr s env' property parser' (blen pre) K o' -> exists o, yields addr s env property parser (blen pre) K o /\ Thm_Local.alike o o').
Proof.
  intros unicode g g' tm tm' id id' env env' G G' property r r' I I' Nt Nt' Na Na' M addr s pre post K Ks Es Fk parser parser'.
  destruct (says_generated _ _ _ _ _ G property r I Nt Na addr s pre post K Ks Es Fk) as (B1 & B2).
  destruct (says_generated _ _ _ _ _ G' property r' I' Nt' Na' addr s pre post K Ks Es Fk) as (B1' & B2').
  split; intros o Y.
  - assert (S := generated_says _ _ _ _ _ G property r I Nt Na addr s pre post K Ks Es Fk o Y). destruct o as [((p, v), K1)|].
    + destruct S as (x & post' & Ks' & E & -> & F1 & S). apply M in S. destruct (B1' _ _ _ S) as (v' & K' & F2 & Y').
      eexists. split; [exact Y'|]. split; [reflexivity|]. exists Ks'. split; assumption.
    + exists None. split; [|constructor]. apply B2', M, S.
  - assert (S := generated_says _ _ _ _ _ G' property r' I' Nt' Na' addr s pre post K Ks Es Fk o Y). destruct o as [((p, v), K1)|].
    + destruct S as (x & post' & Ks' & E & -> & F1 & S). apply M in S. destruct (B1 _ _ _ S) as (v' & K' & F2 & Y').
      eexists. split; [exact Y'|]. split; [reflexivity|]. exists Ks'. split; assumption.
    + exists None. split; [|constructor]. apply B2, M, S.
Qed.
Lemma generated_facts : forall unicode g tm id env, generated unicode g tm id env -> complete unicode g /\ distinct_properties unicode.
Proof. intros unicode g tm id env (config & fuel & items & _ & _ & C & _ & _ & _ & _ & D & _). auto. Qed.
Lemma rewritten_rule_in : forall L l l' r, Forall2 (rewritten_rule L) l l' -> In r l -> exists r', In r' l' /\ rewritten_rule L r r'.
Proof.
  intros L l l' r F I. induction F as [|a b l l' B F IH]; [destruct I|]. destruct I as [<-|I]; [exists b; split; [left; reflexivity|exact B]|].
  destruct (IH I) as (r' & I' & B'). exists r'. split; [right; exact I'|exact B'].
Qed.

(** The parsers of a rule and of the rewritten rule do the same on every text, with every stack. *)
Theorem C82_parser : forall unicode g g' tm tm' id id' env env',
  generated unicode g tm id env -> generated unicode g' tm' id' env' -> rewritten_grammar laws g g' ->
  forall property r, In r (g_rules g) -> ~ is_trivia_rule r -> pr_args r = [] ->
  forall addr s pre post K Ks, s = pre ++ post -> Forall2 span_text K Ks ->
  let parser := Rule (id [tm] (pr_name r)) [] in
  let parser' := Rule (id' [tm'] (pr_name r)) [] in
  (forall o, yields addr s env property parser (blen pre) K o -> exists o', yields addr s env' property parser' (blen pre) K o' /\ Thm_Local.alike o o') /\
  (forall o', yields addr s env' property parser' (blen pre) K o' -> exists o, yields addr s env property parser (blen pre) K o /\ Thm_Local.alike o o').
Proof.
  intros unicode g g' tm tm' id id' env env' G G' R property r I Nt Na addr s pre post K Ks Es Fk.
  destruct (rewritten_rule_in _ _ _ r (proj1 R) I) as (r' & I' & En & Ea & B). destruct (generated_facts _ _ _ _ _ G) as (C & D). destruct (generated_facts _ _ _ _ _ G') as (C' & _).
  assert (X := parsers_alike unicode g g' tm tm' id id' env env' G G' property r r' I I' Nt). rewrite En in X. apply (X ltac:(unfold is_trivia_rule in *; rewrite En; exact Nt) Na ltac:(rewrite Ea; exact Na)) with (pre := pre) (post := post) (Ks := Ks); [|exact Es|exact Fk].
  intros p q k res. apply (C82_grammar unicode property g g' C C' D R _ _ B).
Qed.
Print Assumptions C82_parser.
(** They accept the same texts. *)
Theorem C82_accepts : forall unicode g g' tm tm' id id' env env',
  generated unicode g tm id env -> generated unicode g' tm' id' env' -> rewritten_grammar laws g g' ->
  forall property r, In r (g_rules g) -> ~ is_trivia_rule r -> pr_args r = [] ->
  forall addr s,
  (exists k v, text_try_parse addr s env property k (Rule (id [tm] (pr_name r)) []) = Ret (inl v)) <->
  (exists k v, text_try_parse addr s env' property k (Rule (id' [tm'] (pr_name r)) []) = Ret (inl v)).
Proof.
  intros unicode g g' tm tm' id id' env env' G G' R property r I Nt Na addr s. rewrite !accepts_yields.
  destruct (C82_parser unicode g g' tm tm' id id' env env' G G' R property r I Nt Na addr s [] s [] [] eq_refl (Forall2_nil _)) as (F & B).
  split; intros (v & K & Y).
  - destruct (F _ Y) as ([((p, w), K')|] & Y' & Al); [|destruct Al]. destruct Al as (<- & _). eauto.
  - destruct (B _ Y) as ([((p, w), K')|] & Y' & Al); [|destruct Al]. destruct Al as (<- & _). eauto.
Qed.
Print Assumptions C82_accepts.

(** The grammar
<<
    ~ = " "?
    r = ("a" - "b"?) ~ ("c"* - "!") | ("a" - "b"?) ~ ("d" - "e")
>>
    can be written as
<<
    ~ = " " | ""
    r = "a" - ("b"? ~ (("c"+ | "") - "!" | "de"))
>>
    and arguments of calls can be replaced in the same way. *)
Definition opt (e : parse_expr) : parse_expr := POpt (nd e).
Definition star (e : parse_expr) : parse_expr := PRep (nd e).
Definition plus (e : parse_expr) : parse_expr := PRepOnce (nd e).
Definition before_rules : list parse_rule := [
  rl "~" [] (opt (str " "));
  rl "r" [] (alt (sq (sq (str "a") TriviaNone (opt (str "b"))) TriviaOptional (sq (star (str "c")) TriviaNone (str "!")))
                 (sq (sq (str "a") TriviaNone (opt (str "b"))) TriviaOptional (sq (str "d") TriviaNone (str "e"))))].
Definition after_rules : list parse_rule := [
  rl "~" [] (alt (str " ") (str ""));
  rl "r" [] (sq (str "a") TriviaNone (sq (opt (str "b")) TriviaOptional (alt (sq (alt (plus (str "c")) (str "")) TriviaNone (str "!")) (str "de"))))].
Lemma star_plus : forall e, rewritten laws (star e) (alt (plus e) (str "")).
Proof. intro e. apply RW_law. left. apply L_star. Qed.
Example C82_ex :
  generated sample_unicode (grammar before_rules) (lit "rules") (id_of (grammar before_rules)) (env_of (grammar before_rules)) /\
  generated sample_unicode (grammar after_rules) (lit "rules") (id_of (grammar after_rules)) (env_of (grammar after_rules)) /\
  rewritten_grammar laws (grammar before_rules) (grammar after_rules) /\
  map (fun s => (accepted (grammar before_rules) (lit s), accepted (grammar after_rules) (lit s))) ["abcc!"; "a !"; "a de"; "abc"]%string =
    [(Some true, Some true); (Some true, Some true); (Some true, Some true); (Some false, Some false)] /\
  rewritten laws (call ["p"%string] [str "x"; star (str "c")]) (call ["p"%string] [str "x"; alt (plus (str "c")) (str "")]) /\
  (forall g, last_rule (grammar after_rules) (lit "~") g -> is_trivia_rule g).
Proof.
  split; [apply generated_if; vm_compute; reflexivity|]. split; [apply generated_if; vm_compute; reflexivity|]. split.
  { split; [|reflexivity]. apply Forall2_cons; [|apply Forall2_cons; [|apply Forall2_nil]]; (split; [reflexivity|]; split; [reflexivity|]).
    - apply RW_law. left. apply L_opt_choice.
    - eapply RW_trans; [apply RW_law; right; apply (L_factor (nd (sq (str "a") TriviaNone (opt (str "b")))) _ _ _ _ _ _ _ sp); reflexivity|].
      eapply RW_trans; [apply RW_law; left; apply (L_seq _ _ _ _ _ _ sp)|]. apply RW_seq; [apply RW_refl|]. apply RW_seq; [apply RW_refl|].
      apply RW_choice; [apply RW_seq; [apply star_plus|apply RW_refl]|]. apply RW_law. left. apply (L_strings (lit "d") (lit "e")). }
  split; [vm_compute; reflexivity|]. split; [exact (RW_argument laws [lit "p"] [nd (str "x")] (nd (star (str "c"))) (nd (alt (plus (str "c")) (str ""))) [] (star_plus _))|].
  intros g (a & b & _ & E & _). left. exact E.
Qed.

(** What is not a law: some rule with the body [e] accepts another text than with the body [e']. *)
Definition differs (e e' : parse_expr) : Prop :=
  exists rest s, let g := grammar (rl "r" [] e :: rest) in let g' := grammar (rl "r" [] e' :: rest) in
  exists unicode tm id env tm' id' env', generated unicode g tm id env /\ generated unicode g' tm' id' env' /\
  (exists k v, text_try_parse 0 s env (fun _ _ => false) k (Rule (id [tm] (lit "r")) []) = Ret (inl v)) /\
  ~ (exists k v, text_try_parse 0 s env' (fun _ _ => false) k (Rule (id' [tm'] (lit "r")) []) = Ret (inl v)).
Lemma differs_when : forall e e' rest s unicode tm id env tm' id' env' k k',
  generated unicode (grammar (rl "r" [] e :: rest)) tm id env -> generated unicode (grammar (rl "r" [] e' :: rest)) tm' id' env' ->
  verdict (text_try_parse 0 s env (fun _ _ => false) k (Rule (id [tm] (lit "r")) [])) = Some true ->
  verdict (text_try_parse 0 s env' (fun _ _ => false) k' (Rule (id' [tm'] (lit "r")) [])) = Some false -> differs e e'.
Proof.
  intros e e' rest s unicode tm id env tm' id' env' k k' G G' A A'. exists rest, s. cbv zeta. exists unicode, tm, id, env, tm', id', env'.
  split; [exact G|]. split; [exact G'|]. split.
  - exists k. apply verdict_yes. exact A.
  - intros (k1 & v & H). eapply differ_if; [exact A'|exact H].
Qed.
Definition of_rules (e : parse_expr) (rest : list parse_rule) : gmodule := grammar (rl "r" [] e :: rest).
Definition differs_if (e e' : parse_expr) (rest : list parse_rule) (s : text) :=
  differs_when e e' rest s sample_unicode (lit "rules") (id_of (of_rules e rest)) (env_of (of_rules e rest))
    (lit "rules") (id_of (of_rules e' rest)) (env_of (of_rules e' rest)) 60 60.
(** Alternatives cannot be swapped; what follows a choice cannot be moved into the alternatives; [e~] and [e] match the same, but not repeated. *)
Theorem C82_swap_refuted : exists a b, differs (PChoice a b) (PChoice b a).
Proof.
  exists (nd (sq (str "a") TriviaNone (str "b"))), (nd (str "a")). apply (differs_if _ _ [] (lit "ab")); [apply generated_if; vm_compute; reflexivity|apply generated_if; vm_compute; reflexivity|vm_compute; reflexivity|vm_compute; reflexivity].
Qed.
Print Assumptions C82_swap_refuted.
Theorem C82_distribute_refuted : exists a b c sp sp' sp'', differs (PChoice (mkNode (PSeq a c TriviaNone) sp) (mkNode (PSeq b c TriviaNone) sp')) (PSeq (mkNode (PChoice a b) sp'') c TriviaNone).
Proof.
  exists (nd (str "a")), (nd (str "ab")), (nd (str "c")), sp, sp, sp. apply (differs_if _ _ [] (lit "abc")); [apply generated_if; vm_compute; reflexivity|apply generated_if; vm_compute; reflexivity|vm_compute; reflexivity|vm_compute; reflexivity].
Qed.
Print Assumptions C82_distribute_refuted.
Theorem C82_repeated_refuted : exists a t sp, law (PSeparated a t) (n_expr a) /\ differs (PRep (mkNode (PSeparated a t) sp)) (PRep a).
Proof.
  exists (nd (str "a")), TriviaOptional, sp. split; [apply L_separated|].
  apply (differs_if _ _ [rl "~" [] (opt (str " "))] (lit "a aa")); [apply generated_if; vm_compute; reflexivity|apply generated_if; vm_compute; reflexivity|vm_compute; reflexivity|vm_compute; reflexivity].
Qed.
Print Assumptions C82_repeated_refuted.
