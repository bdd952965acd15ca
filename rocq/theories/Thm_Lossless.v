(** C76: a syntax tree determines the text that it was made from, up to trivia
    (core/src/typed/template/mod.rs, sequence.rs, repetition.rs, choices.rs). *)
From Coq Require Import String List NArith ZArith Arith Bool Lia.
From Verif Require Import Model_Text Model_Message Model_Meta Model_Import Model_Position Model_Span Model_Stack Model_Tracker Model_Node
  Model_Generator Model_Output
  Spec_Text Spec_Peg Spec_Run Spec_Rust Spec_Grammar_Peg Spec_Occur Spec_Generator Spec_Lossless
  Proof_Text Proof_Run Proof_Entry Proof_Emit Proof_Box Proof_Process Proof_Names Proof_Place Proof_Resolve Proof_Accept Proof_Compile Proof_Leaf Proof_Read Proof_Exists
  Proof_Lossless Proof_Determined Proof_Quiet Example_Generator Example_Fine Example_Inline Thm_Generated.
Import ListNotations.
Open Scope list_scope.
Notation within := Spec_Lossless.within.

Lemma whole_text : forall addr s env property k n v, text_try_parse addr s env property k n = Ret (inl v) ->
  exists p st, try_parse addr s env property k n (blen []) (mkState (mkStack [] []) (tracker_new 0)) = Ret (Some (p, v), st) /\ p = blen s.
Proof.
  intros addr s env property k n v H. destruct (full_outcome addr s env property k n) as [(E & _)|(r & tr & _ & F)]; [congruence|].
  destruct r as [|pre' post' K' w]; [destruct F as (_ & E); congruence|]. destruct F as (Es & P & T).
  destruct post' as [|c post']; [|congruence]. rewrite T in H. injection H as ->. rewrite app_nil_r in Es. subst pre'.
  unfold text_try_parse_partial, to_result, init_state, stack_new in P. change from_start with (blen []) in P.
  destruct (try_parse _ _ _ _ _ _ _ _) as [([(p, w)|], st)| |] eqn:E; try discriminate P. injection P as -> ->. exists (blen s), st. auto.
Qed.

(** The tree of a text, read from left to right, says the whole text; only what the trivia between two
    fields or rounds matched is missing from it, and what slices of the stack matched. *)
Theorem C76_spelled : forall addr s env property k n v, text_try_parse addr s env property k n = Ret (inl v) ->
  spells env (skipped s env property) n v s.
Proof.
  intros addr s env property k n v H. destruct (whole_text _ _ _ _ _ _ _ H) as (p & st & P & E).
  destruct (parse_spelled _ _ _ _ _ _ _ s _ _ _ _ _ _ eq_refl valid_nil P) as (m & post' & E1 & E2 & W).
  assert (post' = []) as -> by (apply blen_zero; rewrite E1, blen_app in E; cbn [app] in E2; lia). rewrite app_nil_r in E1. subst m. exact W.
Qed.
Print Assumptions C76_spelled.
(** The same for a part of a text. *)
Theorem C76_spelled_part : forall addr s env property k n pre post K sv t p v st',
  s = pre ++ post -> valid_stack K ->
  try_parse addr s env property k n (blen pre) (mkState (mkStack K sv) t) = Ret (Some (p, v), st') ->
  exists m post', post = m ++ post' /\ p = blen (pre ++ m) /\ spells env (skipped s env property) n v m.
Proof. intros until st'. apply parse_spelled. Qed.
Print Assumptions C76_spelled_part.

(** Where no trivia is skipped, texts with the same tree are the same. *)
Theorem C76_text : forall addr s env property k n v addr2 s2 property2 k2 v2,
  no_gaps env n -> text_try_parse addr s env property k n = Ret (inl v) -> text_try_parse addr2 s2 env property2 k2 n = Ret (inl v2) ->
  same_tree v v2 -> s = s2.
Proof.
  intros until v2. intros N H H2 S. destruct (whole_text _ _ _ _ _ _ _ H) as (p & st & P & E). destruct (whole_text _ _ _ _ _ _ _ H2) as (p2 & st2 & P2 & E2).
  destruct (parse_alike _ _ _ _ _ _ [] s _ _ _ _ _ _ _ _ _ _ [] s2 _ _ _ _ _ _ [] eq_refl (Forall2_nil _) eq_refl (Forall2_nil _) N P P2 S)
    as (m & rest & rest2 & _ & A & B & C & D & _). cbn [app] in C, D.
  assert (rest = []) as -> by (apply blen_zero; rewrite A, blen_app in E; lia).
  assert (rest2 = []) as -> by (apply blen_zero; rewrite B, blen_app in E2; lia). congruence.
Qed.
Print Assumptions C76_text.
(** The same for parts of texts, if the stacks have the same texts: they do again afterwards. *)
Theorem C76_part : forall addr s env property k n pre post K sv t p v st'
  addr2 s2 property2 k2 pre2 post2 K2 sv2 t2 p2 v2 st2' Ks,
  s = pre ++ post -> Forall2 span_text K Ks -> s2 = pre2 ++ post2 -> Forall2 span_text K2 Ks -> no_gaps env n ->
  try_parse addr s env property k n (blen pre) (mkState (mkStack K sv) t) = Ret (Some (p, v), st') ->
  try_parse addr2 s2 env property2 k2 n (blen pre2) (mkState (mkStack K2 sv2) t2) = Ret (Some (p2, v2), st2') ->
  same_tree v v2 ->
  exists m rest rest2 Ks', post = m ++ rest /\ post2 = m ++ rest2 /\ p = blen (pre ++ m) /\ p2 = blen (pre2 ++ m) /\
    Forall2 span_text (stk_items (st_stack st')) Ks' /\ Forall2 span_text (stk_items (st_stack st2')) Ks'.
Proof. exact parse_alike. Qed.
Print Assumptions C76_part.
(** Without slices the stacks do not matter. *)
Theorem C76_any_stack : forall addr s env property k n pre post K sv t v st'
  addr2 s2 property2 k2 pre2 post2 K2 sv2 t2 v2 st2' m m2 rest rest2,
  s = pre ++ post -> valid_stack K -> s2 = pre2 ++ post2 -> valid_stack K2 -> keeps_all env n ->
  post = m ++ rest -> post2 = m2 ++ rest2 ->
  try_parse addr s env property k n (blen pre) (mkState (mkStack K sv) t) = Ret (Some (blen (pre ++ m), v), st') ->
  try_parse addr2 s2 env property2 k2 n (blen pre2) (mkState (mkStack K2 sv2) t2) = Ret (Some (blen (pre2 ++ m2), v2), st2') ->
  same_tree v v2 -> m = m2.
Proof. exact parse_determined. Qed.
Print Assumptions C76_any_stack.

Section Grammar.
Variables (config : gconfig) (fuel : nat) (unicode : list text) (g : gmodule) (items : list (text * ritem)).
Hypothesis G : generate_items config fuel unicode g = Ret items.
Hypothesis Fi : fine unicode g.
Hypothesis Ty : fine_types_mod (types_mod (rules_mod config)) g.
Hypothesis D : distinct_properties unicode.
Variables (id : list text -> text -> rule) (env : rule -> rule_def).
Hypothesis Rr : reads_rules items unicode id env.
Lemma rule_nodes : forall slices : Prop,
  (forall m g' r, located (types_mod (rules_mod config)) g m g' -> In r (g_rules g') -> ~ is_trivia_rule r ->
     asks_none (n_expr (pr_node r)) /\ (slices \/ slices_none (n_expr (pr_node r)))) ->
  forall m g' r, located (types_mod (rules_mod config)) g m g' -> In r (g_rules g') -> ~ is_trivia_rule r -> pr_args r = [] ->
  forall x, within env x (Rule (id m (pr_name r)) []) -> local slices x.
Proof.
  intros slices Q m g' r Lo Ir Nt Na. unfold generate_items, generate_output in G. destruct (existsb _ (raw_names g)); [discriminate G|].
  destruct (process_rules config fuel (make_global unicode) [lit "super"] 0 g gt_new) as [((o, coll), tr)| |] eqn:P; try discriminate. cbn [obind] in G. injection G as <-.
  destruct (process_rules_spec config fuel unicode (builtin_resolves_all unicode D) g 0 gt_new o coll tr P Fi good_new) as (Tg & _ & M).
  specialize (M tr (extends_refl tr)). change (fst (collect_output (rules_mod config) o) ++ collect_tracker tr) with (all_items config tr o) in Rr.
  assert (B := bodies_read config fuel unicode tr g o (fun _ _ => false) env id leaf_kind
    Ty D Tg (fun _ _ _ _ L U _ _ _ => conj L U) coll M Fi Rr).
  exact (rule_within slices unicode env id _ B Q m g' r Lo Ir Nt Na).
Qed.
End Grammar.

(** The parsers generated from a grammar without [~] and [^] between its parts lose nothing: texts with
    the same tree are the same. *)
Theorem C76_grammar : forall config fuel unicode g items,
  generate_items config fuel unicode g = Ret items ->
  fine unicode g -> fine_types_mod (types_mod (rules_mod config)) g -> distinct_properties unicode ->
  forall id env, reads_rules items unicode id env ->
  (forall m g' r, located (types_mod (rules_mod config)) g m g' -> In r (g_rules g') -> ~ is_trivia_rule r -> asks_none (n_expr (pr_node r))) ->
  forall m g' r, located (types_mod (rules_mod config)) g m g' -> In r (g_rules g') -> ~ is_trivia_rule r -> pr_args r = [] ->
  forall addr s property k v addr2 s2 property2 k2 v2,
  let parser := Rule (id m (pr_name r)) [] in
  text_try_parse addr s env property k parser = Ret (inl v) -> text_try_parse addr2 s2 env property2 k2 parser = Ret (inl v2) ->
  same_tree v v2 -> s = s2.
Proof.
  intros config fuel unicode g items G Fi Ty D id env Rr Q m g' r Lo Ir Nt Na addr s property k v addr2 s2 property2 k2 v2 parser.
  apply C76_text. intros x X.
  assert (L := rule_nodes _ _ _ _ _ G Fi Ty D _ _ Rr True (fun m g' r L J N => conj (Q m g' r L J N) (or_introl I)) m g' r Lo Ir Nt Na x X).
  destruct x; exact L || exact I.
Qed.
Print Assumptions C76_grammar.
(** If no slice of the stack is matched either, this holds for any parts of texts and any stacks. *)
Theorem C76_grammar_any_stack : forall config fuel unicode g items,
  generate_items config fuel unicode g = Ret items ->
  fine unicode g -> fine_types_mod (types_mod (rules_mod config)) g -> distinct_properties unicode ->
  forall id env, reads_rules items unicode id env ->
  (forall m g' r, located (types_mod (rules_mod config)) g m g' -> In r (g_rules g') -> ~ is_trivia_rule r ->
     asks_none (n_expr (pr_node r)) /\ slices_none (n_expr (pr_node r))) ->
  forall m g' r, located (types_mod (rules_mod config)) g m g' -> In r (g_rules g') -> ~ is_trivia_rule r -> pr_args r = [] ->
  let parser := Rule (id m (pr_name r)) [] in
  forall addr s property k pre K sv t v st' addr2 s2 property2 k2 pre2 K2 sv2 t2 v2 st2' x x2 rest rest2,
  s = pre ++ x ++ rest -> valid_stack K -> s2 = pre2 ++ x2 ++ rest2 -> valid_stack K2 ->
  try_parse addr s env property k parser (blen pre) (mkState (mkStack K sv) t) = Ret (Some (blen (pre ++ x), v), st') ->
  try_parse addr2 s2 env property2 k2 parser (blen pre2) (mkState (mkStack K2 sv2) t2) = Ret (Some (blen (pre2 ++ x2), v2), st2') ->
  same_tree v v2 -> x = x2.
Proof.
  intros config fuel unicode g items G Fi Ty D id env Rr Q m g' r Lo Ir Nt Na parser. intros until rest2. intros Es HK Es2 HK2 P P2.
  eapply (parse_determined _ _ _ _ _ _ _ _ _ _ _ _ _ _ _ _ _ _ _ _ _ _ _ _ _ _ _ _ Es HK Es2 HK2); [|reflexivity|reflexivity|exact P|exact P2].
  intros y Y. exact (rule_nodes _ _ _ _ _ G Fi Ty D _ _ Rr False (fun m g' r L I N => conj (proj1 (Q m g' r L I N)) (or_intror (proj2 (Q m g' r L I N)))) m g' r Lo Ir Nt Na y Y).
Qed.
Print Assumptions C76_grammar_any_stack.

(** Pairs in parentheses, then the same again, taken from the stack:
<<
    value   = "(" - value - ")" | pair('a'..'z')
    pair(x) = x - ("," - x)*
    twice   = pest::stack::push(value) - "=" - pest::stack::peek[0..1]
>> *)
Definition twice_rules : list parse_rule := [
  rl "value" [] (alt (sq (str "(") TriviaNone (sq (nm "value") TriviaNone (str ")"))) (call ["pair"%string] [PRange 97%N 122%N]));
  rl "pair" ["x"%string] (sq (nm "x") TriviaNone (PRep (nd (sq (str ",") TriviaNone (nm "x")))));
  rl "twice" [] (sq (call ["pest"; "stack"; "push"]%string [nm "value"]) TriviaNone
    (sq (str "=") TriviaNone (PPath (map lit ["pest"; "stack"; "peek"]%string) (Some (PSlice (mkRange (Some 0%Z) (Some 1%Z)))))))].
Definition twice : gmodule := grammar twice_rules.
Definition twice_items : list (text * ritem) :=
  match generate_items box_all 9 sample_unicode twice with Ret items => items | _ => [] end.
Definition twice_id : list text -> text -> rule := numbered twice_items.
Definition twice_env : rule -> rule_def := read_env twice_items sample_unicode twice_id 20.
Definition twice_parser (i : nat) : node := Rule (twice_id [lit "rules"] (pr_name (nth i twice_rules (rl "" [] (str ""))))) [].
(** The tree of a whole text. *)
Definition tree_in (o : outcome (value + tracker)) : option value := match o with Ret (inl v) => Some v | _ => None end.
Lemma tree_in_spec : forall o v, tree_in o = Some v -> o = Ret (inl v).
Proof. intros [[w|t]| |] v H; try discriminate H. injection H as ->. reflexivity. Qed.
Definition tree (addr : N) (s : text) (env : rule -> rule_def) (n : node) : option value :=
  tree_in (text_try_parse addr s env sample_digit 60 n).
Lemma tree_spec : forall addr s env n v, tree addr s env n = Some v -> text_try_parse addr s env sample_digit 60 n = Ret (inl v).
Proof. intros addr s env n v. exact (tree_in_spec _ v). Qed.

Lemma twice_made : generate_items box_all 9 sample_unicode twice = Ret twice_items.
Proof. vm_compute. reflexivity. Qed.
Lemma twice_reads : reads_rules twice_items sample_unicode twice_id twice_env.
Proof. apply check_reads_spec. vm_compute. reflexivity. Qed.
Lemma twice_fine : fine sample_unicode twice.
Proof. apply fineb_spec. vm_compute. reflexivity. Qed.
Lemma twice_located : forall m g', located (lit "rules") twice m g' -> g' = twice.
Proof. intros m g' L. induction L as [|m g alias g' L IH J]; [reflexivity|]. subst g. destruct J. Qed.
Lemma asks_none_check : forall e, negb (uses_trivia TriviaOptional e) && negb (uses_trivia TriviaMandatory e) = true -> asks_none e.
Proof.
  intros e H t A. apply andb_true_iff in H. destruct H as (B & C). apply negb_true_iff in B, C.
  destruct t; [reflexivity|destruct (not_asked _ _ B A)|destruct (not_asked _ _ C A)].
Qed.
Lemma twice_asks_none : forall m g' r, located (lit "rules") twice m g' -> In r (g_rules g') -> ~ is_trivia_rule r -> asks_none (n_expr (pr_node r)).
Proof.
  intros m g' r L I _. apply twice_located in L. subst g'. apply asks_none_check.
  destruct I as [<-|[<-|[<-|[]]]]; vm_compute; reflexivity.
Qed.
(** ["(a,b)=(a,b)"] and ["(a,c)=(a,c)"] have trees, which are not the same: otherwise so were the texts.
    The same text at another address has the same tree, but other spans. *)
Example C76_grammar_ex :
  exists v v2 v3, tree 0 (lit "(a,b)=(a,b)") twice_env (twice_parser 2) = Some v /\
    tree 7 (lit "(a,c)=(a,c)") twice_env (twice_parser 2) = Some v2 /\ ~ same_tree v v2 /\
    tree 7 (lit "(a,b)=(a,b)") twice_env (twice_parser 2) = Some v3 /\ same_tree v v3 /\ v <> v3.
Proof.
  destruct (tree 0 (lit "(a,b)=(a,b)") twice_env (twice_parser 2)) as [v|] eqn:E; [|vm_compute in E; discriminate E].
  destruct (tree 7 (lit "(a,c)=(a,c)") twice_env (twice_parser 2)) as [v2|] eqn:E2; [|vm_compute in E2; discriminate E2].
  destruct (tree 7 (lit "(a,b)=(a,b)") twice_env (twice_parser 2)) as [v3|] eqn:E3; [|vm_compute in E3; discriminate E3].
  exists v, v2, v3. split; [reflexivity|]. split; [reflexivity|]. split; [|split; [reflexivity|]].
  - intro S. assert (Q : lit "(a,b)=(a,b)" = lit "(a,c)=(a,c)"); [|vm_compute in Q; discriminate Q].
    eapply (C76_grammar box_all 9 sample_unicode twice twice_items twice_made twice_fine (or_introl eq_refl) sample_distinct _ _ twice_reads twice_asks_none
      [lit "rules"] twice (nth 2 twice_rules (rl "" [] (str "")))); [constructor|right; right; left; reflexivity|intros [F|F]; discriminate|reflexivity
      |apply tree_spec, E|apply tree_spec, E2|exact S].
  - vm_compute in E, E3. injection E as <-. injection E3 as <-. split; [repeat constructor|discriminate].
Qed.

(** Values of [value] keep all of their text whatever is on the stack. *)
Definition value_grammar : gmodule := grammar (firstn 2 twice_rules).
Example C76_grammar_any_stack_ex :
  (exists items, generate_items box_all 9 sample_unicode value_grammar = Ret items) /\ fine sample_unicode value_grammar /\
  forall m g' r, located (lit "rules") value_grammar m g' -> In r (g_rules g') -> ~ is_trivia_rule r ->
    asks_none (n_expr (pr_node r)) /\ slices_none (n_expr (pr_node r)).
Proof.
  split; [eexists; vm_compute; reflexivity|]. split; [apply fineb_spec; vm_compute; reflexivity|].
  intros m g' r L I _. assert (g' = value_grammar) as ->.
  { clear I. induction L as [|m g alias g' L IH J]; [reflexivity|]. subst g. destruct J. }
  destruct I as [<-|[<-|[]]]; (split; [apply asks_none_check; vm_compute; reflexivity|]); intros path range P; apply parts_all in P; cbn in P; intuition discriminate.
Qed.

(** A text with trivia: ["a  b"] is spelled by the tree of ["a" ~ "b"], the blanks being a gap. *)
Definition blanks : node := RepMinMax (Char 32%N) Empty 0 usize_max.
Definition spaced : node := Seq [(Char 97%N, Empty); (Choice [Char 98%N; CharRange 99%N 122%N], blanks)].
Definition no_rules (r : rule) : rule_def := mkRule false (fun _ => Empty).
Example C76_spelled_ex :
  tree 0 (lit "a  b") no_rules spaced = Some (VSeq [VUnit; VChoice 0 VUnit]) /\
  spells no_rules (skipped (lit "a  b") no_rules sample_digit) spaced (VSeq [VUnit; VChoice 0 VUnit]) (lit "a  b").
Proof.
  assert (E : tree 0 (lit "a  b") no_rules spaced = Some (VSeq [VUnit; VChoice 0 VUnit])) by (vm_compute; reflexivity).
  split; [exact E|]. eapply C76_spelled, tree_spec, E.
Qed.
Example C76_text_ex : no_gaps no_rules (Seq [(Char 97%N, blanks); (CharRange 98%N 122%N, Empty)]) /\
  tree 0 (lit "ab") no_rules (Seq [(Char 97%N, blanks); (CharRange 98%N 122%N, Empty)]) = Some (VSeq [VUnit; VChar 98%N]).
Proof.
  split; [|vm_compute; reflexivity]. intros x X. inversion X as [| | | |? ? ? J W| |]; subst; [repeat constructor|].
  destruct J as [J|[J|[]]]; injection J as <- <-; inversion W; subst; exact I.
Qed.
Lemma blanks_lost : tree 0 (lit "ab") no_rules spaced = Some (VSeq [VUnit; VChoice 0 VUnit]).
Proof. vm_compute. reflexivity. Qed.

(** What the trivia between two fields matched is not in the tree. *)
Theorem C76_trivia_refuted :
  ~ (forall addr s env property k n v addr2 s2 k2 v2,
       text_try_parse addr s env property k n = Ret (inl v) -> text_try_parse addr2 s2 env property k2 n = Ret (inl v2) ->
       same_tree v v2 -> s = s2).
Proof.
  intro H. assert (Q : lit "a  b" = lit "ab"); [|vm_compute in Q; discriminate Q].
  eapply (H 0%N _ no_rules sample_digit 60 spaced _ 0%N _ 60 _ (tree_spec _ _ _ _ _ (proj1 C76_spelled_ex)) (tree_spec _ _ _ _ _ blanks_lost)).
  repeat constructor.
Qed.
Print Assumptions C76_trivia_refuted.

(** A slice of the stack leaves nothing in the tree: with other stacks, other texts have the same tree. *)
Theorem C76_slice_refuted :
  ~ (forall addr s env property k n K sv t p v st' addr2 s2 k2 K2 sv2 t2 p2 v2 st2',
       valid_stack K -> valid_stack K2 -> no_gaps env n ->
       try_parse addr s env property k n 0 (mkState (mkStack K sv) t) = Ret (Some (p, v), st') ->
       try_parse addr2 s2 env property k2 n 0 (mkState (mkStack K2 sv2) t2) = Ret (Some (p2, v2), st2') ->
       p = blen s -> p2 = blen s2 -> same_tree v v2 -> s = s2).
Proof.
  intro H. assert (Q : lit "a" = lit "b"); [|vm_compute in Q; discriminate Q].
  refine (H 0%N (lit "a") no_rules sample_digit 9 (PeekSlice1 0%Z) [mkSpan 0 (lit "a") 0 1] [] (tracker_new 0) 1 VUnit _ 0%N (lit "b") 9
    [mkSpan 0 (lit "b") 0 1] [] (tracker_new 0) 1 VUnit _ _ _ _ eq_refl eq_refl eq_refl eq_refl ST_unit).
  - exists [lit "a"]. constructor; [|constructor]. exists [], []. repeat split.
  - exists [lit "b"]. constructor; [|constructor]. exists [], []. repeat split.
  - intros x X. inversion X; subst. exact I.
Qed.
Print Assumptions C76_slice_refuted.

(** The hypotheses of the theorems about parts of texts: after ["x="], with ["q"] on the stack. *)
Example C76_part_ex :
  Forall2 span_text [mkSpan 0 (lit "q") 0 1] [lit "q"] /\ valid_stack [mkSpan 0 (lit "q") 0 1] /\
  keeps_all no_rules (Push (RepMinMax (CharRange 97%N 122%N) Empty 1 usize_max)) /\
  exists st, try_parse 0 (lit "x=ab!") no_rules sample_digit 60 (Push (RepMinMax (CharRange 97%N 122%N) Empty 1 usize_max)) (blen (lit "x="))
    (mkState (mkStack [mkSpan 0 (lit "q") 0 1] []) (tracker_new 0)) = Ret (Some (4, VPush (VRep [VChar 97%N; VChar 98%N])), st).
Proof.
  assert (F : Forall2 span_text [mkSpan 0 (lit "q") 0 1] [lit "q"]) by (constructor; [exists [], []; repeat split|constructor]).
  split; [exact F|]. split; [exists [lit "q"]; exact F|]. split; [|eexists; vm_compute; reflexivity].
  intros x X. inversion X as [|? W| | | | |]; subst; [exact I|]. inversion W as [| | | | |? ? ? ? W'|]; subst; [reflexivity|]. inversion W'; subst. exact I.
Qed.
