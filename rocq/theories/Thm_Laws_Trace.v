(** C95: laws of grammar expressions that keep the reports of errors (generator/src/typed/generator.rs,
    core/src/typed/traits.rs L24-53, L136-254, core/src/typed/tracker.rs). *)
From Coq Require Import String List NArith ZArith Arith Bool Lia.
From Verif Require Import Proof_Grammar_Tree_Inline Proof_Grammar_Tree_Det Proof_Grammar_Trace_Det Proof_Det Proof_Text Model_Text Model_Message Model_Meta Model_Import Model_Position Model_Span Model_Stack Model_Tracker Model_Node Model_Pairs
  Model_Generator Model_Output Model_Inline
  Spec_Text Spec_Peg Spec_Run Spec_Yield Spec_Rust Spec_Grammar_Peg Spec_Occur Spec_Generator Spec_Inline Spec_Laws Spec_Laws_Trace Spec_Grammar_Tree Spec_Grammar_Trace Spec_Local
  Proof_Laws Proof_Laws_Tree Proof_Laws_Trace Example_Generator Example_Fine Example_Inline Thm_Generated Thm_Local Thm_Laws Thm_Laws_Tree Thm_Grammar_Tree Thm_Grammar_Trace Thm_Whole_Tree Thm_Local_Tree.
Import ListNotations.
Open Scope list_scope.

(** Both sides of such a law try the same rules, in the same places and the same order, wherever they stand. *)
Theorem C95_law : forall unicode property open g, complete unicode g -> distinct_properties unicode -> (forall h q, open h q \/ ~ open h q) ->
  forall e e', tracing_law e e' ->
  forall chain positive pre post K r tr, gtry unicode property open chain positive g [] e pre post K r tr <-> gtry unicode property open chain positive g [] e' pre post K r tr.
Proof.
  intros unicode property open g C D Op e e' L chain pol pre post K r tr. assert (S := law_tries unicode property open g [] e e' L). split; [apply S|].
  apply tries_back; try assumption; [constructor|apply law_alike, L].
Qed.
Print Assumptions C95_law.

Lemma rewritten_both_tries : forall unicode property open m, complete unicode m -> distinct_properties unicode -> (forall h q, open h q \/ ~ open h q) ->
  forall rho, good_env unicode rho -> forall e e', rewritten tracing_law e e' ->
  Proof_Laws.alike unicode property m rho e e' /\ same_tries unicode property open m rho e e'.
Proof.
  intros unicode property open m C D Op rho Ge e e' R.
  assert (A : forall x x', tracing_law x x' -> Proof_Laws.alike unicode property m rho x x') by (intros x x' L; apply law_alike, L).
  split; [exact (rewritten_alike unicode property tracing_law m rho A e e' R)|].
  refine (proj1 (rewritten_tries unicode property open tracing_law m rho A _ e e' R)).
  intros x x' L. split; [apply law_tries, L|]. apply tries_back; auto. apply law_tries, L.
Qed.
Lemma rewritten_more : forall (L L' : parse_expr -> parse_expr -> Prop), (forall e e', L e e' -> L' e e') -> forall e e', rewritten L e e' -> rewritten L' e e'.
Proof.
  intros L L' I e e' R. induction R; [apply RW_law, I; assumption|apply RW_refl|apply RW_sym; assumption|eapply RW_trans; eassumption|apply RW_positive|apply RW_negative|apply RW_opt|apply RW_seq
    |apply RW_choice|apply RW_separated|apply RW_star|apply RW_plus|apply RW_bounds|apply RW_argument]; assumption.
Qed.
Lemma grammar_more : forall g g', rewritten_grammar tracing_law g g' -> rewritten_grammar laws g g'.
Proof.
  intros g g' (F & Im). split; [|exact Im]. clear Im. induction F as [|x y l l' (En & Ea & B) F IH]; constructor; [|exact IH]. split; [exact En|]. split; [exact Ea|].
  refine (rewritten_more tracing_law laws _ _ _ B). intros e e' L. left. apply L.
Qed.
Lemma tracing_back : forall g g', rewritten_grammar tracing_law g g' -> silent_alike g g' -> rewritten_grammar tracing_law g' g /\ silent_alike g' g.
Proof.
  intros g g' (F & Im) S. split; [split; [|symmetry; exact Im]|].
  - clear - F. induction F as [|x y l l' (En & Ea & B) F IH]; constructor; [|exact IH]. repeat split; try (symmetry; assumption). apply RW_sym, B.
  - unfold silent_alike in *. clear - S. induction S; constructor; [symmetry; assumption|assumption].
Qed.

(** If a grammar is rewritten by them, in any places and any number of times, the rules of the same names are tried. *)
Theorem C95_tries : forall unicode property g g', complete unicode g -> complete unicode g' -> distinct_properties unicode ->
  rewritten_grammar tracing_law g g' -> silent_alike g g' ->
  forall r r', In r (g_rules g) -> In r' (g_rules g') -> rewritten_rule tracing_law r r' ->
  forall pre post K res tr, gtry_rule unicode property (open_own g) g r pre post K res tr ->
  exists tr', gtry_rule unicode property (open_own g') g' r' pre post K res tr' /\ Forall2 (event_alike (counterpart g g')) tr tr'.
Proof.
  intros unicode property g g' C C' D (F & Im) S r r' I I' (En & Ea & R) pre post K res gtr (tr & H & ->).
  set (related := fun r r' => rewritten_rule tracing_law r r' /\ pr_silent r' = pr_silent r).
  assert (B : Forall2 related (g_rules g) (g_rules g')).
  { unfold silent_alike in S. clear - F S. induction F as [|x y l l' B F IH]; [constructor|]. inversion S; subst. constructor; [split; assumption|auto]. }
  assert (Both := rewritten_both_tries unicode property (open_own g') g' C' D (open_own_dec g')).
  assert (Ke : counterpart g g' (g, r) (g', r')) by (right; cbn; auto 10).
  destruct (proj1 (bodies_tries unicode property (open_own g) (open_own g') g g' C' related
    (fun r r' Rl => conj (proj1 (proj1 Rl)) (conj (proj1 (proj2 (proj1 Rl))) (fun rho Ge pre post K res => proj1 (proj1 (Both rho Ge _ _ (proj2 (proj2 (proj1 Rl)))) pre post K res)))) B Im
    ltac:(intros x x' ((Xn & Xa & _) & Xs) X X'; unfold open_own, macro; rewrite Xa, Xs; tauto)
    ltac:(intros h q Ih; destruct (inner_other unicode g g' Im h Ih); unfold open_own; tauto)
    (fun r r' Rl rho Ge => proj2 (Both rho Ge _ _ (proj2 (proj2 (proj1 Rl))))))
    _ _ _ _ _ _ _ _ _ _ H [((g', r'), blen pre)] g' [] ltac:(constructor; [split; [exact Ke|reflexivity]|constructor]) (or_intror (conj eq_refl eq_refl)) (SE_nil _ _ _)) as (qs & T & M).
  eexists. split; [exists qs; split; [apply (proj2 (Both [] (GE_nil _) _ _ R)), T|reflexivity]|].
  apply Forall2_app; [exact M|]. rewrite (counterpart_tried _ _ _ _ M). destruct (tried_grammar_rule tr); constructor; [constructor; [constructor|exact Ke]|constructor].
Qed.
Print Assumptions C95_tries.

(** What the parsers of a rule return for a text is the same, whether a tree or a report. *)
Theorem C95_parse : forall unicode g g' tm tm' id id' env env',
  generated unicode g tm id env -> generated unicode g' tm' id' env' -> rewritten_grammar tracing_law g g' -> silent_alike g g' ->
  forall property r, In r (g_rules g) -> ~ is_trivia_rule r -> pr_args r = [] ->
  forall addr s k k' o o',
  text_try_parse addr s env property k (Rule (id [tm] (pr_name r)) []) = Ret o ->
  text_try_parse addr s env' property k' (Rule (id' [tm'] (pr_name r)) []) = Ret o' ->
  returns_alike (same_rule g g' tm tm' id id') env env' o o'.
Proof.
  intros unicode g g' tm tm' id id' env env' Gn Gn' R Sl property r I Nt Na addr s k k' o o' E E'.
  assert (Pairs := fun v v' => C88_pairs unicode g g' tm tm' id id' env env' Gn Gn' (grammar_more _ _ R) Sl property r I Nt Na addr s k k' v v').
  assert (exists r', In r' (g_rules g') /\ rewritten_rule tracing_law r r') as (r' & I' & Rr).
  { destruct R as (F & _). clear - F I. induction F as [|x y l l' B F IH]; [destruct I|]. destruct I as [<-|I]; [exists y; split; [left; reflexivity|auto]|].
    destruct (IH I) as (q & Iq & Q). exists q. split; [right; exact Iq|exact Q]. }
  assert (En := proj1 Rr). assert (Ea := proj1 (proj2 Rr)).
  destruct Gn as (config & fuel & items & G & -> & C & T & Pt & F & Ty & D & Rd). destruct Gn' as (config' & fuel' & items' & G' & -> & C' & T' & Pt' & F' & Ty' & _ & Rd').
  assert (Nt' : ~ is_trivia_rule r') by (unfold is_trivia_rule in *; rewrite En; exact Nt). assert (Na' : pr_args r' = []) by (rewrite Ea; exact Na).
  assert (W := typed_written config fuel unicode g items G C T Pt F Ty D id env Rd property _ g r (Loc_top _ _) I Nt Na addr s).
  assert (W' := typed_written config' fuel' unicode g' items' G' C' T' Pt' F' Ty' D id' env' Rd' property _ g' r' (Loc_top _ _) I' Nt' Na' addr s).
  assert (E0 := E'). rewrite <- En in E'.
  assert (Both : forall res tr, gtry_rule unicode property (open_own g) g r [] s [] res tr -> forall res' tr', gtry_rule unicode property (open_own g') g' r' [] s [] res' tr' ->
    res' = res /\ Forall2 (event_alike (counterpart g g')) tr tr').
  { intros res tr H res' tr' H'. destruct (C95_tries unicode property g g' C C' D R Sl r r' I I' Rr _ _ _ _ _ H) as (q & Hq & Fq).
    destruct (C86_unique unicode property (open_own g') g' r' D C' _ _ _ _ _ _ _ Hq H') as (-> & ->). split; [reflexivity|exact Fq]. }
  assert (Tg := fun res H => proj1 (C86_exists unicode property (open_own g) (open_own_dec g) g r [] s [] res) H).
  assert (Tg' := fun res H => proj1 (C86_exists unicode property (open_own g') (open_own_dec g') g' r' [] s [] res) H).
  set (S := or_end (same_rule g g' (types_mod (rules_mod config)) (types_mod (rules_mod config')) id id')).
  assert (RS : forall x x' l l', numbered_as (located (types_mod (rules_mod config)) g) id x l -> numbered_as (located (types_mod (rules_mod config')) g') id' x' l' -> counterpart g g' l l' -> S x x')
    by (intros x x' l l' A B K; left; exists l, l'; auto).
  assert (End_ : S EOI EOI) by (right; auto).
  destruct o as [v|t], o' as [v'|t'].
  - exact (Pairs v v' E E0).
  - destruct (written_tree _ _ _ _ _ _ _ _ _ _ _ W _ _ E) as (Ks & ps & Tr & _). apply (proj1 (gtree_gpeg unicode property (open_own g))), Tg in Tr. destruct Tr as (tr0 & Tr).
    destruct (written_report _ _ _ _ _ _ _ _ _ _ _ W' _ _ E') as [(tr & H & _)|(x & rest & Ks' & tr & _ & N & H & _)]; destruct (Both _ _ Tr _ _ H) as (Q & _); [discriminate Q|]. injection Q as _ Q _. destruct N. exact Q.
  - destruct (written_tree _ _ _ _ _ _ _ _ _ _ _ W' _ _ E') as (Ks & ps & Tr & _). apply (proj1 (gtree_gpeg unicode property (open_own g'))), Tg' in Tr. destruct Tr as (tr0 & Tr).
    destruct (written_report _ _ _ _ _ _ _ _ _ _ _ W _ _ E) as [(tr & H & _)|(x & rest & Ks' & tr & _ & N & H & _)]; destruct (Both _ _ H _ _ Tr) as (Q & _); [discriminate Q|]. injection Q as _ Q _. destruct N. symmetry. exact Q.
  - destruct (written_report _ _ _ _ _ _ _ _ _ _ _ W _ _ E) as [(tr & H & Te)|(x & rest & Ks & tr & Es & N & H & Te)];
    destruct (written_report _ _ _ _ _ _ _ _ _ _ _ W' _ _ E') as [(tr' & H' & Te')|(x' & rest' & Ks' & tr' & Es' & N' & H' & Te')];
    destruct (Both _ _ H _ _ H') as (Q & Fq); try discriminate Q.
    + split; [exact (tells_alike _ _ _ _ RS _ _ _ _ Fq Te Te')|]. refine (tells_alike _ _ (fun l' l => counterpart g g' l l') (fun x' x => S x x') _ _ _ _ _ (event_back _ _ _ Fq) Te' Te). intros; eapply RS; eassumption.
    + injection Q as -> _ _. split; [exact (rest_alike _ _ _ _ RS End_ _ _ _ _ _ Fq Te Te')|].
      refine (rest_alike _ _ (fun l' l => counterpart g g' l l') (fun x' x => S x x') _ _ _ _ _ _ _ (event_back _ _ _ Fq) Te' Te); [intros; eapply RS; eassumption|exact End_].
Qed.
Print Assumptions C95_parse.

(** The grammar
<<
    ~ = " "?
    r = (a - "b"?) ~ (c* - "!") | d
    a = "a"    c = "c"    d = "d"
>>
    can be written as
<<
    ~ = " " | ""
    r = a - ("b"? ~ ((c+ | "") - "!")) | d
    a = "a"    c = 'c'..'c'    d = "d"
>>
    For ["ab cx"] both report that [c] was expected in [r] at 4, for ["x"] that [a] or [d] were expected at 0, and ["ab cc!"] has the same tree. *)
Definition traced_rules : list parse_rule := [
  rl "~" [] (opt (str " "));
  rl "r" [] (alt (sq (sq (nm "a") TriviaNone (opt (str "b"))) TriviaOptional (sq (star (nm "c")) TriviaNone (str "!"))) (nm "d"));
  rl "a" [] (str "a"); rl "c" [] (str "c"); rl "d" [] (str "d")].
Definition retraced_rules : list parse_rule := [
  rl "~" [] (alt (str " ") (str ""));
  rl "r" [] (alt (sq (nm "a") TriviaNone (sq (opt (str "b")) TriviaOptional (sq (alt (plus (nm "c")) (str "")) TriviaNone (str "!")))) (nm "d"));
  rl "a" [] (str "a"); rl "c" [] (PRange 99%N 99%N); rl "d" [] (str "d")].
Lemma tracing : forall e e', law e e' -> ~ tries_otherwise e e' -> rewritten tracing_law e e'.
Proof. intros e e' L N. apply RW_law. split; assumption. Qed.
Ltac tries_alike := intros [(? & ? & Q & Q' & _)|[(? & ? & ? & Q & _)|[(? & ? & Q & _)|(? & ? & Q & _)]]]; try discriminate Q; try (injection Q; intros; subst; discriminate).
Example C95_ex :
  let g := grammar traced_rules in let g' := grammar retraced_rules in
  generated sample_unicode g (lit "rules") (id_of g) (env_of g) /\ generated sample_unicode g' (lit "rules") (id_of g') (env_of g') /\
  rewritten_grammar tracing_law g g' /\ silent_alike g g' /\ (forall h q, open_own g h q \/ ~ open_own g h q) /\
  (exists r, In r (g_rules g) /\ pr_name r = lit "r" /\ ~ is_trivia_rule r /\ pr_args r = []) /\
  (forall x, x = g \/ x = g' ->
     shown x "ab cc!" = Some [mkPair (named x "r") 0 6 [mkPair (named x "a") 0 1 []; mkPair (named x "c") 3 4 []; mkPair (named x "c") 4 5 []]] /\
     reported x "ab cx" = Some (4, [(Some (named x "r"), ([named x "c"], [], []))]) /\
     reported x "x" = Some (0, [(None, ([named x "a"; named x "d"], [], []))])).
Proof.
  intros g g'. split; [apply generated_if; vm_compute; reflexivity|]. split; [apply generated_if; vm_compute; reflexivity|]. split.
  { split; [|reflexivity]. constructor; [|constructor; [|constructor; [|constructor; [|constructor; [|constructor]]]]]; (split; [reflexivity|]; split; [reflexivity|]).
    - apply tracing; [apply L_opt_choice|tries_alike].
    - apply RW_choice; [|apply RW_refl]. eapply RW_trans.
      + apply tracing; [apply (L_seq _ _ _ _ _ _ sp)|tries_alike].
      + apply RW_seq; [apply RW_refl|]. apply RW_seq; [apply RW_refl|]. apply RW_seq; [|apply RW_refl]. apply tracing; [apply L_star|tries_alike].
    - apply RW_refl.
    - apply RW_sym. apply tracing; [apply L_char|tries_alike].
    - apply RW_refl. }
  split; [repeat constructor|]. split; [apply open_own_dec|]. split.
  { eexists. split; [right; left; reflexivity|]. split; [reflexivity|]. split; [intros [E|E]; discriminate E|reflexivity]. }
  intros x [->| ->]; (split; [vm_compute; reflexivity|]; split; vm_compute; reflexivity).
Qed.
