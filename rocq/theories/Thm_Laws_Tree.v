(** C88: replacing parts of a grammar by the laws of C82 keeps the trees (generator/src/typed/generator.rs, module.rs, core/src/typed/traits.rs L156-254). *)
From Coq Require Import String List NArith ZArith Arith Bool Lia.
From Verif Require Import Proof_Accepted Proof_Accept Proof_Grammar_Tree_Inline Proof_Grammar_Tree_Det Model_Text Model_Message Model_Meta Model_Import Model_Position Model_Span Model_Stack Model_Tracker Model_Node Model_Pairs
  Model_Generator Model_Output Model_Inline
  Spec_Text Spec_Peg Spec_Run Spec_Yield Spec_Rust Spec_Grammar_Peg Spec_Occur Spec_Generator Spec_Inline Spec_Laws Spec_Grammar_Tree
  Proof_Text Proof_Det Proof_Laws Proof_Laws_Tree Example_Generator Example_Fine Example_Inline Thm_Generated Thm_Local Thm_Laws Thm_Grammar_Tree Thm_Whole_Tree.
Import ListNotations.
Open Scope list_scope.

(** The two sides of a law have the same trees. *)
Theorem C88_law : forall unicode property open g, complete unicode g -> distinct_properties unicode -> (forall h q, open h q \/ ~ open h q) ->
  forall e e', laws e e' ->
  forall pre post K pre' post' K' ps, gtree unicode property open g [] e pre post K pre' post' K' ps <-> gtree unicode property open g [] e' pre post K pre' post' K' ps.
Proof.
  intros unicode property open g C D Op e e' L pre post K pre' post' K' ps.
  assert (S : Proof_Laws.alike unicode property g [] e e' /\ same_trees unicode property open g [] e e').
  { destruct L as [L|L]; [split; [apply law_alike, L|apply law_trees, L]|split; [apply factor_alike; try assumption; apply GE_nil|apply factor_trees; try assumption; apply GE_nil]]. }
  split; [apply (proj2 S)|]. apply (trees_back unicode property open D Op g [] e e' C (GE_nil _) (proj1 S) (proj2 S)).
Qed.
Print Assumptions C88_law.
(** From left to right, the laws hold in every grammar, complete or not, whatever the parameters stand for. *)
Theorem C88_law_any : forall unicode property open g rho e e', law e e' ->
  forall pre post K pre' post' K' ps, gtree unicode property open g rho e pre post K pre' post' K' ps -> gtree unicode property open g rho e' pre post K pre' post' K' ps.
Proof. intros unicode property open g rho e e' L. exact (law_trees unicode property open g rho e e' L). Qed.
Print Assumptions C88_law_any.

Lemma rewritten_both : forall unicode property open m, complete unicode m -> distinct_properties unicode -> (forall h q, open h q \/ ~ open h q) ->
  forall rho, good_env unicode rho -> forall e e', rewritten laws e e' ->
  Proof_Laws.alike unicode property m rho e e' /\ same_trees unicode property open m rho e e'.
Proof.
  intros unicode property open m C D Op rho Ge e e' R.
  assert (A : forall x x', laws x x' -> Proof_Laws.alike unicode property m rho x x') by (intros x x' [L|L]; [apply law_alike, L|apply factor_alike; assumption]).
  assert (F : forall x x', laws x x' -> same_trees unicode property open m rho x x') by (intros x x' [L|L]; [apply law_trees, L|apply factor_trees; assumption]).
  split; [exact (rewritten_alike unicode property laws m rho A e e' R)|].
  refine (proj1 (rewritten_trees unicode property open laws m rho A _ e e' R)).
  intros x x' L. split; [apply F, L|]. apply trees_back; auto.
Qed.
Lemma rewritten_back : forall g g', rewritten_grammar laws g g' -> silent_alike g g' -> rewritten_grammar laws g' g /\ silent_alike g' g.
Proof.
  intros g g' (F & Im) S. split; [split; [|symmetry; exact Im]|].
  - clear - F. induction F as [|x y l l' (En & Ea & B) F IH]; constructor; [|exact IH]. repeat split; try (symmetry; assumption). apply RW_sym, B.
  - unfold silent_alike in *. clear - S. induction S; constructor; [symmetry; assumption|assumption].
Qed.

(** A tree of a grammar is one of the rewritten grammar, with the same offsets and with the rules of the same names. *)
Theorem C88_grammar : forall unicode property g g', complete unicode g -> complete unicode g' -> distinct_properties unicode ->
  rewritten_grammar laws g g' -> silent_alike g g' -> forall e e', rewritten laws e e' ->
  forall pre post K pre' post' K' ps, gtree unicode property (open_own g) g [] e pre post K pre' post' K' ps ->
  exists qs, gtree unicode property (open_own g') g' [] e' pre post K pre' post' K' qs /\ matched_all (counterpart g g') ps qs.
Proof.
  intros unicode property g g' C C' D (F & Im) S e e' R pre post K pre' post' K' ps H.
  set (related := fun r r' => rewritten_rule laws r r' /\ pr_silent r' = pr_silent r).
  assert (B : Forall2 related (g_rules g) (g_rules g')).
  { unfold silent_alike in S. clear - F S. induction F as [|x y l l' B F IH]; [constructor|]. inversion S; subst. constructor; [split; assumption|auto]. }
  assert (Both := rewritten_both unicode property (open_own g') g' C' D (open_own_dec g')).
  destruct (proj1 (bodies_trees unicode property (open_own g) (open_own g') g g' C' related
    (fun r r' Rl => conj (proj1 (proj1 Rl)) (conj (proj1 (proj2 (proj1 Rl))) (fun rho Ge pre post K res => proj1 (proj1 (Both rho Ge _ _ (proj2 (proj2 (proj1 Rl)))) pre post K res)))) B Im
    (fun r r' Rl => proj2 Rl)
    ltac:(intros r r' ((En & Ea & _) & Es) I I'; unfold open_own, macro; rewrite Ea, Es; tauto)
    ltac:(intros h q Ih; destruct (inner_other unicode g g' Im h Ih); unfold open_own; tauto)
    (fun r r' Rl rho Ge => proj2 (Both rho Ge _ _ (proj2 (proj2 (proj1 Rl))))))
    _ _ _ _ _ _ _ _ _ _ H g' [] (or_intror (conj eq_refl eq_refl)) (SE_nil _ _ _)) as (qs & T & M).
  exists qs. split; [|exact M]. apply (proj2 (Both [] (GE_nil _) _ _ R)), T.
Qed.
Print Assumptions C88_grammar.

(** Numbers of the parsers of [g] and of [g'] that stand for a rule and its counterpart. *)
Definition same_rule (g g' : gmodule) (tm tm' : text) (id id' : list text -> text -> rule) (x x' : rule) : Prop :=
  exists l l', numbered_as (located tm g) id x l /\ numbered_as (located tm' g') id' x' l' /\ counterpart g g' l l'.
Lemma matched_chain : forall (A B C E : Type) (R : A -> B -> Prop) (Q : B -> C -> Prop) (S : E -> C -> Prop) ps qs ks es,
  matched_all R ps qs -> matched_all Q qs ks -> matched_all S es ks -> matched_all (fun x z => exists y w, R x y /\ S z w /\ Q y w) ps es.
Proof.
  intros A B C E R Q S ps qs ks es M1. revert ks es.
  apply (matched_all_mut A B R
    (fun p q _ => forall k e, matched Q q k -> matched S e k -> matched (fun x z => exists y w, R x y /\ S z w /\ Q y w) p e)
    (fun ps qs _ => forall ks es, matched_all Q qs ks -> matched_all S es ks -> matched_all (fun x z => exists y w, R x y /\ S z w /\ Q y w) ps es)); [| | |exact M1].
  - intros a b start stop ps0 qs0 Rab _ IH k e M2 M3. inversion M2; subst. inversion M3; subst. constructor; [eauto 6|]. eapply IH; eassumption.
  - intros ks es M2 M3. inversion M2; subst. inversion M3; subst. constructor.
  - intros p q ps0 qs0 _ IHp _ IHs ks es M2 M3. inversion M2; subst. inversion M3; subst. constructor; [eapply IHp; eassumption|eapply IHs; eassumption].
Qed.

(** What the parsers of a rule and of the rewritten rule return for a text has the same pairs. *)
Theorem C88_pairs : forall unicode g g' tm tm' id id' env env',
  generated unicode g tm id env -> generated unicode g' tm' id' env' -> rewritten_grammar laws g g' -> silent_alike g g' ->
  forall property r, In r (g_rules g) -> ~ is_trivia_rule r -> pr_args r = [] ->
  forall addr s k k' v v',
  text_try_parse addr s env property k (Rule (id [tm] (pr_name r)) []) = Ret (inl v) ->
  text_try_parse addr s env' property k' (Rule (id' [tm'] (pr_name r)) []) = Ret (inl v') ->
  matched_all (same_rule g g' tm tm' id id') (for_self_or_for_each_child_pair env v) (for_self_or_for_each_child_pair env' v').
Proof.
  intros unicode g g' tm tm' id id' env env' Gn Gn' R Sl property r I Nt Na addr s k k' v v' P P'.
  assert (exists r', In r' (g_rules g') /\ rewritten_rule laws r r' /\ pr_silent r' = pr_silent r) as (r' & I' & (En & Ea & B) & Es).
  { destruct R as (F & _). unfold silent_alike in Sl. clear - F Sl I. induction F as [|x y l l' B F IH]; [destruct I|]. inversion Sl; subst. destruct I as [<-|I]; [exists y; split; [left; reflexivity|auto]|].
    destruct (IH ltac:(assumption) I) as (q & Iq & Q). exists q. split; [right; exact Iq|exact Q]. }
  destruct Gn as (config & fuel & items & G & -> & C & T & Pt & F & Ty & D & Rd). destruct Gn' as (config' & fuel' & items' & G' & -> & C' & T' & Pt' & F' & Ty' & _ & Rd').
  assert (Nt' : ~ is_trivia_rule r') by (unfold is_trivia_rule in *; rewrite En; exact Nt). assert (Na' : pr_args r' = []) by (rewrite Ea; exact Na).
  assert (W := typed_written config fuel unicode g items G C T Pt F Ty D id env Rd property _ g r (Loc_top _ _) I Nt Na addr s).
  assert (W' := typed_written config' fuel' unicode g' items' G' C' T' Pt' F' Ty' D id' env' Rd' property _ g' r' (Loc_top _ _) I' Nt' Na' addr s).
  rewrite <- En in P'. destruct (written_tree _ _ _ _ _ _ _ _ _ _ _ W _ _ P) as (Ks & ps & Tr & M). destruct (written_tree _ _ _ _ _ _ _ _ _ _ _ W' _ _ P') as (Ks' & ps' & Tr' & M').
  destruct (C88_grammar unicode property g g' C C' D R Sl _ _ B _ _ _ _ _ _ _ Tr) as (qs & Tq & Mq).
  destruct (C85_unique unicode property (open_own g') g' _ D C' _ _ _ _ _ _ _ _ _ _ _ Tq Tr') as (_ & _ & _ & ->).
  rewrite Es in M'. refine (matched_chain _ _ _ _ _ _ _ _ _ _ _ M _ M'). destruct (pr_silent r); [constructor|]. constructor; [|constructor]. constructor; [|exact Mq].
  right. cbn. auto 10.
Qed.
Print Assumptions C88_pairs.

(** The grammar
<<
    ~ = " "?
    r = (a - "b"?) ~ (c* - "!") | (a - "b"?) ~ (d - "e")
    a = "a"    c = "c"    d =_ "d"
>>
    can be written as
<<
    ~ = " " | ""
    r = a - ("b"? ~ ((c+ | "") - "!" | d - "e"))
    a = "a"    c = "c"    d =_ 'd'..'d'
>>
    and on ["ab cc!"] both give [r(0, 6, [a(0, 1), c(3, 4), c(4, 5)])]. *)
Definition old_rules : list parse_rule := [
  rl "~" [] (opt (str " "));
  rl "r" [] (alt (sq (sq (nm "a") TriviaNone (opt (str "b"))) TriviaOptional (sq (star (nm "c")) TriviaNone (str "!")))
                 (sq (sq (nm "a") TriviaNone (opt (str "b"))) TriviaOptional (sq (nm "d") TriviaNone (str "e"))));
  rl "a" [] (str "a"); rl "c" [] (str "c"); srl "d" [] (str "d")].
Definition new_rules : list parse_rule := [
  rl "~" [] (alt (str " ") (str ""));
  rl "r" [] (sq (nm "a") TriviaNone (sq (opt (str "b")) TriviaOptional (alt (sq (alt (plus (nm "c")) (str "")) TriviaNone (str "!")) (sq (nm "d") TriviaNone (str "e")))));
  rl "a" [] (str "a"); rl "c" [] (str "c"); srl "d" [] (PRange 100%N 100%N)].
Definition shown (g : gmodule) (s : string) : option (list (pair rule)) :=
  match text_try_parse 0 (lit s) (env_of g) (fun _ _ => false) 60 (r_parser g) with Ret (inl v) => Some (for_self_or_for_each_child_pair (env_of g) v) | _ => None end.
Definition named (g : gmodule) (name : string) : rule := id_of g [lit "rules"] (lit name).
Example C88_ex :
  let g := grammar old_rules in let g' := grammar new_rules in
  generated sample_unicode g (lit "rules") (id_of g) (env_of g) /\ generated sample_unicode g' (lit "rules") (id_of g') (env_of g') /\
  rewritten_grammar laws g g' /\ silent_alike g g' /\ (forall h q, open_own g h q \/ ~ open_own g h q) /\
  (exists r, In r (g_rules g) /\ pr_name r = lit "r" /\ ~ is_trivia_rule r /\ pr_args r = []) /\
  shown g "ab cc!" = Some [mkPair (named g "r") 0 6 [mkPair (named g "a") 0 1 []; mkPair (named g "c") 3 4 []; mkPair (named g "c") 4 5 []]] /\
  shown g' "ab cc!" = Some [mkPair (named g' "r") 0 6 [mkPair (named g' "a") 0 1 []; mkPair (named g' "c") 3 4 []; mkPair (named g' "c") 4 5 []]].
Proof.
  cbv zeta. split; [apply generated_if; vm_compute; reflexivity|]. split; [apply generated_if; vm_compute; reflexivity|]. split.
  { split; [|reflexivity]. repeat (apply Forall2_cons; [split; [reflexivity|]; split; [reflexivity|]|]); [| | | | |apply Forall2_nil].
    - apply RW_law. left. apply L_opt_choice.
    - eapply RW_trans; [apply RW_law; right; apply (L_factor (nd (sq (nm "a") TriviaNone (opt (str "b")))) _ _ _ _ _ _ _ sp); reflexivity|].
      eapply RW_trans; [apply RW_law; left; apply (L_seq _ _ _ _ _ _ sp)|]. apply RW_seq; [apply RW_refl|]. apply RW_seq; [apply RW_refl|].
      apply RW_choice; [apply RW_seq; [apply star_plus|apply RW_refl]|apply RW_refl].
    - apply RW_refl.
    - apply RW_refl.
    - apply RW_sym, RW_law. left. apply L_char. }
  split; [repeat constructor|]. split; [apply open_own_dec|]. split.
  { eexists. split; [right; left; reflexivity|]. split; [reflexivity|]. split; [intros [E|E]; discriminate|reflexivity]. }
  split; vm_compute; reflexivity.
Qed.

(** The reports of errors are not kept:
<<
    r = &a - b        r = !!a - b
    a = "a"           a = "a"
    b = "b"           b = "b"
>>
    On ["x"] the first says that [a] was expected, the second says nothing. *)
Definition look_rules (e : parse_expr) : list parse_rule := [rl "r" [] (sq e TriviaNone (nm "b")); rl "a" [] (str "a"); rl "b" [] (str "b")].
Theorem C88_report_refuted : exists unicode g g' tm id env id' env',
  generated unicode g tm id env /\ generated unicode g' tm id' env' /\ rewritten_grammar laws g g' /\ silent_alike g g' /\
  exists property r s k t t', In r (g_rules g) /\ ~ is_trivia_rule r /\ pr_args r = [] /\
    text_try_parse 0 s env property k (Rule (id [tm] (pr_name r)) []) = Ret (inr t) /\
    text_try_parse 0 s env' property k (Rule (id' [tm] (pr_name r)) []) = Ret (inr t') /\
    finish t = (0, [(None, ([id [tm] (lit "a")], [], []))]) /\ finish t' = (0, []).
Proof.
  set (g := grammar (look_rules (PPosPred (nd (nm "a"))))). set (g' := grammar (look_rules (PNegPred (nd (PNegPred (nd (nm "a"))))))).
  exists sample_unicode, g, g', (lit "rules"), (id_of g), (env_of g), (id_of g'), (env_of g').
  split; [apply generated_if; vm_compute; reflexivity|]. split; [apply generated_if; vm_compute; reflexivity|]. split.
  { split; [|reflexivity]. repeat (apply Forall2_cons; [split; [reflexivity|]; split; [reflexivity|]|]); [| | |apply Forall2_nil]; try apply RW_refl.
    apply RW_seq; [apply RW_law; left; apply L_positive|apply RW_refl]. }
  split; [repeat constructor|]. exists (fun _ _ => false), (nth 0 (g_rules g) (rl "" [] (str ""))), (lit "x"), 60.
  destruct (text_try_parse 0 (lit "x") (env_of g) (fun _ _ => false) 60 (Rule (id_of g [lit "rules"] (pr_name (nth 0 (g_rules g) (rl "" [] (str ""))))) [])) as [[v|t]| |] eqn:E; try (vm_compute in E; discriminate E).
  destruct (text_try_parse 0 (lit "x") (env_of g') (fun _ _ => false) 60 (Rule (id_of g' [lit "rules"] (pr_name (nth 0 (g_rules g) (rl "" [] (str ""))))) [])) as [[v|t']| |] eqn:E'; try (vm_compute in E'; discriminate E').
  exists t, t'. split; [left; reflexivity|]. split; [intros [Q|Q]; discriminate|]. split; [reflexivity|]. split; [reflexivity|]. split; [reflexivity|].
  vm_compute in E, E'. injection E as <-. injection E' as <-. split; vm_compute; reflexivity.
Qed.
Print Assumptions C88_report_refuted.
