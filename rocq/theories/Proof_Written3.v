(** Proofs about the parser of grammar files: rules, imports and files are read as written. *)
From Coq Require Import String List NArith ZArith Arith Bool Lia.
From Verif Require Import Model_Text Model_Message Model_Meta Model_Pest2 Spec_Unescape Spec_Message Spec_Grammar Spec_Import
  Spec_Pest2 Spec_Written Proof_Pest2 Proof_First Proof_Tokens Proof_Written Proof_Written2.
Import ListNotations.
Open Scope list_scope.
Local Notation "a ;; b" := (Q_seq a b) (at level 60, right associativity).
Local Notation "a // b" := (Q_choice a b) (at level 61, right associativity).
Local Notation "$ r" := (Q_rule (Loud r)) (at level 1, format "$ r").
Local Notation "# s" := (Q_rule (Silent s)) (at level 1, format "# s").
Local Notation postfix := #S_postfix_operator.
Local Notation more_names := ($R_ancestry_operator ;; $R_identifier).
Local Notation more_terms := (#S_infix_operator ;; $R_term).
Local Notation more_formals := ($R_comma ;; $R_identifier).

(** * Documentation. *)
Definition docs_are (r : grule) (marker : text) (docs : list text) (ps : list ppair) : Prop :=
  calm ps /\ Forall2 (doc_pair r marker) ps docs.
Lemma docs_written : forall r marker d docs, (r = R_rule_doc /\ marker = lit "///") \/ (r = R_grammar_doc /\ marker = lit "//!") -> w_docs marker d docs ->
  forall z, solid z -> solid (d ++ z) /\ steps NonAtomic $r (d ++ z) z (docs_are r marker docs).
Proof.
  intros r marker d docs R H. induction H as [|u t w v l L T E B H IH]; intros z S.
  - split; [exact S|]. eapply steps_weaken; [apply steps_nil|]. intros ps ->. split; constructor.
  - destruct (IH z S) as (S' & St). rewrite <- !app_assoc. split.
    + destruct R as [(_ & ->)|(_ & ->)]; apply solid_doc; auto.
    + eapply steps_weaken; [eapply steps_app; [apply steps_one|exact St]|].
      * eapply exactly_yields; [apply doc_token; [exact R|exact L|]|apply passes_blank; [exact B|exact S']].
        right. destruct E as [(x & ->)|(x & ->)]; [left|right]; rewrite <- app_assoc; eexists; reflexivity.
      * intros ps (p & q & -> & (i & j & l' & -> & C) & (C2 & F)). cbn [app]. split.
        -- constructor; [apply tame_plain; [destruct R as [(-> & _)|(-> & _)]; discriminate..|exact C]|exact C2].
        -- constructor; [|exact F]. split; [reflexivity|]. exists u. split; [reflexivity|exact T].
Qed.

(** * Parameters. *)
Definition formals_are (l : list text) (ps : list ppair) : Prop := calm ps /\ formals ps l.
Lemma formals_written : forall u l, w_formals u l -> forall w v, blank w -> (u = [] /\ l = []) \/
  exists v1 v2 P1 P2 P3, yields NonAtomic $R_identifier (u ++ w ++ lit ")" ++ v) v1 P1 /\ solid v1 /\ steps NonAtomic more_formals v1 v2 P2 /\
    fails NonAtomic more_formals v2 /\ yields NonAtomic (Q_opt $R_comma) v2 (lit ")" ++ v) P3 /\
    u <> [] /\ in_class [(65, 90); (95, 95); (97, 122)]%N u /\ forall p q c, P1 p -> P2 q -> P3 c -> formals_are l (p ++ q ++ c).
Proof.
  intros u l H. induction H as [|u I|u w1 w2 u2 l I B1 B2 H IH]; intros w v B; [left; split; reflexivity|right..].
  - exists (lit ")" ++ v), (lit ")" ++ v). eexists _, nothing, nothing. destruct (name_head u I) as (N & C).
    split; [eapply exactly_yields; [apply identifier_token; [exact I|apply blank_follow; [exact B|by_class]]|apply passes_blank; [exact B|by_solid]]|]. split; [by_solid|].
    split; [apply steps_nil|]. split; [no_match|]. split; [apply yields_opt_none; [no_match|apply passes_solid; by_solid]|]. split; [exact N|]. split; [exact C|].
    intros p q c (i & j & l & -> & Ca) -> ->. cbn [app]. split; [constructor; [apply tame_plain; [discriminate|discriminate|exact Ca]|constructor]|].
    apply (Formals_last (mkPPair R_identifier u i j l)). reflexivity.
  - destruct (name_head u I) as (N & C). rewrite <- !app_assoc.
    assert (u ++ w1 ++ lit "," ++ w2 ++ u2 <> [] /\ in_class [(65, 90); (95, 95); (97, 122)]%N (u ++ w1 ++ lit "," ++ w2 ++ u2)) as (N' & C').
    { split; [destruct u; [contradiction|discriminate]|apply class_app; assumption]. }
    assert (forall z, yields NonAtomic $R_identifier (u ++ w1 ++ lit "," ++ z) (lit "," ++ z) (token R_identifier u calm)) as Y.
    { intro z. eapply exactly_yields; [apply identifier_token; [exact I|apply blank_follow; [exact B1|by_class]]|apply passes_blank; [exact B1|by_solid]]. }
    destruct (IH w v B) as [(-> & ->)|(v1 & v2 & P1 & P2 & P3 & Y1 & S1 & St & F & Y3 & Nv & Cv & D)].
    + assert (yields NonAtomic $R_comma (lit "," ++ w2 ++ [] ++ w ++ lit ")" ++ v) (lit ")" ++ v) (token R_comma (lit ",") calm)) as Yc.
      { cbn [app]. rewrite (app_assoc w2). apply (symbol_then R_comma (lit ",")); [reflexivity|reflexivity|apply blank_app; assumption|by_solid]. }
      exists (lit "," ++ w2 ++ [] ++ w ++ lit ")" ++ v), (lit "," ++ w2 ++ [] ++ w ++ lit ")" ++ v). eexists _, nothing, _.
      split; [apply Y|]. split; [by_solid|]. split; [apply steps_nil|]. split; [eapply fails_seq2; [exact Yc|no_match]|]. split; [apply yields_opt, Yc|]. split; [exact N'|]. split; [exact C'|].
      intros p q c (i & j & l & -> & C1) -> (i' & j' & l' & -> & C2). cbn [app]. split.
      * constructor; [apply tame_plain; [discriminate|discriminate|exact C1]|]. constructor; [apply tame_plain; [discriminate|discriminate|exact C2]|constructor].
      * apply (Formals_more (mkPPair R_identifier u i j l)); [reflexivity|reflexivity|constructor].
    + exists (lit "," ++ w2 ++ u2 ++ w ++ lit ")" ++ v), v2. eexists _, _, P3. split; [apply Y|]. split; [by_solid|]. split; [|split; [exact F|split; [exact Y3|split; [exact N'|split; [exact C'|]]]]].
      * eapply steps_app; [apply steps_one; eapply yields_seq; [|exact Y1]|exact St]. apply (symbol_then R_comma (lit ",")); [reflexivity|reflexivity|exact B2|].
        eapply solid_app; [split; [exact Nv|exact Cv]|reflexivity].
      * intros p q c (i & j & l' & -> & C1) (q1 & q2 & -> & (pc & p1 & -> & (i' & j' & l2 & -> & C2) & H1) & H2) H3. destruct (D p1 q2 c H1 H2 H3) as (C3 & D3). cbn [app]. rewrite <- app_assoc. split.
        -- constructor; [apply tame_plain; [discriminate|discriminate|exact C1]|]. constructor; [apply tame_plain; [discriminate|discriminate|exact C2]|exact C3].
        -- apply (Formals_more (mkPPair R_identifier u i j l')); [reflexivity|reflexivity|exact D3].
Qed.
Definition params_are (l : list text) (ps : list ppair) : Prop := calm ps /\ opt_formals ps l.
Lemma params_written : forall a l, w_params a l -> forall z, exists v0, in_class [(40, 40); (61, 61)]%N (a ++ lit "=" ++ z) /\
  v0 = a ++ lit "=" ++ z /\ yields NonAtomic (Q_opt $R_arguments) v0 (lit "=" ++ z) (params_are l).
Proof.
  intros a l [|w u w' l' w2 B U B' B2] z.
  - eexists. split; [by_class|]. split; [reflexivity|]. cbn [app]. eapply yields_weaken; [apply yields_opt_none; [no_match|apply passes_solid; by_solid]|].
    intros ps ->. split; constructor.
  - eexists. split; [by_class|]. split; [reflexivity|]. rewrite <- !app_assoc. apply yields_opt.
    assert (forall s i j o q c, calm [o] -> calm [c] -> pp_rule o = R_opening_paren -> pp_rule c = R_closing_paren -> formals_are l' q ->
      params_are l' [mkPPair R_arguments s i j (o :: q ++ [c])]) as Fin.
    { intros s i j o q c C1 C2 R1 R2 (C3 & D). split.
      - constructor; [|constructor]. apply tame_plain; [discriminate|discriminate|]. apply (Forall_app _ [o]). split; [exact C1|]. apply Forall_app. auto.
      - constructor; assumption. }
    assert (forall r u, r <> R_character -> r <> R_raw_string -> forall i j l, calm l -> calm [mkPPair r u i j l]) as Cl.
    { intros. constructor; [apply tame_plain; assumption|constructor]. }
    destruct (formals_written u l' U w' (w2 ++ lit "=" ++ z) B') as [(-> & ->)|(v1 & v2 & P1 & P2 & P3 & Y1 & S1 & St & N & Y3 & Nv & Cv & D)].
    + eapply yields_weaken; [apply yields_loud; [reflexivity|reflexivity|]|].
      * cbn [loud_body app]. eapply yields_seq; [apply (symbol_passes R_opening_paren (lit "(")); [reflexivity|reflexivity|rewrite app_assoc; apply passes_blank; [apply blank_app; assumption|by_solid]]|].
        eapply yields_seq; [apply yields_opt_none; [no_match|apply passes_solid; by_solid]|]. apply (symbol_then R_closing_paren (lit ")")); [reflexivity|reflexivity|exact B2|by_solid].
      * intros ps (x & i & j & l0 & -> & (p1 & q & -> & (? & ? & ? & -> & C1) & (p2 & p3 & -> & -> & (? & ? & ? & -> & C3)))). cbn [app].
        apply (Fin _ _ _ _ []); [apply Cl; [discriminate|discriminate|exact C1]|apply Cl; [discriminate|discriminate|exact C3]|reflexivity|reflexivity|]. split; constructor.
    + eapply yields_weaken; [apply yields_loud; [reflexivity|reflexivity|]|].
      * cbn [loud_body]. eapply yields_seq; [apply (symbol_then R_opening_paren (lit "(")); [reflexivity|reflexivity|exact B|]|].
        { eapply solid_app; [split; [exact Nv|exact Cv]|reflexivity]. }
        eapply yields_seq; [apply yields_opt|].
        -- eapply yields_seq; [exact Y1|]. eapply yields_seq; [apply yields_rep; [apply passes_solid, S1|exact St|exact N]|exact Y3].
        -- apply (symbol_then R_closing_paren (lit ")")); [reflexivity|reflexivity|exact B2|by_solid].
      * intros ps (x & i & j & l0 & -> & (p1 & q & -> & (? & ? & ? & -> & C1) & (p2 & p3 & -> & (a0 & b & -> & H1 & (c & d & -> & H2 & H3)) & (? & ? & ? & -> & C3)))).
        cbn [app]. apply Fin; [apply Cl; [discriminate|discriminate|exact C1]|apply Cl; [discriminate|discriminate|exact C3]|reflexivity|reflexivity|]. apply D; assumption.
Qed.

(** * The mark of silent rules. *)
Definition letter (c : char) : Prop := (c = 95 \/ 97 <= c <= 122 \/ 65 <= c <= 90)%N.
Lemma name_part : forall r : text, exists t v, r = t ++ v /\ Forall name_char t /\ forall c v', v = c :: v' -> ~ name_char c.
Proof.
  induction r as [|c r (t & v & -> & T & V)]; [exists [], []; repeat split; [constructor|discriminate]|].
  assert (name_char c \/ ~ name_char c) as [D|D] by (unfold name_char; lia).
  - exists (c :: t), v. split; [reflexivity|]. split; [constructor; assumption|exact V].
  - exists [], (c :: t ++ v). split; [reflexivity|]. split; [constructor|]. intros d v' E. injection E as <- _. exact D.
Qed.
Lemma letter_head : forall c v, letter c -> exactly Atomic (Q_str (lit "_") // #S_alpha) (c :: v) v nothing.
Proof.
  intros c v L. destruct (N.eq_dec c 95) as [->|D]; [apply exactly_choice1, (exactly_str _ (lit "_"))|]. unfold letter in L.
  apply exactly_choice2; [apply (fails_first _ 95%N []); congruence|]. apply alpha_char. lia.
Qed.
Lemma name_matches : forall u r, identifier_text u -> exists v, exactly Atomic $R_identifier (u ++ r) v nothing.
Proof.
  intros u r (c & t & -> & C & _). destruct (name_part (t ++ r)) as (t' & v & E & T & V). exists v. cbn [app]. rewrite E.
  apply (exactly_quiet Atomic R_identifier (c :: t')); [reflexivity|]. cbn [inside_of loud_kind loud_body app].
  eapply quiet_seq; [reflexivity|apply letter_head, C|]. apply steps_exactly_rep; [reflexivity| |].
  - clear E. induction T as [|d t' D T IH]; [apply steps_nil|]. cbn [app]. eapply quiet_step; [reflexivity|apply name_chars, D|exact IH].
  - destruct v as [|d v]; [no_match|]. specialize (V d v eq_refl). unfold name_char in V. apply fails_choice; [apply (fails_first _ 95%N []); lia|].
    apply fails_rule. cbn [inside_of body_of silent_body]. apply fails_choice; [apply fails_rule; cbn [inside_of body_of silent_body]; apply fails_choice|];
      apply fails_chars; intros x y E'; injection E' as <- _; lia.
Qed.
Lemma name_misses : forall s r, s <> [] -> ~ name_ahead s -> fails Atomic $R_identifier (s ++ r).
Proof.
  intros [|c s] r N H; [contradiction|]. cbn [app]. assert (~ letter c) as L.
  { intro L. apply H. exists [c], s. split; [reflexivity|]. exists c, []. split; [reflexivity|]. split; [exact L|constructor]. }
  unfold letter in L. apply fails_rule. cbn [inside_of body_of loud_body loud_kind]. apply fails_seq1. apply fails_choice; [apply (fails_first _ 95%N []); lia|].
  apply fails_rule. cbn [inside_of body_of silent_body]. apply fails_choice; apply fails_chars; intros x y E'; injection E' as <- _; lia.
Qed.
Lemma silent_mark : forall v v', fails Atomic $R_identifier v -> passes NonAtomic v v' ->
  yields NonAtomic (Q_opt $R_silent_modifier) (lit "_" ++ v) v' (token R_silent_modifier (lit "_") calm).
Proof.
  intros v v' F P. apply yields_opt. eapply exactly_yields; [|exact P]. eapply loud_calm; [reflexivity| |apply calm_nothing]. cbn [inside_of loud_kind loud_body].
  eapply quiet_seq; [reflexivity|apply exactly_str|apply exactly_not, F].
Qed.
Lemma no_mark : forall v v' P, exactly Atomic $R_identifier v v' P -> fails NonAtomic $R_silent_modifier (lit "_" ++ v).
Proof.
  intros v v' P X. apply fails_rule. cbn [inside_of body_of loud_body loud_kind]. eapply fails_seq2; [apply plain_yields; [reflexivity|apply exactly_str]|]. eapply fails_not, X.
Qed.

(** * Bodies of rules. *)
Local Notation after_mark := ($R_opening_brace ;; $R_expression ;; $R_closing_brace // $R_expression).
Definition inner_is (t : tree) (ps : list ppair) : Prop :=
  calm ps /\ exists e, rule_body ps false e /\ forall path, exists n, den_expression path e n /\ tree_of n = t.
Lemma braces_written : forall w u w' t r v, blank w -> w_expression u t -> blank w' -> passes NonAtomic r v ->
  yields NonAtomic after_mark (lit "{" ++ w ++ u ++ w' ++ lit "}" ++ r) v (inner_is t).
Proof.
  intros w u w' t r v B W B' P. destruct expressions_written as (G & _). specialize (G u t W). apply yields_choice1. eapply yields_weaken.
  - eapply yields_seq; [apply (symbol_then R_opening_brace (lit "{")); [reflexivity|reflexivity|exact B|eapply solid_app; [exact (expression_head u t W)|reflexivity]]|].
    eapply yields_seq; [apply G, close_follow; [exact B'|by_class|discriminate]|]. apply (symbol_passes R_closing_brace (lit "}")); [reflexivity|reflexivity|exact P].
  - intros ps (p1 & q & -> & (? & ? & ? & -> & C1) & (p2 & p3 & -> & (e & -> & R & T & D) & (? & ? & ? & -> & C3))). cbn [app]. split.
    + constructor; [apply tame_plain; [discriminate|discriminate|exact C1]|]. constructor; [exact T|]. constructor; [apply tame_plain; [discriminate|discriminate|exact C3]|constructor].
    + exists e. split; [constructor; [reflexivity|exact R|reflexivity]|exact D].
Qed.
Lemma bare_written : forall u t r v, w_expression u t -> expr_follow r v -> yields NonAtomic after_mark (u ++ r) v (inner_is t).
Proof.
  intros u t r v W F. destruct expressions_written as (G & _). specialize (G u t W). destruct (expression_head u t W) as (N & C). apply (class_app _ _ r N) in C.
  apply yields_choice2; [no_match|]. eapply yields_weaken; [apply G, F|]. intros ps (e & -> & R & T & D). split; [constructor; [exact T|constructor]|].
  exists e. split; [constructor; exact R|exact D].
Qed.
Definition body_is (silent : bool) (t : tree) (ps : list ppair) : Prop :=
  calm ps /\ exists e, rule_body ps silent e /\ forall path, exists n, den_expression path e n /\ tree_of n = t.
Lemma body_written : forall b braced silent t, w_body b braced silent t -> forall r v, (if braced then passes NonAtomic r v else expr_follow r v) ->
  solid (b ++ r) /\ yields NonAtomic (Q_opt $R_silent_modifier ;; after_mark) (b ++ r) v (body_is silent t).
Proof.
  assert (forall t p q, nothing p -> inner_is t q -> body_is false t (p ++ q)) as X1 by (intros t p q -> H; exact H).
  assert (forall u t p q, token R_silent_modifier u calm p -> inner_is t q -> body_is true t (p ++ q)) as X2.
  { intros u t p q (i & j & l & -> & C) (C' & e & R & D). cbn [app]. split; [constructor; [apply tame_plain; [discriminate|discriminate|exact C]|exact C']|].
    exists e. split; [constructor; [reflexivity|exact R]|exact D]. }
  intros b braced silent t [w u w' t' B W B'|w0 w u w' t' B0 B W B'|u t' W A|w u t' B A W] r v F; rewrite <- ?app_assoc.
  - split; [by_solid|]. eapply yields_weaken; [eapply yields_seq; [apply yields_opt_none; [no_match|apply passes_solid; by_solid]|apply braces_written; eassumption]|].
    intros ps (p & q & -> & H1 & H2). auto.
  - split; [by_solid|]. eapply yields_weaken; [eapply yields_seq; [apply silent_mark; [|apply passes_blank; [exact B0|by_solid]]|apply braces_written; eassumption]|].
    + assert (in_class follow (w0 ++ lit "{" ++ w ++ u ++ w' ++ lit "}" ++ r)) as C by (apply blank_follow; [exact B0|by_class]). no_match.
    + intros ps (p & q & -> & H1 & H2). eauto.
  - pose proof (solid_app _ u r (expression_head u t' W) eq_refl) as S. split; [exact S|].
    eapply yields_weaken; [eapply yields_seq; [apply yields_opt_none; [|apply passes_solid, S]|apply bare_written; eassumption]|].
    + destruct (expression_head u t' W) as (N & C). destruct u as [|c u]; [contradiction|]. destruct (N.eq_dec c 95) as [->|D].
      * destruct (A u eq_refl) as (n & z & -> & I). cbn [app]. rewrite <- app_assoc. destruct (name_matches n (z ++ r) I) as (v' & M). eapply (no_mark _ v'), M.
      * cbn [app]. apply fails_rule. cbn [inside_of body_of loud_body]. apply fails_seq1, (fails_first _ 95%N []). congruence.
    + intros ps (p & q & -> & H1 & H2). auto.
  - split; [by_solid|]. eapply yields_weaken; [eapply yields_seq; [apply silent_mark; [|apply passes_blank; [exact B|]]|apply bare_written; eassumption]|].
    + rewrite app_assoc. apply name_misses; [|exact A]. destruct (expression_head u t' W) as (N & _). destruct w; [exact N|discriminate].
    + eapply solid_app; [exact (expression_head u t' W)|reflexivity].
    + intros ps (p & q & -> & H1 & H2). eauto.
Qed.

(** * Rules. *)
Definition name_is (name : text) (ps : list ppair) : Prop :=
  exists p, ps = [p] /\ tame p /\ In (pp_rule p) [R_identifier; R_tilde_operator; R_caret_operator] /\ pp_str p = name.
Lemma rule_name_written : forall name w z, rule_name name -> blank w -> in_class [(40, 40); (61, 61)]%N z ->
  solid (name ++ w ++ z) /\ yields NonAtomic ($R_identifier // #S_overridable_operator) (name ++ w ++ z) z (name_is name).
Proof.
  intros name w z R B C. assert (solid z) as S by (apply solid_class; eapply class_sub; [|exact C]; reflexivity).
  assert (forall r u ps, r <> R_character -> r <> R_raw_string -> In r [R_identifier; R_tilde_operator; R_caret_operator] -> token r u calm ps -> name_is u ps) as T.
  { intros r u ps N1 N2 I (i & j & l & -> & Ca). eexists. split; [reflexivity|]. split; [apply tame_plain; assumption|]. split; [exact I|reflexivity]. }
  assert (forall o k, trivia_op o k -> solid (o ++ w ++ z) /\ yields NonAtomic ($R_identifier // #S_overridable_operator) (o ++ w ++ z) z (name_is o)) as O.
  { intros o k O. split; [eapply solid_app; [exact (op_head o k O)|reflexivity]|]. destruct (op_head o k O) as (N & H). apply (class_app _ _ (w ++ z) N) in H.
    apply yields_choice2; [no_match|]. destruct (overridable o k O) as (r & _ & _ & I & Y). eapply yields_weaken; [apply Y, passes_blank; assumption|].
    intro ps. apply T; [destruct I as [<-|[<-|[]]]; discriminate..|right; exact I]. }
  destruct R as [I|[->| ->]]; [|eapply O; constructor..].
  split; [eapply solid_app; [exact (name_head name I)|reflexivity]|]. apply yields_choice1. eapply yields_weaken.
  - eapply exactly_yields; [apply identifier_token; [exact I|apply blank_follow; [exact B|eapply class_sub; [|exact C]; reflexivity]]|apply passes_blank; assumption].
  - intro ps. apply T; [discriminate|discriminate|left; reflexivity].
Qed.
Definition rule_is (docs : list text) (name : text) (l : list text) (silent : bool) (t : tree) (ps : list ppair) : Prop :=
  exists p, ps = [p] /\ tame p /\ item_read p (W_rule docs name l silent t).
Lemma rule_written : forall d docs u name l braced silent t, w_docs (lit "///") d docs -> w_rule u name l braced silent t -> forall r v,
  (if braced then passes NonAtomic r v else expr_follow r v) -> solid (d ++ u ++ r) /\ yields NonAtomic $R_grammar_rule (d ++ u ++ r) v (rule_is docs name l silent t).
Proof.
  intros d docs u name l braced silent t D W r v F. destruct W as [name w a l w' b braced silent t N B A B' W]. rewrite <- !app_assoc.
  destruct (body_written b braced silent t W r v F) as (Sb & Yb). destruct (params_written a l A (w' ++ b ++ r)) as (v0 & Ca & -> & Ya).
  destruct (rule_name_written name w (a ++ lit "=" ++ w' ++ b ++ r) N B Ca) as (Sn & Yn).
  destruct (docs_written R_rule_doc (lit "///") d docs (or_introl (conj eq_refl eq_refl)) D (name ++ w ++ a ++ lit "=" ++ w' ++ b ++ r) Sn) as (Sd & St).
  split; [exact Sd|]. eapply yields_weaken; [apply yields_loud; [reflexivity|reflexivity|]|].
  - cbn [loud_body]. eapply yields_seq; [apply yields_rep; [apply passes_solid, Sd|exact St|]|].
    + destruct N as [I|[->| ->]]; [|no_match..]. destruct (name_head name I) as (Nn & Cn). apply (class_app _ _ (w ++ a ++ lit "=" ++ w' ++ b ++ r) Nn) in Cn. no_match.
    + eapply yields_seq; [exact Yn|]. eapply yields_seq; [exact Ya|]. eapply yields_seq; [|exact Yb].
      eapply exactly_yields; [apply (exactly_loud NonAtomic R_assignment_operator (lit "=")); [reflexivity|apply exactly_str]|apply passes_blank; [exact B'|exact Sb]].
  - intros ps (x & i & j & l' & -> & (p1 & q1 & -> & (C1 & H1) & (p2 & q2 & -> & (nm & -> & T2 & H2 & <-) & (p3 & q3 & -> & (C3 & H3) & (p4 & q4 & -> & (i4 & j4 & l4 & -> & ->) & (C5 & e & H5 & De)))))).
    cbn [app]. eexists. split; [reflexivity|]. split.
    + apply tame_plain; [discriminate|discriminate|]. apply Forall_app. split; [exact C1|]. constructor; [exact T2|]. apply Forall_app. split; [exact C3|].
      constructor; [apply tame_plain; [discriminate|discriminate|constructor]|exact C5].
    + eapply Read_rule; [|exact De]. constructor; [exact H1|exact H2|exact H3|reflexivity|reflexivity|exact H5].
Qed.
