(** Proofs about the parser of grammar files: expressions are read as written, by induction. *)
From Coq Require Import String List NArith ZArith Arith Bool Lia.
From Verif Require Import Model_Text Model_Message Model_Meta Model_Pest2 Spec_Unescape Spec_Message Spec_Grammar Spec_Import
  Spec_Pest2 Spec_Written Proof_Pest2 Proof_First Proof_Tokens Proof_Written.
Import ListNotations.
Open Scope list_scope.
Local Notation "a ;; b" := (Q_seq a b) (at level 60, right associativity).
Local Notation "a // b" := (Q_choice a b) (at level 61, right associativity).
Local Notation "$ r" := (Q_rule (Loud r)) (at level 1, format "$ r").
Local Notation "# s" := (Q_rule (Silent s)) (at level 1, format "# s").
Local Notation postfix := #S_postfix_operator.
Local Notation prefix := #S_prefix_operator.
Local Notation more_names := ($R_ancestry_operator ;; $R_identifier).
Local Notation more_terms := (#S_infix_operator ;; $R_term).
Local Notation more_exprs := ($R_comma ;; $R_expression).

Scheme w_expression_min := Minimality for w_expression Sort Prop
with w_choices_min := Minimality for w_choices Sort Prop
with w_sequence_min := Minimality for w_sequence Sort Prop
with w_term_min := Minimality for w_term Sort Prop
with w_core_min := Minimality for w_core Sort Prop
with w_actuals_min := Minimality for w_actuals Sort Prop.
Combined Scheme written_min from w_expression_min, w_choices_min, w_sequence_min, w_term_min, w_core_min, w_actuals_min.

(** What can follow an expression. *)
Definition expr_follow (r v : text) : Prop := term_follow r v /\ fails NonAtomic more_terms v /\ fails NonAtomic $R_choice_operator v.
Definition expr_is (t : tree) (ps : list ppair) : Prop :=
  exists p, ps = [p] /\ pp_rule p = R_expression /\ tame p /\ forall path, exists n, den_expression path p n /\ tree_of n = t.
Definition den_one (path : text) (ps : list ppair) (n : parse_node) : Prop := exists p, ps = [p] /\ den_term path p n.
Definition den_list (l : list tree) (ps : list ppair) : Prop :=
  calm ps /\ forall path, exists ns, den_actuals path ps ns /\ map tree_of ns = l.
Definition good_expression (u : text) (t : tree) : Prop :=
  forall r v, expr_follow r v -> yields NonAtomic $R_expression (u ++ r) v (expr_is t).
Definition good_choices (u : text) (t : tree) : Prop :=
  forall r v, expr_follow r v -> exists v1 P1 P2, yields NonAtomic $R_term (u ++ r) v1 P1 /\ solid v1 /\ steps NonAtomic more_terms v1 v P2 /\
    (forall p q, P1 p -> P2 q -> den_is den_choices t (p ++ q)) /\
    (fails NonAtomic $R_choice_operator v1 \/ exists v2 v3 P3 P4, yields NonAtomic $R_choice_operator v1 v2 choice_is /\ solid v2 /\
      yields NonAtomic $R_term v2 v3 P3 /\ solid v3 /\ steps NonAtomic more_terms v3 v P4 /\
      forall p c p3 q, P1 p -> choice_is c -> P3 p3 -> P4 q -> den_is den_choices t (p ++ c ++ p3 ++ q)).
Definition good_sequence (u : text) (t : tree) : Prop :=
  forall r v, term_follow r v -> exists v1 P1 P2, yields NonAtomic $R_term (u ++ r) v1 P1 /\ solid v1 /\ steps NonAtomic more_terms v1 v P2 /\
    (forall p q, P1 p -> P2 q -> den_is den_sequence t (p ++ q)) /\
    ((v1 = v /\ forall p, P1 p -> den_is den_sequence t p) \/ fails NonAtomic $R_choice_operator v1).
Definition good_term (u : text) (t : tree) : Prop :=
  forall r v, term_follow r v -> exists m P0 P1, steps NonAtomic prefix (u ++ r) m P0 /\ fails NonAtomic prefix m /\
    yields NonAtomic (#S_node ;; Q_rep postfix) m v P1 /\ forall p q, P0 p -> P1 q -> den_is den_prefixed t (p ++ q).
Definition good_core (u : text) (t : tree) : Prop :=
  forall r v, passes NonAtomic r v -> solid v -> in_class follow r -> in_class after_term v -> yields NonAtomic #S_node (u ++ r) v (den_is den_core t).
Definition good_actuals (u : text) (l : list tree) : Prop :=
  forall w v, blank w -> (u = [] /\ l = []) \/
    exists v1 v2 P1 P2 P3, yields NonAtomic $R_expression (u ++ w ++ lit ")" ++ v) v1 P1 /\ solid v1 /\ steps NonAtomic more_exprs v1 v2 P2 /\
      fails NonAtomic more_exprs v2 /\ yields NonAtomic (Q_opt $R_comma) v2 (lit ")" ++ v) P3 /\
      u <> [] /\ in_class expr_first u /\ forall p q c, P1 p -> P2 q -> P3 c -> den_list l (p ++ q ++ c).

Definition closers : list range := [(41, 41); (44, 44); (125, 125)]%N.
Lemma close_follow : forall w v, blank w -> in_class closers v -> v <> [] -> expr_follow (w ++ v) v.
Proof.
  intros w v B C N. assert (solid v) as S by (apply solid_class; eapply class_sub; [|exact C]; reflexivity).
  repeat split; try (apply S).
  - apply passes_blank; assumption.
  - destruct (blank_follow w v B ltac:(eapply class_sub; [|exact C]; reflexivity) c r' H). assumption.
  - destruct (blank_follow w v B ltac:(eapply class_sub; [|exact C]; reflexivity) c r' H). assumption.
  - destruct (C c r' H). assumption.
  - eapply (class_sub closers after_term); [reflexivity|exact C|exact H].
  - no_match.
  - no_match.
  - no_match.
Qed.

(** A whole operand. *)
Lemma whole_term : forall u t, w_term u t -> good_term u t -> forall r v, term_follow r v -> yields NonAtomic $R_term (u ++ r) v (den_is den_one t).
Proof.
  intros u t W G r v F. destruct (G r v F) as (m & P0 & P1 & S & N & Y & D). pose proof (solid_app _ u r (term_head u t W) eq_refl) as So.
  eapply yields_weaken; [apply yields_loud; [reflexivity|reflexivity|]|].
  - cbn [loud_body]. eapply yields_seq; [apply yields_rep; [apply passes_solid, So|exact S|exact N]|exact Y].
  - intros ps (x & i & j & l & -> & (p & q & -> & H0 & H1)). destruct (D p q H0 H1) as (C & E). split.
    + constructor; [apply tame_plain; [discriminate|discriminate|exact C]|constructor].
    + intro path. destruct (E path) as (n & E1 & E2). exists n. split; [|exact E2]. eexists. split; [reflexivity|]. constructor. exact E1.
Qed.
Lemma one_sequence : forall t ps, den_is den_one t ps -> den_is den_sequence t ps.
Proof. intros t ps (C & H). split; [exact C|]. intro path. destruct (H path) as (n & (p & -> & D) & E). exists n. split; [constructor; exact D|exact E]. Qed.
Lemma sequence_choices : forall t ps, den_is den_sequence t ps -> den_is den_choices t ps.
Proof. intros t ps (C & H). split; [exact C|]. intro path. destruct (H path) as (n & D & E). exists n. split; [constructor; exact D|exact E]. Qed.
Lemma seq_put : forall a b k p o q, den_is den_one a p -> infix_is k o -> den_is den_sequence b q -> den_is den_sequence (T_seq a b k) (p ++ o ++ q).
Proof.
  intros a b k p o q (C1 & H1) (o' & -> & C2 & R) (C3 & H3). split.
  - apply Forall_app. split; [exact C1|]. constructor; assumption.
  - intro path. destruct (H1 path) as (n1 & (t & -> & D1) & E1). destruct (H3 path) as (n3 & D3 & E3). eexists. split; [cbn [app]; eapply Den_seq; eassumption|].
    cbn [tree_of tree_expr]. rewrite E1, E3. reflexivity.
Qed.
Lemma choice_put : forall a b p o q, den_is den_sequence a p -> choice_is o -> den_is den_choices b q -> den_is den_choices (T_choice a b) (p ++ o ++ q).
Proof.
  intros a b p o q (C1 & H1) (o' & -> & C2 & R) (C3 & H3). split.
  - apply Forall_app. split; [exact C1|]. constructor; assumption.
  - intro path. destruct (H1 path) as (n1 & D1 & E1). destruct (H3 path) as (n3 & D3 & E3). eexists. split; [cbn [app]; eapply Den_choice; eassumption|].
    cbn [tree_of tree_expr]. rewrite E1, E3. reflexivity.
Qed.
Lemma expr_put : forall u i j t lead l, (lead = [] \/ choice_is lead) -> den_is den_choices t l -> expr_is t [mkPPair R_expression u i j (lead ++ l)].
Proof.
  intros u i j t lead l L (C & H). eexists. split; [reflexivity|]. split; [reflexivity|]. split.
  - apply tame_plain; [discriminate|discriminate|]. apply Forall_app. split; [|exact C]. destruct L as [->|(o & -> & T & _)]; [constructor|constructor; [exact T|constructor]].
  - intro path. destruct (H path) as (n & D & E). exists n. split; [|exact E]. constructor; [|exact D].
    destruct L as [->|(o & -> & _ & R)]; [left; reflexivity|right; exists o; auto].
Qed.

Lemma sequence_good : forall u w o k w' v a b, w_term u a -> good_term u a -> blank w -> seq_op o k -> blank w' -> w_sequence v b -> good_sequence v b ->
  good_sequence (u ++ w ++ o ++ w' ++ v) (T_seq a b k).
Proof.
  intros u w o k w' v a b W G B O B' W' G' r z F. destruct (G' r z F) as (v1 & P1 & P2 & Y & So & St & D & _). rewrite <- !app_assoc.
  pose proof (solid_app _ v r (sequence_head v b W') eq_refl) as Sv. destruct (sequence_head v b W') as (Nv & Cv).
  destruct (after_seq_op o k w' (v ++ r) O B' (class_app _ _ r Nv Cv)) as (A1 & A2).
  pose proof (solid_app _ o (w' ++ v ++ r) (seq_class o k O) eq_refl) as Sop. destruct (seq_class o k O) as (No & Co).
  pose proof (class_app _ _ (w' ++ v ++ r) No Co) as Co'.
  assert (term_follow (w ++ o ++ w' ++ v ++ r) (o ++ w' ++ v ++ r)) as F1.
  { split; [apply passes_blank; assumption|]. split; [exact Sop|]. split; [apply blank_follow; [exact B|]; eapply class_sub; [|exact Co']; reflexivity|].
    split; [eapply class_sub; [|exact Co']; reflexivity|exact A1]. }
  exists (o ++ w' ++ v ++ r). eexists _, _. split; [apply whole_term; [exact W|exact G|exact F1]|]. split; [exact Sop|]. split; [|split].
  - eapply steps_app; [apply steps_one; eapply yields_seq; [apply infix_seq with (k := k); [exact O|exact B'|exact Sv]|exact Y]|exact St].
  - intros p q H (q1 & q2 & -> & (oo & tt & -> & H1 & H2) & H3). rewrite <- app_assoc. apply seq_put; [exact H|exact H1|]. apply D; assumption.
  - right. exact A2.
Qed.
Lemma operand_good : forall u t, w_term u t -> good_term u t -> good_sequence u t.
Proof.
  intros u t W G r v F. exists v. eexists _, nothing. split; [apply whole_term; [exact W|exact G|exact F]|]. split; [apply F|]. split; [apply steps_nil|]. split.
  - intros p q H ->. rewrite app_nil_r. apply one_sequence, H.
  - left. split; [reflexivity|]. intro p. apply one_sequence.
Qed.
Lemma alternative_good : forall u t, good_sequence u t -> good_choices u t.
Proof.
  intros u t G r v F. destruct (G r v (proj1 F)) as (v1 & P1 & P2 & Y & So & St & D & A). exists v1, P1, P2. split; [exact Y|]. split; [exact So|]. split; [exact St|].
  split; [intros; apply sequence_choices, D; assumption|]. left. destruct A as [(-> & _)|A]; [apply F|exact A].
Qed.
Lemma choice_good : forall u w w' v a b, good_sequence u a -> blank w -> blank w' -> w_choices v b -> good_choices v b ->
  good_choices (u ++ w ++ lit "|" ++ w' ++ v) (T_choice a b).
Proof.
  intros u w w' v a b G B B' W' G' r z F. destruct (G' r z F) as (v2 & Q1 & Q2 & Y2 & So2 & St2 & D2 & _). rewrite <- !app_assoc.
  pose proof (solid_app _ v r (choices_head v b W') eq_refl) as Sv.
  assert (term_follow (w ++ lit "|" ++ w' ++ v ++ r) (lit "|" ++ w' ++ v ++ r)) as F1.
  { split; [apply passes_blank; [exact B|by_solid]|]. split; [by_solid|]. split; [apply blank_follow; [exact B|by_class]|]. split; [by_class|no_match]. }
  destruct (G _ _ F1) as (v1 & P1 & P2 & Y & So & St & D & A).
  pose proof (infix_bar w' (v ++ r) B' Sv) as I. pose proof (choice_written (lit "|") w' (v ++ r) Choice_bar B' Sv) as C.
  exists v1, P1. eexists. split; [exact Y|]. split; [exact So|]. split; [|split].
  - eapply steps_app; [exact St|]. eapply steps_app; [apply steps_one; eapply yields_seq; [exact I|exact Y2]|exact St2].
  - intros p q H (q1 & q2 & -> & H1 & (q3 & q4 & -> & (c & p3 & -> & H2 & H3) & H4)). rewrite <- !app_assoc, app_assoc.
    apply choice_put; [apply D; assumption|exact H2|apply D2; assumption].
  - destruct A as [(-> & A)|A]; [right|left; exact A]. exists (v ++ r), v2, Q1, Q2. split; [exact C|]. split; [exact Sv|]. split; [exact Y2|]. split; [exact So2|]. split; [exact St2|].
    intros p c p3 q H1 H2 H3 H4. apply choice_put; [apply A, H1|exact H2|apply D2; assumption].
Qed.
Lemma plain_good : forall u t, w_choices u t -> good_choices u t -> good_expression u t.
Proof.
  intros u t W G r v F. destruct (G r v F) as (v1 & P1 & P2 & Y & So & St & D & A). pose proof (solid_app _ u r (choices_head u t W) eq_refl) as Su.
  destruct (choices_head u t W) as (Nu & Cu). pose proof (class_app _ _ r Nu Cu) as Cu'.
  assert (yields NonAtomic (Q_opt $R_choice_operator) (u ++ r) (u ++ r) nothing) as L by (apply yields_opt_none; [no_match|apply passes_solid, Su]).
  assert (fails NonAtomic more_terms v) as N by apply F.
  destruct A as [A|(v2 & v3 & P3 & P4 & C & S2 & Y3 & S3 & St3 & D3)].
  - eapply yields_weaken; [apply yields_loud; [reflexivity|reflexivity|]|].
    + cbn [loud_body]. eapply yields_seq; [apply yields_opt_none; [|apply passes_solid, Su]|].
      * eapply fails_seq2; [exact L|]. eapply fails_seq2; [exact Y|exact A].
      * eapply yields_seq; [exact Y|]. apply yields_rep; [apply passes_solid, So|exact St|exact N].
    + intros ps (x & i & j & l & -> & (p & q & -> & -> & (p1 & q1 & -> & H1 & H2))). apply (expr_put _ _ _ _ []); [left; reflexivity|]. apply D; assumption.
  - eapply yields_weaken; [apply yields_loud; [reflexivity|reflexivity|]|].
    + cbn [loud_body]. eapply yields_seq; [apply yields_opt|].
      * eapply yields_seq; [exact L|]. eapply yields_seq; [exact Y|exact C].
      * eapply yields_seq; [exact Y3|]. apply yields_rep; [apply passes_solid, S3|exact St3|exact N].
    + intros ps (x & i & j & l & -> & (p & q & -> & (p0 & p' & -> & -> & (p1 & c & -> & H1 & H2)) & (p3 & q3 & -> & H3 & H4))).
      cbn [app]. rewrite <- app_assoc. apply (expr_put _ _ _ _ [] (p1 ++ c ++ p3 ++ q3)); [left; reflexivity|]. apply D3; assumption.
Qed.
(** The first operator, in front of which there can be another one. *)
Lemma first_good : forall s lead u w o w' v a b r z, w_term u a -> good_term u a -> blank w -> choice_op o -> blank w' -> w_choices v b -> good_choices v b ->
  expr_follow r z -> yields NonAtomic (Q_opt $R_choice_operator) s (u ++ w ++ o ++ w' ++ v ++ r) lead -> (forall ps, lead ps -> ps = [] \/ choice_is ps) ->
  yields NonAtomic $R_expression s z (expr_is (T_choice a b)).
Proof.
  intros s lead u w o w' v a b r z W G B O B' W' G' F L Ld. destruct (G' r z F) as (v2 & Q1 & Q2 & Y2 & So2 & St2 & D2 & _).
  pose proof (solid_app _ v r (choices_head v b W') eq_refl) as Sv. pose proof (solid_app _ o (w' ++ v ++ r) (op_class o O) eq_refl) as Sop.
  destruct (op_class o O) as (No & Co). pose proof (class_app _ _ (w' ++ v ++ r) No Co) as Co'.
  assert (term_follow (w ++ o ++ w' ++ v ++ r) (o ++ w' ++ v ++ r)) as F1.
  { split; [apply passes_blank; assumption|]. split; [exact Sop|]. split; [apply blank_follow; [exact B|]; eapply class_sub; [|exact Co']; reflexivity|].
    split; [eapply class_sub; [|exact Co']; reflexivity|apply after_choice_op, O]. }
  pose proof (whole_term u a W G _ _ F1) as Y. pose proof (choice_written o w' (v ++ r) O B' Sv) as C.
  eapply yields_weaken; [apply yields_loud; [reflexivity|reflexivity|]|].
  - cbn [loud_body]. eapply yields_seq; [apply yields_opt; eapply yields_seq; [exact L|]; eapply yields_seq; [exact Y|exact C]|].
    eapply yields_seq; [exact Y2|]. apply yields_rep; [apply passes_solid, So2|exact St2|apply F].
  - intros ps (x & i & j & l & -> & (p & q & -> & (p0 & p' & -> & H0 & (p1 & c & -> & H1 & H2)) & (p3 & q3 & -> & H3 & H4))).
    rewrite <- !app_assoc. apply expr_put; [apply Ld, H0|]. apply choice_put; [apply one_sequence, H1|exact H2|apply D2; assumption].
Qed.

(** Operands. *)
Lemma prefix_good : forall r o w u t, (r = R_positive_predicate_operator /\ o = lit "&") \/ (r = R_negative_predicate_operator /\ o = lit "!") ->
  blank w -> w_term u t -> good_term u t -> good_term (o ++ w ++ u) (if grule_eqb r R_positive_predicate_operator then T_pos t else T_neg t).
Proof.
  intros r o w u t H B W G z v F. destruct (G z v F) as (m & P0 & P1 & S & N & Y & D). rewrite <- !app_assoc.
  pose proof (solid_app _ u z (term_head u t W) eq_refl) as So.
  assert (yields NonAtomic prefix (o ++ w ++ u ++ z) (u ++ z) (token r o calm)) as X.
  { apply yields_silent; [reflexivity|]. cbn [silent_body]. destruct H as [(-> & ->)|(-> & ->)]; [apply yields_choice1|apply yields_choice2; [no_match|]];
      (apply symbol_then; [reflexivity|reflexivity|exact B|exact So]). }
  exists m. eexists _, P1. split; [eapply steps_app; [apply steps_one, X|exact S]|]. split; [exact N|]. split; [exact Y|].
  intros p q (p1 & p2 & -> & (i & j & l & -> & C) & H2) H3. destruct (D p2 q H2 H3) as (C' & E). split.
  - cbn [app]. constructor; [apply tame_plain; [destruct H as [(-> & _)|(-> & _)]; discriminate..|exact C]|exact C'].
  - intro path. destruct (E path) as (n & E1 & E2). cbn [app]. destruct H as [(-> & _)|(-> & _)]; cbn [grule_eqb].
    + eexists. split; [eapply Den_pos; [reflexivity|exact E1]|]. cbn [tree_of tree_expr]. rewrite E2. reflexivity.
    + eexists. split; [eapply Den_neg; [reflexivity|exact E1]|]. cbn [tree_of tree_expr]. rewrite E2. reflexivity.
Qed.
Lemma postfixed_good : forall u t v t', w_core u t -> good_core u t -> w_postfixes t v t' -> good_term (u ++ v) t'.
Proof.
  intros u t v t' W G H r z F. destruct (postfixes_written t v t' H r z F) as (v1 & P & C & A & S & St). rewrite <- app_assoc.
  destruct (core_head u t W) as (N & Cu). pose proof (class_app _ _ (v ++ r) N Cu) as Cu'.
  exists (u ++ v ++ r), nothing. eexists. split; [apply steps_nil|]. split; [no_match|]. split.
  - eapply yields_seq; [apply G; [exact P|exact S|exact C|exact A]|]. apply yields_rep; [apply passes_solid, S|exact St|apply F].
  - intros p q -> (q1 & q2 & -> & (C1 & D1) & (C2 & D2)). cbn [app]. split; [apply Forall_app; auto|]. intro path. destruct (D1 path) as (n & X & E).
    destruct (D2 path q1 n (Den_core _ _ _ X) E) as (n' & X' & E'). exists n'. split; [constructor; exact X'|exact E'].
Qed.
Lemma terminal_good : forall u t, w_terminal u t -> good_core u t.
Proof.
  intros u t W r v P S F A. destruct (terminal_head u t W) as (N & C). pose proof (class_app _ _ r N C) as C'. apply yields_silent; [reflexivity|]. cbn [silent_body].
  apply yields_choice2; [no_match|]. apply terminal_written; assumption.
Qed.
Lemma parens_good : forall w u w' t, blank w -> w_expression u t -> good_expression u t -> blank w' -> good_core (lit "(" ++ w ++ u ++ w' ++ lit ")") t.
Proof.
  intros w u w' t B W G B' r v P S F A. rewrite <- !app_assoc. apply yields_silent; [reflexivity|]. cbn [silent_body]. apply yields_choice1.
  eapply yields_weaken.
  - eapply yields_seq; [apply (symbol_then R_opening_paren (lit "(")); [reflexivity|reflexivity|exact B|]|].
    + eapply solid_app; [apply (expression_head u t W)|reflexivity].
    + eapply yields_seq; [apply G; apply close_follow; [exact B'|by_class|discriminate]|]. apply (symbol_passes R_closing_paren (lit ")")); [reflexivity|reflexivity|exact P].
  - intros ps (p1 & q & -> & (i & j & l & -> & C1) & (p2 & p3 & -> & (e & -> & R & T & D) & (i' & j' & l' & -> & C2))). cbn [app]. split.
    + constructor; [apply tame_plain; [discriminate|discriminate|exact C1]|]. constructor; [exact T|]. constructor; [apply tame_plain; [discriminate|discriminate|exact C2]|constructor].
    + intro path. destruct (D path) as (n & D1 & D2). exists n. split; [constructor; [reflexivity|exact D1|reflexivity]|exact D2].
Qed.
Definition args_tree (names : list text) (a : option path_args) : tree := match a with None => T_name names | Some a => tree_args names a end.
Definition args_are (names : list text) (t : tree) (ps : list ppair) : Prop :=
  calm ps /\ forall path, exists a, den_args path ps a /\ args_tree names a = t.
Lemma path_good : forall u names r0 v0 v t, w_names u names -> passes NonAtomic r0 v0 -> solid v0 -> in_class follow r0 -> fails NonAtomic more_names v0 ->
  yields NonAtomic (Q_opt ($R_call // $R_slice)) v0 v (args_are names t) -> yields NonAtomic #S_node (u ++ r0) v (den_is den_core t).
Proof.
  intros u names r0 v0 v t W P S F N Y. destruct (names_written u names W r0 v0 P F) as (v1 & P1 & P2 & Y1 & S1 & St & D). specialize (S1 S).
  destruct (names_no_literal u names r0 W F) as (L1 & L2 & L3). destruct (names_head u names W) as (Nu & Cu). pose proof (class_app _ _ r0 Nu Cu) as Cu'.
  apply yields_silent; [reflexivity|]. cbn [silent_body]. apply yields_choice2; [no_match|]. apply yields_silent; [reflexivity|]. cbn [silent_body].
  apply yields_choice2; [exact L1|]. apply yields_choice2; [exact L2|]. apply yields_choice2; [exact L3|]. apply yields_choice1.
  eapply yields_weaken; [apply yields_loud; [reflexivity|reflexivity|]|].
  - cbn [loud_body]. eapply yields_seq; [exact Y1|]. eapply yields_seq; [apply yields_rep; [apply passes_solid, S1|exact St|exact N]|exact Y].
  - intros ps (x & i & j & l & -> & (p1 & q & -> & H1 & (p2 & p3 & -> & H2 & (C3 & H3)))). destruct (D p1 p2 H1 H2) as (C & Sg). rewrite app_assoc. split.
    + constructor; [|constructor]. apply tame_plain; [discriminate|discriminate|]. apply Forall_app. auto.
    + intro path. destruct (H3 path) as (a & D3 & E3). eexists. split; [apply Den_path; [exact Sg|exact D3]|]. cbn [tree_of tree_expr]. destruct a as [a|]; exact E3.
Qed.
Lemma no_args : forall names ps, nothing ps -> args_are names (T_name names) ps.
Proof. intros names ps ->. split; [constructor|]. intro path. exists None. split; [constructor|reflexivity]. Qed.
Lemma name_good : forall u names, w_names u names -> good_core u (T_name names).
Proof.
  intros u names W r v P S F A. eapply path_good; [exact W|exact P|exact S|exact F|no_match|].
  eapply yields_weaken; [apply yields_opt_none; [no_match|apply passes_solid, S]|]. apply no_args.
Qed.
Lemma call_good : forall u names w w1 v l w2, w_names u names -> blank w -> blank w1 -> w_actuals v l -> good_actuals v l -> blank w2 ->
  good_core (u ++ w ++ lit "(" ++ w1 ++ v ++ w2 ++ lit ")") (T_call names l).
Proof.
  intros u names w w1 v l w2 W B B1 _ G B2 r z P S F A. rewrite <- !app_assoc. eapply path_good with (v0 := lit "(" ++ w1 ++ v ++ w2 ++ lit ")" ++ r); [exact W|..].
  - apply passes_blank; [exact B|by_solid].
  - by_solid.
  - apply blank_follow; [exact B|by_class].
  - no_match.
  - apply yields_opt, yields_choice1. assert (forall s i j o l' c, calm [o] -> calm [c] -> pp_rule c = R_closing_paren -> den_list l l' ->
      args_are names (T_call names l) [mkPPair R_call s i j (o :: l' ++ [c])]) as Fin.
    { intros s i j o l' c C1 C2 R (C3 & D). split.
      - constructor; [|constructor]. apply tame_plain; [discriminate|discriminate|]. apply (Forall_app _ [o]). split; [exact C1|]. apply Forall_app. auto.
      - intro path. destruct (D path) as (ns & D1 & <-). eexists. split; [constructor; [exact D1|exact R]|reflexivity]. }
    assert (forall r u, r <> R_character -> r <> R_raw_string -> forall i j l, calm l -> calm [mkPPair r u i j l]) as Cl.
    { intros. constructor; [apply tame_plain; assumption|constructor]. }
    destruct (G w2 r B2) as [(-> & ->)|(v1 & v2 & P1 & P2 & P3 & Y1 & S1 & St & N & Y3 & Nv & Cv & D)].
    + eapply yields_weaken; [apply yields_loud; [reflexivity|reflexivity|]|].
      * cbn [loud_body app]. eapply yields_seq; [apply (symbol_passes R_opening_paren (lit "(")); [reflexivity|reflexivity|rewrite app_assoc; apply passes_blank; [apply blank_app; assumption|by_solid]]|].
        eapply yields_seq; [apply yields_opt_none; [no_match|apply passes_solid; by_solid]|]. apply (symbol_passes R_closing_paren (lit ")")); [reflexivity|reflexivity|exact P].
      * intros ps (x & i & j & l' & -> & (p1 & q & -> & (? & ? & ? & -> & C1) & (p2 & p3 & -> & -> & (? & ? & ? & -> & C3)))). cbn [app].
        apply (Fin _ _ _ _ []); [apply Cl; [discriminate|discriminate|exact C1]|apply Cl; [discriminate|discriminate|exact C3]|reflexivity|]. split; [constructor|].
        intro path. exists []. split; [constructor|reflexivity].
    + eapply yields_weaken; [apply yields_loud; [reflexivity|reflexivity|]|].
      * cbn [loud_body]. eapply yields_seq; [apply (symbol_then R_opening_paren (lit "(")); [reflexivity|reflexivity|exact B1|]|].
        { eapply solid_app; [split; [exact Nv|exact Cv]|reflexivity]. }
        eapply yields_seq; [apply yields_opt|].
        -- eapply yields_seq; [exact Y1|]. eapply yields_seq; [apply yields_rep; [apply passes_solid, S1|exact St|exact N]|exact Y3].
        -- apply (symbol_passes R_closing_paren (lit ")")); [reflexivity|reflexivity|exact P].
      * intros ps (x & i & j & l' & -> & (p1 & q & -> & (? & ? & ? & -> & C1) & (p2 & p3 & -> & (a & b & -> & H1 & (c & d & -> & H2 & H3)) & (? & ? & ? & -> & C3)))).
        cbn [app]. apply Fin; [apply Cl; [discriminate|discriminate|exact C1]|apply Cl; [discriminate|discriminate|exact C3]|reflexivity|]. apply D; assumption.
Qed.
Lemma slice_good : forall u names w w1 a x w2 w3 b y w4, w_names u names -> blank w -> blank w1 -> w_integer a x -> blank w2 ->
  blank w3 -> w_integer b y -> blank w4 -> in_isize x -> in_isize y ->
  good_core (u ++ w ++ lit "[" ++ w1 ++ a ++ w2 ++ lit ".." ++ w3 ++ b ++ w4 ++ lit "]") (T_slice names x y).
Proof.
  intros u names w w1 a x w2 w3 b y w4 W B B1 X B2 B3 Y B4 Ix Iy r z P S F A. rewrite <- !app_assoc.
  destruct (opt_integer w3 b y w4 (lit "]" ++ r) B3 Y B4) as (z2 & S2 & Z2 & Y2); [by_solid|no_match|by_class|].
  destruct (opt_integer w1 a x w2 (lit ".." ++ w3 ++ b ++ w4 ++ lit "]" ++ r) B1 X B2 (range_solid _)) as (z1 & S1 & Z1 & Y1); [no_match|by_class|].
  eapply path_good with (v0 := lit "[" ++ w1 ++ a ++ w2 ++ lit ".." ++ w3 ++ b ++ w4 ++ lit "]" ++ r); [exact W|..].
  - apply passes_blank; [exact B|by_solid].
  - by_solid.
  - apply blank_follow; [exact B|by_class].
  - no_match.
  - apply yields_opt, yields_choice2; [no_match|]. eapply yields_weaken; [apply yields_loud; [reflexivity|reflexivity|]|].
    + cbn [loud_body]. eapply yields_seq; [apply (symbol_passes R_opening_brack (lit "[")); [reflexivity|reflexivity|exact Z1]|].
      eapply yields_seq; [exact Y1|]. eapply yields_seq; [apply (symbol_passes R_range_operator (lit "..")); [reflexivity|reflexivity|exact Z2]|].
      eapply yields_seq; [exact Y2|]. apply (symbol_passes R_closing_brack (lit "]")); [reflexivity|reflexivity|exact P].
    + intros ps (s & i & j & l & -> & (p1 & q & -> & (? & ? & ? & -> & C1) & (px & q2 & -> & PX & (pr & q3 & -> & (? & ? & ? & -> & C2) & (py & pc & -> & PY & (? & ? & ? & -> & C3)))))).
      cbn [app]. match goal with |- args_are _ _ [mkPPair _ _ _ _ (?o :: px ++ ?m :: py ++ [?c])] => replace (o :: px ++ m :: py ++ [c]) with (o :: (px ++ m :: py) ++ [c]) by (rewrite <- app_assoc; reflexivity) end.
      split.
      * constructor; [|constructor]. apply tame_plain; [discriminate|discriminate|]. constructor; [apply tame_plain; [discriminate|discriminate|exact C1]|].
        apply Forall_app. split; [|constructor; [apply tame_plain; [discriminate|discriminate|exact C3]|constructor]].
        apply Forall_app. split; [apply PX|]. constructor; [apply tame_plain; [discriminate|discriminate|exact C2]|apply PY].
      * intro path. eexists. split; [apply Den_slice; [apply bounds_opt; [exact PX|exact PY|reflexivity]|exact Ix|exact Iy|reflexivity]|reflexivity].
Qed.
(** Arguments of calls. *)
Lemma actual_good : forall u t, w_expression u t -> good_expression u t -> good_actuals u [t].
Proof.
  intros u t W G w v B. right. exists (lit ")" ++ v), (lit ")" ++ v). exists (expr_is t), nothing, nothing. destruct (expression_head u t W) as (N & C).
  split; [apply G, close_follow; [exact B|by_class|discriminate]|]. split; [by_solid|]. split; [apply steps_nil|]. split; [no_match|].
  split; [apply yields_opt_none; [no_match|apply passes_solid; by_solid]|]. split; [exact N|]. split; [exact C|].
  intros p q c (e & -> & R & T & D) -> ->. cbn [app]. split; [constructor; [exact T|constructor]|]. intro path. destruct (D path) as (n & D1 & <-).
  exists [n]. split; [constructor; exact D1|reflexivity].
Qed.
Lemma actuals_good : forall u t w w' v l, w_expression u t -> good_expression u t -> blank w -> blank w' -> w_actuals v l -> good_actuals v l ->
  good_actuals (u ++ w ++ lit "," ++ w' ++ v) (t :: l).
Proof.
  intros u t w w' v l W G B B' _ G' w2 z B2. right. destruct (expression_head u t W) as (N & C). rewrite <- !app_assoc.
  assert (u ++ w ++ lit "," ++ w' ++ v <> [] /\ in_class expr_first (u ++ w ++ lit "," ++ w' ++ v)) as (N' & C').
  { split; [destruct u; [contradiction|discriminate]|apply class_app; assumption]. }
  assert (yields NonAtomic $R_expression (u ++ w ++ lit "," ++ w' ++ v ++ w2 ++ lit ")" ++ z) (lit "," ++ w' ++ v ++ w2 ++ lit ")" ++ z) (expr_is t)) as Y.
  { apply G, close_follow; [exact B|by_class|discriminate]. }
  destruct (G' w2 z B2) as [(-> & ->)|(v1 & v2 & P1 & P2 & P3 & Y1 & S1 & St & F & Y3 & Nv & Cv & D)].
  - assert (yields NonAtomic $R_comma (lit "," ++ w' ++ [] ++ w2 ++ lit ")" ++ z) (lit ")" ++ z) (token R_comma (lit ",") calm)) as Yc.
    { cbn [app]. rewrite (app_assoc w'). apply (symbol_then R_comma (lit ",")); [reflexivity|reflexivity|apply blank_app; assumption|by_solid]. }
    exists (lit "," ++ w' ++ [] ++ w2 ++ lit ")" ++ z), (lit "," ++ w' ++ [] ++ w2 ++ lit ")" ++ z). exists (expr_is t), nothing. eexists.
    split; [exact Y|]. split; [by_solid|]. split; [apply steps_nil|]. split; [eapply fails_seq2; [exact Yc|no_match]|]. split; [apply yields_opt, Yc|]. split; [exact N'|]. split; [exact C'|].
    intros p q c (e & -> & R & T & D) -> (i & j & l & -> & C2). cbn [app]. split.
    + constructor; [exact T|]. constructor; [apply tame_plain; [discriminate|discriminate|exact C2]|constructor].
    + intro path. destruct (D path) as (n & D1 & <-). exists [n]. split; [|reflexivity]. apply Den_next; [exact D1|reflexivity|constructor].
  - exists (lit "," ++ w' ++ v ++ w2 ++ lit ")" ++ z), v2. exists (expr_is t). eexists _, P3. split; [exact Y|]. split; [by_solid|]. split; [|split; [exact F|split; [exact Y3|split; [exact N'|split; [exact C'|]]]]].
    + eapply steps_app; [apply steps_one; eapply yields_seq; [|exact Y1]|exact St]. apply (symbol_then R_comma (lit ",")); [reflexivity|reflexivity|exact B'|].
      eapply solid_app; [split; [exact Nv|exact Cv]|reflexivity].
    + intros p q c (e & -> & R & T & D1) (q1 & q2 & -> & (pc & p1 & -> & (i & j & l' & -> & C2) & H1) & H2) H3. destruct (D p1 q2 c H1 H2 H3) as (C3 & D3). cbn [app]. rewrite <- app_assoc.
      split.
      * constructor; [exact T|]. constructor; [apply tame_plain; [discriminate|discriminate|exact C2]|exact C3].
      * intro path. destruct (D1 path) as (n & D1' & <-). destruct (D3 path) as (ns & D3' & <-). exists (n :: ns). split; [apply Den_next; [exact D1'|reflexivity|exact D3']|reflexivity].
Qed.

Lemma expressions_written :
  (forall u t, w_expression u t -> good_expression u t) /\ (forall u t, w_choices u t -> good_choices u t) /\
  (forall u t, w_sequence u t -> good_sequence u t) /\ (forall u t, w_term u t -> good_term u t) /\
  (forall u t, w_core u t -> good_core u t) /\ (forall u l, w_actuals u l -> good_actuals u l).
Proof.
  apply written_min.
  - apply plain_good.
  - intros u w o w' v a b W G B O B' W' G' r z F. rewrite <- !app_assoc. apply (first_good _ nothing u w o w' v a b r z); try assumption.
    + destruct (term_head u a W) as (N & C). pose proof (class_app _ _ (w ++ o ++ w' ++ v ++ r) N C) as C'.
      apply yields_opt_none; [no_match|apply passes_solid, solid_class; eapply class_sub; [|exact C']; reflexivity].
    + intros ps ->. left. reflexivity.
  - intros o1 w1 u w o w' v a b O1 B1 W G B O B' W' G' r z F. rewrite <- !app_assoc. apply (first_good _ choice_is u w o w' v a b r z); try assumption.
    + apply yields_opt. apply choice_written; [exact O1|exact B1|]. eapply solid_app; [apply (term_head u a W)|reflexivity].
    + intros ps H. right. exact H.
  - intros u t _. apply alternative_good.
  - intros u w w' v a b _ G B B' W' G'. apply choice_good; assumption.
  - apply operand_good.
  - intros. apply sequence_good; assumption.
  - intros w u t B W G. apply (prefix_good R_positive_predicate_operator (lit "&")); auto.
  - intros w u t B W G. apply (prefix_good R_negative_predicate_operator (lit "!")); auto.
  - intros u t v t' W G H. eapply postfixed_good; eassumption.
  - apply terminal_good.
  - intros. apply parens_good; assumption.
  - apply name_good.
  - intros. eapply call_good; eassumption.
  - intros. eapply slice_good; eassumption.
  - intros w v B. left. split; reflexivity.
  - apply actual_good.
  - intros. eapply actuals_good; eassumption.
Qed.
