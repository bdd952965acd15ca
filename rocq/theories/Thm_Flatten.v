(** Theorems about the flattening of sequences and choices (generator/src/typed/generator.rs). *)
From Coq Require Import String List NArith ZArith Arith Bool Lia.
From Verif Require Import Model_Text Model_Message Model_Meta Model_Import Model_Tracker Model_Node Model_Generator
  Spec_Text Spec_Peg Spec_Grammar_Peg Proof_Text Proof_Emit Proof_Flatten Example_Generator.
Import ListNotations.
Open Scope list_scope.

(** C37: the operands of nested sequences, tried in order after their separators, have the same result as
    the sequence; the same of choices. *)
Theorem C37_sequence : forall unicode property g rho l r t pre post K res,
  gpeg unicode property g rho (PSeq l r t) pre post K res <->
  gpeg_items unicode property g rho (separated_items (collect_sequence (n_expr l) (n_expr r) t)) pre post K res.
Proof. exact flatten_sequence. Qed.
Print Assumptions C37_sequence.
Theorem C37_choice : forall unicode property g rho l r pre post K res,
  gpeg unicode property g rho (PChoice l r) pre post K res <->
  gpeg_first unicode property g rho pre post K (collect_choices (n_expr l) (n_expr r)) res.
Proof. exact flatten_choice. Qed.
Print Assumptions C37_choice.

(** [sequence_of items e]: [e] is the sequence of the items, nested to the right; each is after its
    separator. *)
Inductive sequence_of : list (trivia * parse_expr) -> parse_expr -> Prop :=
| SO_one t e : sequence_of [(t, e)] e
| SO_more t t' e' l a b : sequence_of ((t', e') :: l) (n_expr b) -> sequence_of ((t, n_expr a) :: (t', e') :: l) (PSeq a b t').
Inductive choice_of : list parse_expr -> parse_expr -> Prop :=
| CO_one e : choice_of [e] e
| CO_more l a b : choice_of l (n_expr b) -> choice_of (n_expr a :: l) (PChoice a b).
Lemma last_more : forall {A : Type} (x y : A) l d d', last (x :: y :: l) d = last (y :: l) d'.
Proof. intros A x y l d d'. change (last (y :: l) d = last (y :: l) d'). revert y. induction l as [|z l IH]; intro y; [reflexivity|]. exact (IH z). Qed.
(** All operands are kept in order with their separators, and the last is not split further. *)
Lemma sequence_rest_of : forall e t, sequence_of (sequence_rest t e) e /\ (forall l r t', snd (last (sequence_rest t e) (t, e)) <> PSeq l r t') /\
  exists e' l, sequence_rest t e = (t, e') :: l.
Proof.
  fix F 1. intros [s|s|a b|p args|n|n|[l sl] [r sr] t'|l r|n|n|n|n range|n t'] t;
    try (split; [constructor|split; [intros l' r' t''; discriminate|eexists; eexists; reflexivity]]).
  cbn [sequence_rest]. destruct (F r t') as (A & B & e' & l' & E). split; [|split; [|eexists; eexists; reflexivity]].
  - rewrite E in *. apply (SO_more t t' e' l' (mkNode l sl) (mkNode r sr) A).
  - intros l1 r1 t1 X. rewrite E in *. rewrite (last_more _ _ _ _ (t', r)) in X. exact (B _ _ _ X).
Qed.
Theorem C37_operands : forall l r t, let items := collect_sequence (n_expr l) (n_expr r) t in
  sequence_of items (PSeq l r t) /\ 2 <= length items /\ forall a b t', snd (last items (TriviaNone, n_expr l)) <> PSeq a b t'.
Proof.
  intros l r t. cbv zeta. unfold collect_sequence. destruct (sequence_rest_of (n_expr r) t) as (A & B & e' & l' & E). rewrite E in *.
  split; [apply SO_more, A|]. split; [cbn [length]; lia|]. intros a b t' X.
  rewrite (last_more _ _ _ _ (t, n_expr r)) in X. exact (B _ _ _ X).
Qed.
Print Assumptions C37_operands.
Theorem C37_variants : forall l r, choice_of (collect_choices (n_expr l) (n_expr r)) (PChoice l r) /\
  forall a b, last (collect_choices (n_expr l) (n_expr r)) (n_expr l) <> PChoice a b.
Proof.
  assert (A : forall e, choice_of (choices_rest e) e /\ forall d a b, last (choices_rest e) d <> PChoice a b).
  { fix F 1. intros [s|s|a b|p args|n|n|l r t'|[l sl] [r sr]|n|n|n|n range|n t'];
      try (split; [constructor|intros d a' b'; discriminate]).
    cbn [choices_rest]. destruct (F r) as (A & B). split; [apply (CO_more _ (mkNode l sl) (mkNode r sr) A)|].
    intros d a b. specialize (B d a b). cbn [last]. destruct (choices_rest r) eqn:E; [|exact B].
    destruct r as [s|s|a0 b0|p args|n|n|l' r' t'|[l' ?] [r' ?]|n|n|n|n range|n t']; discriminate. }
  intros l r. unfold collect_choices. destruct (A (n_expr r)) as (B & C). split; [apply CO_more, B|].
  intros a b. specialize (C (n_expr l) a b). cbn [last]. destruct (choices_rest (n_expr r)) eqn:E; [|exact C].
  inversion B.
Qed.
Print Assumptions C37_variants.
(** Parsers: a sequence (choice) type whose last field is a sequence (choice) and the type with all the fields. *)
Theorem C37_nodes : forall env property pre post K r,
  (forall a x t0 b t, peg env property (Seq (a ++ [(Seq ((x, t0) :: b), t)])) pre post K r <-> peg env property (Seq (a ++ (x, t) :: b)) pre post K r) /\
  (forall a b, peg env property (Choice (a ++ [Choice b])) pre post K r <-> peg env property (Choice (a ++ b)) pre post K r).
Proof. intros. split; intros; [apply flatten_seq_node|apply flatten_choice_node]. Qed.
Print Assumptions C37_nodes.
Example C37_ex :
  let e := sq (str "a") TriviaOptional (sq (sq (str "b") TriviaNone (str "c")) TriviaMandatory (str "d")) in
  collect_sequence (str "a") (sq (sq (str "b") TriviaNone (str "c")) TriviaMandatory (str "d")) TriviaOptional =
    [(TriviaNone, str "a"); (TriviaOptional, sq (str "b") TriviaNone (str "c")); (TriviaMandatory, str "d")] /\
  collect_choices (str "a") (alt (str "b") (alt (alt (str "c") (str "d")) (str "e"))) = [str "a"; str "b"; alt (str "c") (str "d"); str "e"] /\
  gpeg [] (fun _ _ => false) (mkModule [] [rl "^" [] (str " "); rl "~" [] (PRep (nd (str " ")))] [] []) [] e
    [] (lit "a  bc d.") [] (Ok (lit "a  bc d") (lit ".") []) /\
  peg (fun _ => mkRule false (fun _ => NONE)) (fun _ _ => false)
    (Seq ([(Str (lit "a"), Empty)] ++ [(Seq [(Str (lit "b"), Empty); (Str (lit "c"), Empty)], Empty)])) [] (lit "abcd") [] (Ok (lit "abc") (lit "d") []).
Proof.
  cbv zeta. split; [reflexivity|]. split; [reflexivity|]. split.
  - apply G_seq.
    apply (GI_expr _ _ _ _ _ _ _ _ _ (lit "a") (lit "  bc d.") []); [apply G_str, (OT_ok (lit "a") [] _ []); reflexivity|].
    assert (R : last_rule (mkModule [] [rl "^" [] (str " "); rl "~" [] (PRep (nd (str " ")))] [] []) (lit "~") (rl "~" [] (PRep (nd (str " "))))).
    { exists [rl "^" [] (str " ")], []. split; [reflexivity|]. split; [reflexivity|intros ? []]. }
    assert (R' : last_rule (mkModule [] [rl "^" [] (str " "); rl "~" [] (PRep (nd (str " ")))] [] []) (lit "^") (rl "^" [] (str " "))).
    { exists [], [rl "~" [] (PRep (nd (str " ")))]. split; [reflexivity|]. split; [reflexivity|]. intros r [<-|[]]. discriminate. }
    eapply (GI_trivia _ _ _ _ TriviaOptional (lit "~") _ _ _ _ _ (lit "a  ") (lit "bc d.") []); [reflexivity|exact R| |].
    + eapply (G_repeat _ _ _ _ _ (nd (str " ")) 0%N usize_max TriviaNone); [left; auto|right; split; [discriminate|reflexivity]|].
      eapply (GR_round _ _ _ _ _ _ _ _ _ _ _ _ (lit "a ") (lit " bc d.") []); [reflexivity| |].
      * apply GR_first. eapply GI_expr; [apply G_str, (OT_ok (lit " ") (lit "a") _ []); reflexivity|constructor].
      * eapply (GR_round _ _ _ _ _ _ _ _ _ _ _ _ (lit "a  ") (lit "bc d.") []); [reflexivity| |].
        -- apply GR_later; [reflexivity|]. apply GI_none. eapply GI_expr; [apply G_str, (OT_ok (lit " ") (lit "a ") _ []); reflexivity|constructor].
        -- apply GR_stop; [reflexivity|lia|]. apply GR_later; [reflexivity|]. apply GI_none. apply GI_expr_fail. apply G_str, OT_fail.
           intros (x & E). discriminate.
    + eapply GI_expr; [|constructor]. apply G_seq.
      apply (GI_expr _ _ _ _ _ _ _ _ _ (lit "a  bc") (lit " d.") []).
      * apply G_seq. eapply GI_expr; [apply G_str, (OT_ok (lit "b") (lit "a  ") _ []); reflexivity|]. apply GI_none.
        eapply GI_expr; [apply G_str, (OT_ok (lit "c") (lit "a  b") _ []); reflexivity|constructor].
      * eapply (GI_trivia _ _ _ _ TriviaMandatory (lit "^") _ _ _ _ _ (lit "a  bc ") (lit "d.") []); [reflexivity|exact R'| |].
        -- apply G_str, (OT_ok (lit " ") (lit "a  bc") _ []). reflexivity.
        -- eapply GI_expr; [apply G_str, (OT_ok (lit "d") (lit "a  bc ") _ []); reflexivity|constructor].
  - apply P_seq. eapply (I_cons _ _ _ _ _ _ _ (lit "a") (lit "bcd") []); [apply P_terminal, T_str, (OT_ok (lit "a") [] _ []); reflexivity|].
    eapply (I_cons _ _ _ _ _ _ _ (lit "a") (lit "bcd") []); [apply P_terminal, T_empty|].
    eapply I_cons; [|constructor]. apply P_seq.
    eapply (I_cons _ _ _ _ _ _ _ (lit "ab") (lit "cd") []); [apply P_terminal, T_str, (OT_ok (lit "b") (lit "a") _ []); reflexivity|].
    eapply (I_cons _ _ _ _ _ _ _ (lit "ab") (lit "cd") []); [apply P_terminal, T_empty|].
    eapply I_cons; [apply P_terminal, T_str, (OT_ok (lit "c") (lit "ab") _ []); reflexivity|constructor].
Qed.
