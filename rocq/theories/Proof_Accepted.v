(** Which grammars with silent rules with parameters are accepted. *)
From Coq Require Import String List NArith ZArith Arith Bool Lia.
From Verif Require Import Model_Text Model_Message Model_Meta Model_Import Model_Node Model_Generator Model_Output Model_Inline
  Spec_Text Spec_Peg Spec_Grammar_Peg Spec_Occur Spec_Generator Spec_Inline Spec_Accepted
  Proof_Text Proof_Emit Proof_Box Proof_Process Proof_Compile Proof_Inline Proof_Inlined Proof_Inlining Proof_Inline_Ends.
Import ListNotations.
Open Scope list_scope.

(** The parts of an expression with its parameters replaced. *)
Definition is_param (sigma : list (text * parse_expr)) (e : parse_expr) : Prop := exists x a, assoc x sigma a /\ e = PPath [x] None.
Ltac here := match goal with
  | |- operand_of ?x (?c (mkNode ?x ?s)) => exact (ltac:(constructor) : operand_of (n_expr (mkNode x s)) (c (mkNode x s)))
  | |- operand_of ?x (PSeq (mkNode ?x ?s) ?y ?t) => exact (Op_seq_l (mkNode x s) y t)
  | |- operand_of ?x (PSeq ?y (mkNode ?x ?s) ?t) => exact (Op_seq_r y (mkNode x s) t)
  | |- operand_of ?x (PChoice (mkNode ?x ?s) ?y) => exact (Op_choice_l (mkNode x s) y)
  | |- operand_of ?x (PChoice ?y (mkNode ?x ?s)) => exact (Op_choice_r y (mkNode x s))
  | |- operand_of ?x (?c (mkNode ?x ?s) ?y) => exact (ltac:(constructor) : operand_of (n_expr (mkNode x s)) (c (mkNode x s) y))
  end.

Lemma part_cases : forall e1 e, part e1 e -> e1 = e \/ exists e2, operand_of e2 e /\ part e1 e2.
Proof. intros e1 e P. induction P as [|e2 e P IH O]; [left; reflexivity|right; eauto]. Qed.
Lemma part_in : forall e1 e2 e, operand_of e2 e -> part e1 e2 -> part e1 e.
Proof. intros. eapply Part_in; eassumption. Qed.

Lemma substituted_parts : forall sigma,
  (forall e0 e, substitutes sigma e0 e -> forall e1, part e1 e ->
     (exists x a, assoc x sigma a /\ part e1 a) \/ (exists e2, part e2 e0 /\ substitutes sigma e2 e1 /\ ~ is_param sigma e2)) /\
  (forall l0 l, substitutes_nodes sigma l0 l -> forall n e1, In n l -> part e1 (n_expr n) ->
     (exists x a, assoc x sigma a /\ part e1 a) \/ (exists n0 e2, In n0 l0 /\ part e2 (n_expr n0) /\ substitutes sigma e2 e1 /\ ~ is_param sigma e2)).
Proof.
  intro sigma.
  apply substitutes_mutind; intros;
    try (match goal with P : part ?e1 ?e |- _ => destruct (part_cases _ _ P) as [->|(e3 & O & P')];
           [right; eexists; split; [apply Part_self|split; [econstructor; eassumption|intros (? & ? & ? & ?); discriminate]]
           |inversion O; subst; cbn [n_expr] in P';
            match goal with IH : forall e1, part e1 ?e3 -> _, Q : part _ ?e3 |- _ => destruct (IH _ Q) as [L|(e4 & P4 & S4 & N4)]; [left; exact L|right; exists e4; split; [eapply part_in; [|exact P4]; here|split; assumption]] end] end; fail).
  - left. eauto.
  - right. exists (PPath path None). split; [apply Part_self|]. destruct (part_cases _ _ H0) as [->|(e3 & O & _)]; [|inversion O].
    split; [apply Su_path; assumption|]. intros (x & a & A & E). injection E as ->. eapply H; eauto.
  - destruct (part_cases _ _ H1) as [->|(e3 & O & P')].
    + right. exists (PPath path (Some (PCall l))). split; [apply Part_self|]. split; [apply Su_call; assumption|]. intros (x & a & A & E). discriminate.
    + inversion O; subst. destruct (H0 _ _ ltac:(eassumption) P') as [L|(n0 & e2 & I & P2 & S & N)]; [left; exact L|].
      right. exists e2. split; [eapply part_in; [apply Op_arg, I|exact P2]|split; assumption].
  - contradiction.
  - destruct H3 as [<-|J].
    + destruct (H0 _ H4) as [L|(e2 & P2 & S & N)]; [left; exact L|]. right. exists (mkNode e s), e2. split; [left; reflexivity|]. split; [exact P2|split; assumption].
    + destruct (H2 _ _ J H4) as [L|(n0 & e2 & I & P2)]; [left; exact L|]. right. exists n0, e2. split; [right; exact I|exact P2].
Qed.

Lemma assoc_det : forall {A : Type} x (l : list (text * A)) a b, assoc x l a -> assoc x l b -> a = b.
Proof. intros A x l a b H. induction H; intro K; inversion K; subst; try contradiction; auto. Qed.
Lemma substitutes_det : forall sigma,
  (forall e e1, substitutes sigma e e1 -> forall e2, substitutes sigma e e2 -> e1 = e2) /\
  (forall l l1, substitutes_nodes sigma l l1 -> forall l2, substitutes_nodes sigma l l2 -> l1 = l2).
Proof.
  intro sigma. apply substitutes_mutind; intros;
    match goal with S : substitutes _ ?e _ |- @eq parse_expr _ _ => inversion S; subst | S : substitutes_nodes _ ?e _ |- @eq (list _) _ _ => inversion S; subst end;
    repeat match goal with IH : forall e2, substitutes _ ?e e2 -> _ = e2, S : substitutes _ ?e _ |- _ => apply IH in S; subst
                         | IH : forall e2, substitutes_nodes _ ?e e2 -> _ = e2, S : substitutes_nodes _ ?e _ |- _ => apply IH in S; subst end;
    try reflexivity.
  - eapply assoc_det; eassumption.
  - exfalso. match goal with N : forall x a, [_] = [x] -> _ |- _ => eapply N; [reflexivity|eassumption] end.
  - exfalso. match goal with N : forall x a, [_] = [x] -> _ |- _ => eapply N; [reflexivity|eassumption] end.
Qed.
Lemma swapped : forall {A B : Type} (l : list A) (xs : list B), map (fun ax => (snd ax, fst ax)) (combine l xs) = combine xs l.
Proof. intros A B. induction l as [|a l IH]; intros [|x xs]; [reflexivity..|]. cbn [combine map fst snd]. rewrite IH. reflexivity. Qed.
Lemma substitutes_length : forall sigma l l', substitutes_nodes sigma l l' -> length l = length l'.
Proof. intros sigma l l' S. induction S; cbn [length]; congruence. Qed.

Lemma has_call_operands : forall g e, (forall path args, e <> PPath path args) -> has_call g e <-> exists e1, operand_of e1 e /\ has_call g e1.
Proof.
  intros g e N. split.
  - intros (s & l & M & P). destruct (part_cases _ _ P) as [E|(e1 & O & P1)]; [exfalso; eapply N; symmetry; exact E|]. exists e1. split; [exact O|]. exists s, l. auto.
  - intros (e1 & O & s & l & M & P). exists s, l. split; [exact M|]. eapply part_in; eassumption.
Qed.
Lemma keeps_operands : forall g e, (forall path args, e <> PPath path args) -> keeps g e <-> exists e1, operand_of e1 e /\ keeps g e1.
Proof.
  intros g e N. split.
  - intro K. inversion K as [e0 e1 N' O K1|path l n N' I H|s l M U|s l e2 M S K2]; subst; [eauto|exfalso; eapply N; reflexivity..].
  - intros (e1 & O & K). eapply Keeps_in; eassumption.
Qed.

Section Accepted.
Variable unicode : list text.
Variable g : gmodule.
Hypothesis Cg : complete unicode g.
Hypothesis Td : tidy unicode g.
Notation macros := (collect_macros None g).

Lemma macro_one : forall s s', macro g s -> macro g s' -> pr_name s = pr_name s' -> s = s'.
Proof.
  intros s s' M M' E. eapply (rule_unique unicode g Cg); [apply M|apply M'| |exact E]. apply plain_name_spec. eapply macro_plain; [exact Td|exact M].
Qed.

Section Rule.
Variable r : parse_rule.
Hypothesis Hr : In r (g_rules g).
Hypothesis Kr : is_macro r = false.
(** What holds of the parts of the expression of a rule, before and after. *)
Definition ok (e : parse_expr) : Prop :=
  (forall path args, e = PPath path args ->
     ((exists x, path = [x] /\ In x (pr_args r) /\ args = None) \/
      ((forall x, path = [x] -> ~ In x (pr_args r)) /\ exists ent, names unicode g path ent /\ takes ent (usage_in args))) /\
     (forall l s, args = Some (PCall l) -> some_macro g s -> last path [] = pr_name s -> exists s', macro g s' /\ path = [pr_name s'])) /\
  (forall t name, (exists l r, e = PSeq l r t) \/ (exists n, e = PSeparated n t) -> trivia_name t = Some name -> exists r', In r' (g_rules g) /\ pr_name r' = name).
Definition good (e : parse_expr) : Prop := forall e1, part e1 e -> ok e1.
Lemma good_operand : forall e e1, operand_of e1 e -> good e -> good e1.
Proof. intros e e1 O G e2 P. apply G. eapply part_in; eassumption. Qed.
Lemma good_operands : forall e, ok e -> (forall e1, operand_of e1 e -> good e1) -> good e.
Proof. intros e H G e1 P. destruct (part_cases _ _ P) as [->|(e2 & O & P2)]; [exact H|]. eapply G; eassumption. Qed.
Lemma asked : forall q e t name, In q (g_rules g) -> part e (n_expr (pr_node q)) -> (exists l r, e = PSeq l r t) \/ (exists n, e = PSeparated n t) ->
  trivia_name t = Some name -> exists r', In r' (g_rules g) /\ pr_name r' = name.
Proof.
  intros q e t name J P S T. inversion Cg as [g0 _ _ Tr _]; subst. eapply Tr; [exact J| |exact T].
  destruct S as [(a & b & ->)|(n & ->)]; [left; eauto|right; eauto].
Qed.
Lemma good_source : good (n_expr (pr_node r)).
Proof.
  intros e P. split.
  - intros path args ->. split; [apply (source_named unicode g Cg Td); assumption|].
    intros l s -> Sm L. eapply (tidy_calls _ _ Td); eassumption.
  - intros t name S T. eapply asked; eassumption.
Qed.
Lemma good_clean : forall e, good e -> clean g e.
Proof.
  intros e G s x M X J. apply used_names_spec in J. destruct J as (args & P). destruct (proj1 (G _ P) _ _ eq_refl) as ([(y & E & I & _)|(_ & ent & N & _)] & _).
  - injection E as <-. assert (E := tidy_names _ _ Td s r x M Hr I (or_introl X)). subst s. apply is_macro_spec in M. destruct M. congruence.
  - exact (proj1 (proj2 (tidy_params _ _ Td s M) x X) ent N).
Qed.
Lemma good_length : forall s l, macro g s -> good (PPath [pr_name s] (Some (PCall l))) -> length (pr_args s) = length l.
Proof.
  intros s l M G. destruct (proj1 (G _ (Part_self _)) _ _ eq_refl) as ([(x & _ & _ & E)|(_ & ent & N & Tk)] & _); [discriminate|].
  assert (E := macro_names unicode g Cg Td s ent M N). subst ent. inversion Tk. congruence.
Qed.
Lemma good_body : forall s l e, macro g s -> good (PPath [pr_name s] (Some (PCall l))) ->
  substitutes (combine (pr_args s) (map n_expr l)) (n_expr (pr_node s)) e -> good e.
Proof.
  intros s l e M G S e1 P. assert (L := good_length s l M G).
  destruct (proj1 (substituted_parts _) _ _ S e1 P) as [(x & a & A & P1)|(e2 & P2 & S2 & N2)].
  - apply assoc_in, in_combine_r, in_map_iff in A. destruct A as (n & <- & I). apply G. eapply part_in; [apply Op_arg, I|exact P1].
  - assert (Js : In s (g_rules g)) by apply M.
    assert (Pth : forall path args args', e2 = PPath path args -> ~ is_param (combine (pr_args s) (map n_expr l)) e2 -> usage_in args = usage_in args' ->
      (exists x, path = [x] /\ In x (pr_args r) /\ args' = None) \/
      ((forall x, path = [x] -> ~ In x (pr_args r)) /\ exists ent, names unicode g path ent /\ takes ent (usage_in args'))).
    { intros path args args' -> N U. right. destruct (source_named unicode g Cg Td s path args Js P2) as [(x & -> & I & ->)|(_ & ent & Nm & Tk)].
      - exfalso. apply N. destruct (in_assoc_combine (pr_args s) (map n_expr l) x) as (a & A); [rewrite map_length; congruence|exact I|]. exists x, a. auto.
      - split; [|exists ent; rewrite <- U; split; assumption]. intros x -> I.
        assert (E := tidy_names _ _ Td s r x M Hr I (or_intror (ex_intro _ args P2))). subst s. apply is_macro_spec in M. destruct M. congruence. }
    split.
    + intros path args ->. inversion S2; subst.
      * exfalso. apply N2. eexists _, _. split; [eassumption|reflexivity].
      * split; [apply (Pth path None None eq_refl N2 eq_refl)|discriminate].
      * split; [eapply Pth; [reflexivity|exact N2|reflexivity]|discriminate].
      * split; [eapply Pth; [reflexivity|exact N2|cbn [usage_in]; erewrite substitutes_length by eassumption; reflexivity]|].
        intros l2 q _ Sm La. eapply (tidy_calls _ _ Td); eassumption.
    + intros t name Q T. destruct Q as [(a & b & ->)|(n & ->)]; inversion S2; subst;
        try (eapply asked; [exact Js|exact P2| |exact T]; eauto; fail); exfalso; apply N2; eexists _, _; (split; [eassumption|reflexivity]).
Qed.

(** One expression on the outside. *)
Definition settled (e : parse_expr) : Prop := forall path l, e = PPath path (Some (PCall l)) ->
  (forall s, macro g s -> path <> [pr_name s]) \/
  exists s, macro g s /\ path = [pr_name s] /\ forall x, In x (pr_args s) -> ~ mentions (n_expr (pr_node s)) x.
Lemma here_keeps : forall k e e1, inline_here macros k e = Ret e1 -> good e -> good e1 /\ settled e1 /\ (keeps g e <-> keeps g e1).
Proof.
  induction k as [|k IH]; intros e e1 H G; [discriminate|].
  assert (Other : (forall path l, e <> PPath path (Some (PCall l))) -> good e1 /\ settled e1 /\ (keeps g e <-> keeps g e1)).
  { intro N. rewrite (inline_here_other g k e N) in H. injection H as <-. split; [exact G|]. split; [|reflexivity]. intros path l E. exfalso. eapply N, E. }
  destruct e as [| | |path [[l|]|]| | | | | | | | |]; try (apply Other; discriminate). clear Other.
  cbn [inline_here] in H. destruct path as [|p0 path]; [injection H as <-; split; [exact G|split; [intros p l0 E; injection E as <- <-; left; discriminate|reflexivity]]|].
  destruct (find_macro macros (last (p0 :: path) [])) as [s|] eqn:F.
  2: { injection H as <-. split; [exact G|]. split; [|reflexivity]. intros p l0 E. injection E as <- <-. left. intros s M E. rewrite E in F. cbn [last] in F.
       rewrite (find_macro_own unicode g Cg Td s M) in F. discriminate. }
  destruct (find_macro_some _ _ _ F) as (Sm & En). destruct (proj2 (proj1 (G _ (Part_self _)) _ _ eq_refl) l s eq_refl Sm (eq_sym En)) as (s' & M & Ep).
  assert (s' = s). { rewrite Ep in F. cbn [last] in F. rewrite (find_macro_own unicode g Cg Td s' M) in F. congruence. } subst s'. rewrite Ep in *. clear p0 path Ep F En Sm.
  assert (L := good_length s l M G). rewrite (proj2 (Nat.eqb_eq _ _) L) in H.
  assert (Cl : forall n, In n l -> clean g (n_expr n)).
  { intros n J. apply good_clean. eapply good_operand; [apply Op_arg, J|exact G]. }
  destruct (macro_substitutes unicode g Cg Td s l M L Cl) as (Su & _ & _). rewrite swapped in Su.
  assert (Fo := replace_all_found (combine (map n_expr l) (pr_args s)) (n_expr (pr_node s))).
  rewrite snd_combine in Fo by (rewrite map_length; congruence).
  specialize (Fo (fun x args I => proj1 (proj2 (proj2 (tidy_params _ _ Td s M) x I)) args)).
  destruct (replace_all (combine (map n_expr l) (pr_args s)) (n_expr (pr_node s))) as (e2, b). cbn [fst snd] in *. destruct b.
  - destruct (IH e2 e1 H (good_body s l e2 M G Su)) as (G1 & S1 & K1). split; [exact G1|]. split; [exact S1|]. rewrite <- K1. split.
    + intro K. inversion K as [e0 e3 N' O K3|path l0 n N' I Hc|s0 l0 M0 U|s0 l0 e3 M0 S K3]; subst.
      * exfalso. eapply N'. reflexivity.
      * exfalso. eapply N'; [exact M|reflexivity].
      * assert (s0 = s) by (apply macro_one; assumption). subst s0. exfalso. destruct (proj1 Fo eq_refl) as (x & I & J). apply used_names_spec in J. exact (U x I J).
      * assert (s0 = s) by (apply macro_one; assumption). subst s0. rewrite (proj1 (substitutes_det _) _ _ Su _ S). exact K3.
    + intro K. eapply Keeps_body; eassumption.
  - injection H as <-. split; [exact G|]. split; [|reflexivity]. intros p l0 E. injection E as <- <-. right. exists s. split; [exact M|]. split; [reflexivity|].
    intros x I J. apply used_names_spec in J. assert (false = true) by (apply Fo; eauto). discriminate.
Qed.

Ltac unary IH Go Same := match goal with H : obind (obind (inline_expr _ ?k (n_expr ?n)) _) _ = Ret _ |- _ =>
  destruct (inline_expr macros k (n_expr n)) as [x| |] eqn:Ex; [|discriminate H|discriminate H]; cbn [obind] in H; injection H as <-;
  destruct (IH _ _ Ex) as (Gx & Kx); [apply Go; constructor|]; split;
  [apply good_operands; [apply Same; [discriminate|intros tv [(? & ? & E)|(? & E)]; try discriminate E; injection E; intros; subst; right; eauto]|intros e2 O; inversion O; exact Gx]
  |rewrite has_call_operands, keeps_operands by discriminate; split; intros (e2 & O & Q); inversion O; subst; cbn [n_expr] in *;
   eexists; (split; [constructor|cbn [n_expr]; apply Kx; exact Q])] end.
Lemma inline_keeps : forall k e e', inline_expr macros k e = Ret e' -> good e -> good e' /\ (has_call g e' <-> keeps g e).
Proof.
  induction k as [|k IH]; intros e e' H G; [discriminate|]. rewrite inline_step in H.
  destruct (inline_here macros (S k) e) as [e1| |] eqn:E1; try discriminate. cbn [obind] in H.
  destruct (here_keeps _ _ _ E1 G) as (G1 & S1 & K1). clear E1 G. rewrite K1. clear K1 e.
  assert (Leaf : (forall path args, e1 <> PPath path args) -> (forall e2, ~ operand_of e2 e1) -> e' = e1 -> good e' /\ (has_call g e' <-> keeps g e1)).
  { intros N O ->. split; [exact G1|]. rewrite has_call_operands, keeps_operands by exact N. split; intros (e2 & O2 & _); destruct (O e2 O2). }
  assert (Go : forall e2, operand_of e2 e1 -> good e2) by (intros e2 O; eapply good_operand; eassumption).
  assert (Same : forall e, (forall path args, e <> PPath path args) -> (forall t, (exists l r, e = PSeq l r t) \/ (exists n, e = PSeparated n t) ->
    (exists l r, e1 = PSeq l r t) \/ (exists n, e1 = PSeparated n t)) -> ok e).
  { intros e N T. split; [intros path args E; exfalso; eapply N, E|]. intros t name Q. apply (proj2 (G1 e1 (Part_self _))). apply T, Q. }
  destruct e1 as [s|s|a b|path args|n|n|l r0 t|l r0|n|n|n|n range|n t]; cbn [descend] in H;
    try (injection H as <-; apply Leaf; [discriminate|intros e2 O; inversion O|reflexivity]; fail).
  - injection H as <-. split; [exact G1|]. destruct args as [[l|range]|].
    + destruct (S1 _ _ eq_refl) as [N|(s & M & -> & U)].
      * split.
        -- intros (s & l0 & M & P). destruct (part_cases _ _ P) as [E|(e2 & O & P2)]; [injection E as E _; exfalso; eapply N; [exact M|symmetry; exact E]|].
           inversion O; subst. eapply Keeps_argument; [exact N|eassumption|]. exists s, l0. auto.
        -- intro K. inversion K as [e0 e3 N' O K3|path0 l0 n N' I (s & l1 & M & P)|s0 l0 M0 U|s0 l0 e3 M0 S K3]; subst.
           ++ exfalso. eapply N'. reflexivity.
           ++ exists s, l1. split; [exact M|]. eapply part_in; [apply Op_arg, I|exact P].
           ++ exfalso. eapply N; [exact M0|reflexivity].
           ++ exfalso. eapply N; [exact M0|reflexivity].
      * split; [intros _; apply Keeps_unused; assumption|]. intros _. exists s, l. split; [exact M|constructor].
    + split.
      * intros (s & l0 & M & P). destruct (part_cases _ _ P) as [E|(e2 & O & _)]; [discriminate E|inversion O].
      * intro K. inversion K as [e0 e3 N' O K3| | |]; subst. inversion O.
    + split.
      * intros (s & l0 & M & P). destruct (part_cases _ _ P) as [E|(e2 & O & _)]; [discriminate E|inversion O].
      * intro K. inversion K as [e0 e3 N' O K3| | |]; subst. inversion O.
  - unary IH Go Same.
  - unary IH Go Same.
  - destruct (inline_expr macros k (n_expr r0)) as [y| |] eqn:Ey; try discriminate. cbn [obind] in H.
    destruct (inline_expr macros k (n_expr l)) as [x| |] eqn:Ex; try discriminate. cbn [obind] in H. injection H as <-.
    destruct (IH _ _ Ex) as (Gx & Kx); [apply Go; constructor|]. destruct (IH _ _ Ey) as (Gy & Ky); [apply Go; constructor|]. split.
    + apply good_operands; [apply Same; [discriminate|intros tv [(? & ? & E)|(? & E)]; [injection E; intros; subst; left; eauto|discriminate E]]|]. intros e2 O. inversion O; assumption.
    + rewrite has_call_operands, keeps_operands by discriminate. split; intros (e2 & O & Q); inversion O; subst; cbn [n_expr] in *.
      * eexists. split; [apply Op_seq_l|apply Kx, Q].
      * eexists. split; [apply Op_seq_r|apply Ky, Q].
      * eexists. split; [apply Op_seq_l|apply Kx, Q].
      * eexists. split; [apply Op_seq_r|apply Ky, Q].
  - destruct (inline_expr macros k (n_expr r0)) as [y| |] eqn:Ey; try discriminate. cbn [obind] in H.
    destruct (inline_expr macros k (n_expr l)) as [x| |] eqn:Ex; try discriminate. cbn [obind] in H. injection H as <-.
    destruct (IH _ _ Ex) as (Gx & Kx); [apply Go; constructor|]. destruct (IH _ _ Ey) as (Gy & Ky); [apply Go; constructor|]. split.
    + apply good_operands; [apply Same; [discriminate|intros tv [(? & ? & E)|(? & E)]; discriminate E]|]. intros e2 O. inversion O; assumption.
    + rewrite has_call_operands, keeps_operands by discriminate. split; intros (e2 & O & Q); inversion O; subst; cbn [n_expr] in *.
      * eexists. split; [apply Op_choice_l|apply Kx, Q].
      * eexists. split; [apply Op_choice_r|apply Ky, Q].
      * eexists. split; [apply Op_choice_l|apply Kx, Q].
      * eexists. split; [apply Op_choice_r|apply Ky, Q].
  - unary IH Go Same.
  - unary IH Go Same.
  - unary IH Go Same.
  - unary IH Go Same.
  - unary IH Go Same.
Qed.
End Rule.

(** The whole grammar. *)
Section Result.
Variable g' : gmodule.
Variable fuel : nat.
Hypothesis Ei : inline_macros fuel g = Ret g'.
Lemma named_there : forall r e, good r e -> ~ has_call g e -> well_named unicode g' (pr_args r) e.
Proof.
  intros r e0. assert (Path : forall path args, good r (PPath path args) -> ~ has_call g (PPath path args) ->
    (forall l n, args = Some (PCall l) -> In n l -> well_named unicode g' (pr_args r) (n_expr n)) -> well_named unicode g' (pr_args r) (PPath path args)).
  { intros path args G N W. destruct (proj1 (G _ (Part_self _)) _ _ eq_refl) as ([(x & -> & I & ->)|(Np & ent & Nm & Tk)] & _); [apply WN_param, I|].
    assert (Nn : forall s, macro g s -> path <> [pr_name s]).
    { intros s M ->. assert (E := macro_names unicode g Cg Td s ent M Nm). subst ent. destruct args as [[l|range]|]; cbn [usage_in] in Tk.
      - apply N. exists s, l. split; [exact M|constructor].
      - inversion Tk.
      - inversion Tk; subst. destruct M as (_ & _ & M). contradiction. }
    destruct (names_there unicode g g' fuel Ei path ent Nm Nn) as [Nm'|(q & q' & -> & Nm' & Kp)].
    - eapply WN_path; eassumption.
    - eapply WN_path; [exact Np|exact Nm'| |exact W]. destruct Kp as (_ & _ & _ & _ & Ea & _). revert Tk. generalize (usage_in args). intros u Tk.
      inversion Tk; subst; [apply Takes_none; congruence|]. rewrite Ea. apply Takes_args. }
  revert e0. apply (expr_rect (fun e => good r e -> ~ has_call g e -> well_named unicode g' (pr_args r) e)); intros;
    try (apply WN_other; [discriminate|]; intros e2 O;
         assert (Ge : good r e2) by (eapply good_operand; eassumption);
         match goal with N : ~ has_call g _ |- _ => rewrite has_call_operands in N by discriminate end;
         inversion O; subst; match goal with IH : good r ?e -> _ -> _ |- well_named _ _ _ ?e => apply IH; [exact Ge|]; intro Hc; match goal with N : ~ _ |- _ => apply N; eauto end end; fail).
  - apply Path; [assumption|assumption|discriminate].
  - apply Path; [assumption|assumption|discriminate].
  - apply Path; [assumption|assumption|]. intros l n E I. injection E as <-. apply H; [exact I|eapply good_operand; [apply Op_arg, I|eassumption]|].
    intros (s & l & M & P). apply H1. exists s, l. split; [exact M|]. eapply part_in; [apply Op_arg, I|exact P].
Qed.
Lemma named_no_call : forall r e, good r e -> well_named unicode g' (pr_args r) e -> ~ has_call g e.
Proof.
  intros r e G W (s & l & M & P). destruct (well_named_part unicode g' _ e W) with (path := [pr_name s]) (args := Some (PCall l)) as [(x & _ & _ & E)|(_ & ent & Nm & _)].
  - intros x args I Q. destruct (proj1 (G _ Q) _ _ eq_refl) as ([(y & _ & _ & E)|(N & _)] & _); [exact E|]. exfalso. eapply N; [reflexivity|exact I].
  - exact P.
  - discriminate.
  - exact (not_there unicode g g' fuel Cg Td Ei s ent M Nm).
Qed.

Lemma kept_good : forall r r', kept g g' fuel r r' -> good r (n_expr (pr_node r')) /\ (has_call g (n_expr (pr_node r')) <-> keeps g (n_expr (pr_node r))).
Proof.
  intros r r' (J & K & _ & _ & _ & E & _). eapply inline_keeps; [exact J|exact K|exact E|]. apply good_source. exact J.
Qed.
Lemma filtered : forall (p : parse_rule -> bool) rules rules', Forall2 (becomes g fuel) rules rules' -> (forall r r', pr_name r = pr_name r' -> p r = p r') ->
  map pr_name (filter p rules) = map pr_name (filter p rules').
Proof.
  intros p rules rules' F P. induction F as [|r r' rules rules' (E & _) F IH]; [reflexivity|]. cbn [filter]. rewrite <- (P r r' E). destruct (p r); [cbn [map]; rewrite IH, E; reflexivity|exact IH].
Qed.
Lemma nodup_less : forall {A B : Type} (f : B -> A) (p q : B -> bool) l a, NoDup (a ++ map f (filter p l)) -> NoDup (a ++ map f (filter p (filter q l))).
Proof.
  intros A B f p q l a D. induction a as [|x a IH]; cbn [app] in *.
  - induction l as [|b l IH]; [constructor|]. cbn [filter] in *. destruct (p b) eqn:Pb.
    + cbn [map] in D. inversion D as [|? ? N D']; subst. specialize (IH D'). destruct (q b); [|exact IH]. cbn [filter]. rewrite Pb. cbn [map]. constructor; [|exact IH].
      intro I. apply N. apply in_map_iff in I. destruct I as (c & E & I). apply filter_In in I. destruct I as (I & Pc). apply filter_In in I. apply in_map_iff. exists c. split; [exact E|].
      apply filter_In. tauto.
    + specialize (IH D). destruct (q b); [|exact IH]. cbn [filter]. rewrite Pb. exact IH.
  - inversion D as [|? ? N D']; subst. constructor; [|apply IH, D']. intro I. apply N. apply in_or_app. apply in_app_or in I. destruct I as [I|I]; [left; exact I|right].
    apply in_map_iff in I. destruct I as (c & E & I). apply filter_In in I. destruct I as (I & Pc). apply filter_In in I. apply in_map_iff. exists c. split; [exact E|]. apply filter_In. tauto.
Qed.
Lemma complete_iff : complete unicode g' <-> forall r, In r (g_rules g) -> ~ macro g r -> ~ keeps g (n_expr (pr_node r)).
Proof.
  destruct (result g g' fuel Ei) as (Ig & Rs). split.
  - intros C r J Nm K. assert (Mr : is_macro r = false). { destruct (is_macro r) eqn:E; [|reflexivity]. exfalso. apply Nm, is_macro_spec. auto. }
    destruct (kept_there g g' fuel Ei r J Mr) as (r' & Kp). destruct (kept_good r r' Kp) as (G & Hk).
    destruct Kp as (_ & _ & J' & _ & Ea & _). eapply named_no_call; [exact G| |apply Hk, K]. rewrite Ea. apply (complete_named _ _ C), J'.
  - intro N. assert (N' : forall r r', kept g g' fuel r r' -> ~ has_call g (n_expr (pr_node r'))).
    { intros r r' Kp Hc. apply (kept_good r r' Kp) in Hc. destruct Kp as (J & K & _). eapply N; [exact J| |exact Hc]. intro M. apply is_macro_spec in M. destruct M. congruence. }
    inversion Cg as [g0 Nd Wn Tr Ci]; subst. constructor.
    + rewrite Ig. change (NoDup (map import_alias (g_imports g) ++ map pr_name (filter plain_name (g_rules g')))). rewrite <- (filtered plain_name _ _ Rs) by (intros r r' E; unfold plain_name; rewrite E; reflexivity). apply nodup_less, Nd.
    + intros r' J'. destruct (kept_back g g' fuel Ei r' J') as (r & Kp). assert (Ea : pr_args r = pr_args r') by apply Kp. rewrite <- Ea.
      apply named_there; [apply (kept_good r r' Kp)|apply (N' r r' Kp)].
    + intros r' t name J' A T. destruct (kept_back g g' fuel Ei r' J') as (r & Kp). destruct (kept_good r r' Kp) as (G & _).
      assert (Q : exists q, In q (g_rules g) /\ pr_name q = name).
      { destruct A as [(a & b & P)|(n & P)]; apply (proj2 (G _ P) t name); eauto. }
      destruct Q as (q & Jq & Eq). destruct (kept_there g g' fuel Ei q Jq) as (q' & Kq); [eapply trivia_keeps; eassumption|].
      exists q'. destruct Kq as (_ & _ & J2 & E2 & _). split; [exact J2|congruence].
    + intros alias h I. rewrite Ig in I. eapply Ci, I.
Qed.
End Result.

(** Grammars with simple calls. *)
Lemma simple_enough : simple_calls g -> forall r, In r (g_rules g) -> ~ keeps g (n_expr (pr_node r)).
Proof.
  intros (Na & Us).
  assert (X : forall e, keeps g e -> (forall path l n, part (PPath path (Some (PCall l))) e -> In n l -> ~ has_call g (n_expr n)) -> False).
  { intros e K. induction K as [e e1 N O K IH|path l n N I H|s l M U|s l e M S K IH]; intro A.
    - apply IH. intros path l n P. apply (A path). eapply part_in; eassumption.
    - eapply A; [constructor|exact I|exact H].
    - destruct (Us s M) as (x & I & J). exact (U x I J).
    - assert (Ar : forall x a, assoc x (combine (pr_args s) (map n_expr l)) a -> ~ has_call g a).
      { intros x a As. apply assoc_in, in_combine_r, in_map_iff in As. destruct As as (n & <- & I). eapply A; [constructor|exact I]. }
      apply IH. intros path l1 n P I (q & l2 & Mq & Pq).
      destruct (proj1 (substituted_parts _) _ _ S _ P) as [(x & a & As & P1)|(e2 & P2 & S2 & N2)].
      + eapply Ar; [exact As|]. exists q, l2. split; [exact Mq|]. eapply part_trans; [|exact P1]. eapply part_in; [apply Op_arg, I|exact Pq].
      + inversion S2; subst; [exfalso; apply N2; eexists _, _; split; [eassumption|reflexivity]|].
        match goal with X : substitutes_nodes _ _ _ |- _ => destruct (proj2 (substituted_parts _) _ _ X n _ I Pq) as [(x & a & As & P1)|(n0 & e3 & I0 & P3 & S3 & N3)] end.
        * eapply Ar; [exact As|]. exists q, l2. auto.
        * inversion S3; subst; [exfalso; apply N3; eexists _, _; split; [eassumption|reflexivity]|].
          eapply Na; [apply M|exact P2|exact I0|]. eexists q, _. split; [exact Mq|exact P3]. }
  intros r J K. apply (X _ K). intros path l n P I. eapply Na; eassumption.
Qed.
End Accepted.
