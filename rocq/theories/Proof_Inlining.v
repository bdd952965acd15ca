(** What [inline_macros] makes of a grammar is related to it. *)
From Coq Require Import String List NArith ZArith Arith Bool Lia Sorted.
From Verif Require Import Model_Text Model_Message Model_Meta Model_Import Model_Node Model_Generator Model_Output Model_Inline
  Spec_Text Spec_Peg Spec_Grammar_Peg Spec_Occur Spec_Generator Spec_Inline Proof_Text Proof_Emit Proof_Box Proof_Process Proof_Compile Proof_Inline Proof_Inlined.
Import ListNotations.
Open Scope list_scope.

Lemma is_macro_spec : forall g s, macro g s <-> In s (g_rules g) /\ is_macro s = true.
Proof.
  intros g s. unfold macro, is_macro. rewrite andb_true_iff. destruct (pr_args s); split; intros (A & B & C); (split; [exact A|split; [exact B|]]).
  - contradiction C. reflexivity.
  - discriminate C.
  - reflexivity.
  - discriminate.
Qed.

(** The table of silent rules with parameters. *)
Lemma macro_map_from : forall rules l name s, lookup name (fold_left (fun l r => insert (pr_name r) r l) rules l) = Some s ->
  lookup name l = Some s \/ (In s rules /\ pr_name s = name).
Proof.
  induction rules as [|r rules IH]; intros l name s H; [left; exact H|]. cbn [fold_left] in H. apply IH in H. destruct H as [H|(A & B)]; [|right; split; [right; exact A|exact B]].
  destruct (teqb name (pr_name r)) as [->|N].
  - rewrite lookup_insert_same in H. injection H as ->. right. split; [left; reflexivity|reflexivity].
  - rewrite lookup_insert_other in H by congruence. left. exact H.
Qed.
Lemma macro_map_there : forall rules l s, In s rules -> NoDup (map pr_name rules) ->
  lookup (pr_name s) (fold_left (fun l r => insert (pr_name r) r l) rules l) = Some s.
Proof.
  induction rules as [|r rules IH]; intros l s J D; [contradiction|]. cbn [map fold_left] in *. inversion D as [|? ? Nr D']; subst. destruct J as [->|J]; [|apply IH; assumption].
  assert (Q : forall l', lookup (pr_name s) l' = Some s -> lookup (pr_name s) (fold_left (fun l r => insert (pr_name r) r l) rules l') = Some s).
  { clear - Nr. induction rules as [|r rules IH]; intros l' H; [exact H|]. cbn [fold_left map] in *. apply IH; [intro; apply Nr; right; assumption|].
    rewrite lookup_insert_other; [exact H|]. intro E. apply Nr. left. congruence. }
  apply Q, lookup_insert_same.
Qed.
Lemma key_insert_in : forall {A : Type} k (v : A) l k' v', In (k', v') (key_insert k v l) -> (k', v') = (k, v) \/ In (k', v') l.
Proof.
  intros A k v l k' v'. induction l as [|(k0, v0) l IH]; cbn [key_insert]; [intros [E|[]]; left; congruence|].
  destruct (key_ltb k k0); [intros [E|J]; [left; congruence|right; exact J]|]. destruct (key_ltb k0 k).
  - intros [E|J]; [right; left; exact E|]. destruct (IH J) as [E|I]; [left; exact E|right; right; exact I].
  - intros [E|J]; [left; congruence|right; right; exact J].
Qed.
Lemma extend_in : forall {A : Type} (new : list (option text * A)) l k v,
  In (k, v) (fold_left (fun res kv => key_insert (fst kv) (snd kv) res) new l) -> In (k, v) new \/ In (k, v) l.
Proof.
  intros A new. induction new as [|(k0, v0) new IH]; intros l k v H; [right; exact H|]. cbn [fold_left fst snd] in H. apply IH in H.
  destruct H as [H|H]; [left; right; exact H|]. apply key_insert_in in H. destruct H as [H|H]; [left; left; congruence|right; exact H].
Qed.
Lemma extend_head : forall {A : Type} (new : list (option text * A)) v l, (forall k w, In (k, w) new -> k <> None) ->
  exists l', fold_left (fun res kv => key_insert (fst kv) (snd kv) res) new ((None, v) :: l) = (None, v) :: l'.
Proof.
  intros A new. induction new as [|(k0, v0) new IH]; intros v l N; [exists l; reflexivity|]. cbn [fold_left fst snd key_insert].
  destruct k0 as [k0|]; [|exfalso; eapply N; [left; reflexivity|reflexivity]]. cbn [key_ltb]. apply IH. intros k w J. apply (N k w). right. exact J.
Qed.

Definition some_in (g : gmodule) (m : list (text * parse_rule)) : Prop := forall name s, lookup name m = Some s -> some_macro g s /\ pr_name s = name.
Lemma macro_map_in : forall g, some_in g (macro_map (g_rules g)).
Proof.
  intros g name s H. apply macro_map_from in H. destruct H as [H|(A & B)]; [discriminate|]. split; [|exact B]. apply SM_own, is_macro_spec.
  apply filter_In in A. exact A.
Qed.
Lemma collect_spec : forall g key,
  (forall k m, In (k, m) (collect_macros key g) -> some_in g m /\ (k = key \/ k <> None)) /\
  (key = None -> exists l, collect_macros key g = (None, macro_map (g_rules g)) :: l).
Proof.
  intro g. induction g as [g IH] using gmodule_rect'. intro key. destruct g as [deps rules doc imports]. cbn [g_imports g_rules] in *. cbn [collect_macros].
  assert (G : forall l, (forall i, In i l -> In i imports) -> forall res,
    let out := (fix go (l : list import) (res : list (option text * list (text * parse_rule))) :=
         match l with
         | [] => res
         | Builtin _ _ :: r => go r res
         | File alias g' :: r => go r (fold_left (fun res kv => key_insert (fst kv) (snd kv) res) (collect_macros (Some alias) g') res)
         end) l res in
    (forall k m, In (k, m) out -> In (k, m) res \/ (some_in (mkModule deps rules doc imports) m /\ k <> None)) /\
    (forall v t, res = (None, v) :: t -> exists t', out = (None, v) :: t')).
  { induction l as [|i l IHl]; intros S res; [split; [intros k m J; left; exact J|intros v t ->; exists t; reflexivity]|].
    specialize (IHl (fun i J => S i (or_intror J))). destruct i as [a p|a g']; [apply IHl|].
    assert (Ia : In (File a g') imports) by (apply S; left; reflexivity). destruct (IH a g' Ia (Some a)) as (Q & _).
    assert (Q' : forall k m, In (k, m) (collect_macros (Some a) g') -> some_in (mkModule deps rules doc imports) m /\ k <> None).
    { intros k m J. destruct (Q k m J) as (A & B). split; [|destruct B as [->|B]; [discriminate|exact B]].
      intros name s L. destruct (A name s L) as (A1 & A2). split; [|exact A2]. eapply SM_file; [exact Ia|exact A1]. }
    cbn zeta in *. destruct (IHl (fold_left (fun res kv => key_insert (fst kv) (snd kv) res) (collect_macros (Some a) g') res)) as (I1 & I2). split.
    - intros k m J. destruct (I1 k m J) as [J'|J']; [|right; exact J']. apply extend_in in J'. destruct J' as [J'|J']; [right; apply Q', J'|left; exact J'].
    - intros v t ->. destruct (extend_head (collect_macros (Some a) g') v t) as (t' & E); [intros k w J; apply (Q' k w J)|]. rewrite E. rewrite E in I2. apply (I2 v t' eq_refl). }
  cbn zeta in G. destruct (G imports (fun i J => J) [(key, macro_map rules)]) as (G1 & G2). split.
  - intros k m J. destruct (G1 k m J) as [[E|[]]|(A & B)]; [|split; [exact A|right; exact B]]. injection E as <- <-. split; [|left; reflexivity].
    apply (macro_map_in (mkModule deps rules doc imports)).
  - intros ->. apply (G2 (macro_map rules) [] eq_refl).
Qed.
Lemma find_macro_some : forall g name s, find_macro (collect_macros None g) name = Some s -> some_macro g s /\ pr_name s = name.
Proof.
  intros g name s. assert (Q := proj1 (collect_spec g None)). revert Q. generalize (collect_macros None g). induction l as [|(k, m) l IH]; intros Q H; [discriminate|].
  cbn [find_macro] in H. destruct (lookup name m) as [s'|] eqn:E.
  - injection H as ->. apply (proj1 (Q k m (or_introl eq_refl))), E.
  - apply IH; [|exact H]. intros k' m' J. apply Q. right. exact J.
Qed.
Lemma nodup_filter : forall (rules : list parse_rule) p, NoDup (map pr_name rules) -> NoDup (map pr_name (filter p rules)).
Proof.
  induction rules as [|r rules IH]; intros p D; [constructor|]. inversion D; subst. cbn [filter]. destruct (p r); [|apply IH; assumption].
  constructor; [|apply IH; assumption]. intro J. apply H1. apply in_map_iff in J. destruct J as (r' & E & J). apply filter_In in J. apply in_map_iff. exists r'. split; [exact E|apply J].
Qed.
Lemma nodup_app_r : forall {A : Type} (l1 l2 : list A), NoDup (l1 ++ l2) -> NoDup l2.
Proof. intros A l1. induction l1 as [|a l1 IH]; intros l2 H; [exact H|]. inversion H; subst. apply IH. assumption. Qed.
Lemma filter_within : forall {A : Type} (p q : A -> bool) l, (forall a, In a l -> p a = true -> q a = true) -> filter p l = filter p (filter q l).
Proof.
  intros A p q l. induction l as [|a l IH]; intro H; [reflexivity|]. cbn [filter]. assert (IH' := IH (fun b J => H b (or_intror J))).
  destruct (p a) eqn:Ep; [rewrite (H a (or_introl eq_refl) Ep); cbn [filter]; rewrite Ep, IH'; reflexivity|].
  destruct (q a); [cbn [filter]; rewrite Ep|]; exact IH'.
Qed.

Lemma complete_nodup : forall unicode g, complete unicode g ->
  NoDup (map import_alias (g_imports g) ++ map pr_name (filter (fun r => negb (text_eqb (pr_name r) (lit "~") || text_eqb (pr_name r) (lit "^"))) (g_rules g))).
Proof. intros unicode g [h D _ _ _]. exact D. Qed.
Lemma complete_named : forall unicode g, complete unicode g -> forall r, In r (g_rules g) -> well_named unicode g (pr_args r) (n_expr (pr_node r)).
Proof. intros unicode g [h _ W _ _]. exact W. Qed.

Section Inlining.
Variable unicode : list text.
Variable property : N -> char -> bool.
Variable g g' : gmodule.
Variable fuel : nat.
Hypothesis Cg : complete unicode g.
Hypothesis Td : tidy unicode g.
Hypothesis Ei : inline_macros fuel g = Ret g'.
Hypothesis Cg' : complete unicode g'.

Definition plain_name (r : parse_rule) : bool := negb (text_eqb (pr_name r) (lit "~") || text_eqb (pr_name r) (lit "^")).
Lemma plain_name_spec : forall r, plain_name r = true <-> ~ is_trivia_rule r.
Proof.
  intro r. unfold plain_name, is_trivia_rule. rewrite negb_true_iff, orb_false_iff. destruct (teqb (pr_name r) (lit "~")), (teqb (pr_name r) (lit "^")); intuition congruence.
Qed.
Lemma macro_plain : forall s, macro g s -> plain_name s = true.
Proof. intros s (A & _ & C). apply plain_name_spec. intro T. apply C, (tidy_trivia _ _ Td s A T). Qed.
Lemma own_nodup : NoDup (map import_alias (g_imports g) ++ map pr_name (filter plain_name (g_rules g))).
Proof. exact (complete_nodup _ _ Cg). Qed.
Lemma rule_unique : forall r r', In r (g_rules g) -> In r' (g_rules g) -> ~ is_trivia_rule r -> pr_name r = pr_name r' -> r = r'.
Proof.
  intros r r' J J' T E. assert (T' : ~ is_trivia_rule r') by (unfold is_trivia_rule in *; rewrite <- E; exact T).
  assert (D := nodup_app_r _ _ own_nodup). apply plain_name_spec in T, T'.
  assert (K : In r (filter plain_name (g_rules g))) by (apply filter_In; split; assumption).
  assert (K' : In r' (filter plain_name (g_rules g))) by (apply filter_In; split; assumption).
  revert D K K'. generalize (filter plain_name (g_rules g)). induction l as [|a l IH]; intros D K K'; [contradiction|]. inversion D as [|? ? Na D']; subst.
  destruct K as [->|K], K' as [->|K']; [reflexivity| | |apply IH; assumption].
  - exfalso. apply Na. rewrite E. apply in_map, K'.
  - exfalso. apply Na. rewrite <- E. apply in_map, K.
Qed.
Lemma not_alias : forall r i, In r (g_rules g) -> ~ is_trivia_rule r -> In i (g_imports g) -> import_alias i <> pr_name r.
Proof.
  intros r i J T I E. assert (D := own_nodup). apply plain_name_spec in T.
  assert (K : In (pr_name r) (map pr_name (filter plain_name (g_rules g)))) by (apply in_map, filter_In; split; assumption).
  rewrite <- E in K. revert D K I. generalize (map pr_name (filter plain_name (g_rules g))). intro ns. induction (g_imports g) as [|a l IH]; intros D K I; [contradiction|].
  cbn [map app] in D. inversion D as [|? ? Na D']; subst. destruct I as [->|I]; [|apply IH; assumption]. apply Na, in_or_app. right. exact K.
Qed.
Lemma find_macro_own : forall s, macro g s -> find_macro (collect_macros None g) (pr_name s) = Some s.
Proof.
  intros s M. destruct (proj2 (collect_spec g None) eq_refl) as (l & ->). cbn [find_macro]. unfold macro_map. rewrite macro_map_there; [reflexivity| |].
  - apply filter_In. apply is_macro_spec, M.
  - rewrite (filter_within is_macro plain_name) by (intros r J K; apply macro_plain, is_macro_spec; split; assumption). apply nodup_filter. eapply nodup_app_r, own_nodup.
Qed.
Lemma own_name_nil : forall h x, ~ own_name unicode h [] x.
Proof. intros h x H. inversion H. Qed.
Lemma builtin_nil : ~ builtin unicode [].
Proof. intro H. inversion H. Qed.
Lemma names_one : forall h x ent, names unicode h [x] ent -> (exists r, In r (g_rules h) /\ ~ is_trivia_rule r /\ x = pr_name r /\ ent = E_rule h r) \/
  exists p, In (Builtin x (lit "pest" :: p)) (g_imports h) /\ builtin unicode p /\ ent = E_builtin p.
Proof.
  intros h x ent H. inversion H as [p B E|p y O Nb]; subst; [exfalso; apply builtin_nil, B|]. inversion O; subst.
  - left. eauto 6.
  - right. rewrite app_nil_r in *. eauto.
  - exfalso. eapply own_name_nil. eassumption.
Qed.
Lemma macro_names : forall s ent, macro g s -> names unicode g [pr_name s] ent -> ent = E_rule g s.
Proof.
  intros s ent M H. assert (T : ~ is_trivia_rule s) by (apply plain_name_spec, macro_plain, M). destruct M as (J & _).
  destruct (names_one _ _ _ H) as [(r & Jr & Tr & E & ->)|(p & I & _ & _)].
  - rewrite (rule_unique s r J Jr T E). reflexivity.
  - exfalso. exact (not_alias s _ J T I eq_refl).
Qed.

(** The rules of the result. *)
Notation macros := (collect_macros None g).
Definition kept (r r' : parse_rule) : Prop :=
  In r (g_rules g) /\ is_macro r = false /\ In r' (g_rules g') /\ pr_name r = pr_name r' /\ pr_args r = pr_args r' /\
  inline_expr macros fuel (n_expr (pr_node r)) = Ret (n_expr (pr_node r')) /\ pr_silent r = pr_silent r'.
Definition becomes (r r' : parse_rule) : Prop :=
  pr_name r = pr_name r' /\ pr_args r = pr_args r' /\ inline_expr macros fuel (n_expr (pr_node r)) = Ret (n_expr (pr_node r')) /\ pr_silent r = pr_silent r'.
Lemma inline_rules_spec : forall rules rules', inline_rules macros fuel rules = Ret rules' -> Forall2 becomes rules rules'.
Proof.
  induction rules as [|r rules IH]; intros rules' H; cbn [inline_rules] in H; [injection H as <-; constructor|].
  destruct (inline_expr macros fuel (n_expr (pr_node r))) as [e| |] eqn:E; try discriminate. cbn [obind] in H.
  destruct (inline_rules macros fuel rules) as [rest| |] eqn:Er; try discriminate. cbn [obind] in H. injection H as <-.
  constructor; [|apply IH; reflexivity]. split; [reflexivity|]. split; [reflexivity|]. split; [exact E|reflexivity].
Qed.
Lemma result : g_imports g' = g_imports g /\ Forall2 becomes (filter (fun r => negb (is_macro r)) (g_rules g)) (g_rules g').
Proof.
  clear Cg'. unfold inline_macros in Ei. destruct (inline_rules macros fuel (filter (fun r => negb (is_macro r)) (g_rules g))) as [rules| |] eqn:E; try discriminate. cbn [obind] in Ei.
  injection Ei as <-. split; [reflexivity|]. apply inline_rules_spec, E.
Qed.
Lemma forall2_left : forall {A B : Type} (R : A -> B -> Prop) l l', Forall2 R l l' -> forall a, In a l -> exists b, In b l' /\ R a b.
Proof. intros A B R l l' H. induction H as [|a b l l' Hr Hl IH]; intros x J; [contradiction|]. destruct J as [<-|J]; [exists b; split; [left; reflexivity|exact Hr]|]. destruct (IH x J) as (y & K & Q). exists y. split; [right; exact K|exact Q]. Qed.
Lemma forall2_right : forall {A B : Type} (R : A -> B -> Prop) l l', Forall2 R l l' -> forall b, In b l' -> exists a, In a l /\ R a b.
Proof. intros A B R l l' H. induction H as [|a b l l' Hr Hl IH]; intros x J; [contradiction|]. destruct J as [<-|J]; [exists a; split; [left; reflexivity|exact Hr]|]. destruct (IH x J) as (y & K & Q). exists y. split; [right; exact K|exact Q]. Qed.
Lemma becomes_kept : forall r r', In r (filter (fun r => negb (is_macro r)) (g_rules g)) -> In r' (g_rules g') -> becomes r r' -> kept r r'.
Proof. intros r r' J J' (A & B & C & S'). apply filter_In in J. destruct J as (J & K). apply negb_true_iff in K. repeat (split; [assumption|]). assumption. Qed.
Lemma kept_there : forall r, In r (g_rules g) -> is_macro r = false -> exists r', kept r r'.
Proof.
  intros r J K. assert (I : In r (filter (fun r => negb (is_macro r)) (g_rules g))) by (apply filter_In; split; [exact J|rewrite K; reflexivity]).
  destruct (forall2_left _ _ _ (proj2 result) r I) as (r' & J' & B). exists r'. apply becomes_kept; assumption.
Qed.
Lemma kept_back : forall r', In r' (g_rules g') -> exists r, kept r r'.
Proof. intros r' J'. destruct (forall2_right _ _ _ (proj2 result) r' J') as (r & J & B). exists r. apply becomes_kept; assumption. Qed.
Lemma not_there : forall s ent, macro g s -> ~ names unicode g' [pr_name s] ent.
Proof.
  intros s ent M H. assert (T : ~ is_trivia_rule s) by (apply plain_name_spec, macro_plain, M).
  destruct (names_one _ _ _ H) as [(r' & J' & Tr & E & ->)|(p & I & _ & _)].
  - destruct (kept_back r' J') as (r & J & K & _ & En & _). rewrite <- En in E. assert (s = r) by (apply rule_unique; [apply M|exact J|exact T|exact E]). subst r.
    apply is_macro_spec in M. destruct M. congruence.
  - rewrite (proj1 result) in I. exact (not_alias s _ (proj1 M) T I eq_refl).
Qed.

(** Parts of the expressions of the grammar. *)
Definition source (e : parse_expr) : Prop := exists r, In r (g_rules g) /\ part e (n_expr (pr_node r)).
Definition is_argument (e : parse_expr) : Prop := exists path l n, source (PPath path (Some (PCall l))) /\ In n l /\ e = n_expr n.
Lemma source_operand : forall e e1, operand_of e1 e -> source e -> source e1.
Proof. intros e e1 O (r & J & P). exists r. split; [exact J|]. eapply part_trans; [apply part_operand, O|exact P]. Qed.
Lemma argument_source : forall e, is_argument e -> source e.
Proof. intros e (path & l & n & S & J & ->). eapply source_operand; [apply Op_arg, J|exact S]. Qed.
Lemma well_named_part : forall h ps e, well_named unicode h ps e -> (forall x args, In x ps -> part (PPath [x] args) e -> args = None) ->
  forall path args, part (PPath path args) e ->
  (exists x, path = [x] /\ In x ps /\ args = None) \/ ((forall x, path = [x] -> ~ In x ps) /\ exists ent, names unicode h path ent /\ takes ent (usage_in args)).
Proof.
  intros h ps e W Al path args P. revert W Al. remember (PPath path args) as e0 eqn:E0. induction P as [|e1 e P IH O]; intros W Al.
  - subst. inversion W; subst.
    + left. exists x. split; [reflexivity|]. split; [assumption|]. eapply Al; [eassumption|constructor].
    + right. split; [assumption|]. eauto.
    + exfalso. match goal with X : forall path args, PPath _ _ <> _ |- _ => eapply X; reflexivity end.
  - assert (W1 : well_named unicode h ps e1).
    { inversion W as [x ar J|p ar ent Np Nm Tk Ar|e2 Np Al2]; subst.
      - assert (E := Al x ar J (Part_self _)). subst ar. inversion O.
      - inversion O; subst. eapply Ar; [reflexivity|assumption].
      - apply Al2, O. }
    apply IH; [exact W1|]. intros x ar J Q. eapply Al; [exact J|]. eapply Part_in; eassumption.
Qed.
Lemma source_named : forall r path args, In r (g_rules g) -> part (PPath path args) (n_expr (pr_node r)) ->
  (exists x, path = [x] /\ In x (pr_args r) /\ args = None) \/
  ((forall x, path = [x] -> ~ In x (pr_args r)) /\ exists ent, names unicode g path ent /\ takes ent (usage_in args)).
Proof.
  intros r path args J P. apply (well_named_part g (pr_args r) (n_expr (pr_node r))); [|intros x ar K; apply (tidy_alone _ _ Td r x ar J K)|exact P].
  apply (complete_named _ _ Cg), J.
Qed.

(** Separators under repetitions. *)
Definition sep (e : parse_expr) : option trivia := match e with PSeparated _ t => Some t | _ => None end.
Lemma sep_round : forall e t, round_trivia e t <-> t = match sep e with Some t' => t' | None => TriviaNone end.
Proof.
  intros e t. unfold round_trivia. assert (D : (exists n t', e = PSeparated n t') \/ (forall n t', e <> PSeparated n t')).
  { destruct e; try (right; intros; discriminate). left. eauto. }
  destruct D as [(n & t' & ->)|D].
  - cbn [sep]. split; [intros [(n' & E)|(N & _)]; [congruence|exfalso; eapply N; reflexivity]|intros ->; left; eauto].
  - replace (sep e) with (@None trivia) by (destruct e; try reflexivity; exfalso; eapply D; reflexivity).
    split; [intros [(n' & E)|(_ & E)]; [exfalso; eapply D, E|exact E]|intros ->; right; split; [exact D|reflexivity]].
Qed.
Lemma sep_none : forall e, not_separated e -> sep e = None.
Proof. intros e N. destruct e; try reflexivity. exfalso. eapply N. reflexivity. Qed.
Lemma argument_sep : forall e, is_argument e -> sep e = None.
Proof. intros e (path & l & n & (r & J & P) & K & ->). apply sep_none. eapply (tidy_arguments _ _ Td); eassumption. Qed.
Lemma sep_rounds : forall e e', sep e = sep e' -> forall t, round_trivia e t <-> round_trivia e' t.
Proof. intros e e' E t. rewrite !sep_round, E. reflexivity. Qed.

Notation rel := (rel unicode g g').
Notation rel_clo := (rel_clo unicode g g').

(** [img rho' rho e0 e]: [e] is [e0] with the parameters of silent rules replaced as [rho] says; those of
    the rule that [e] is in stay. *)
Section Image.
Variable r : parse_rule.
Variable rho' : list (text * closure).
Hypothesis Hr : In r (g_rules g).
Hypothesis Kr : is_macro r = false.
Hypothesis Keys : forall x c, assoc x rho' c -> In x (pr_args r).
Hypothesis Keys' : forall x, In x (pr_args r) -> exists c, assoc x rho' c.

Inductive img : list (text * closure) -> parse_expr -> parse_expr -> Prop :=
| I_sub rho y rho1 e1 e : assoc y rho (Clo g rho1 e1) -> is_argument e1 -> img rho1 e1 e -> img rho (PPath [y] None) e
| I_core rho e0 e : img_core rho e0 e -> img rho e0 e
with img_core : list (text * closure) -> parse_expr -> parse_expr -> Prop :=
| I_own rho x c c' : assoc x rho c -> assoc x rho' c' -> rel_clo c c' -> img_core rho (PPath [x] None) (PPath [x] None)
| I_path rho path : no_param path rho -> no_param path rho' -> img_core rho (PPath path None) (PPath path None)
| I_slice rho path range : no_param path rho -> no_param path rho' -> img_core rho (PPath path (Some (PSlice range))) (PPath path (Some (PSlice range)))
| I_call rho path l l' : no_param path rho -> no_param path rho' -> img_nodes rho l l' -> img_core rho (PPath path (Some (PCall l))) (PPath path (Some (PCall l')))
| I_str rho s : img_core rho (PStr s) (PStr s)
| I_insens rho s : img_core rho (PInsens s) (PInsens s)
| I_range rho a b : img_core rho (PRange a b) (PRange a b)
| I_pos rho n n' : img rho (n_expr n) (n_expr n') -> img_core rho (PPosPred n) (PPosPred n')
| I_neg rho n n' : img rho (n_expr n) (n_expr n') -> img_core rho (PNegPred n) (PNegPred n')
| I_seq rho n m n' m' t : img rho (n_expr n) (n_expr n') -> img rho (n_expr m) (n_expr m') -> img_core rho (PSeq n m t) (PSeq n' m' t)
| I_choice rho n m n' m' : img rho (n_expr n) (n_expr n') -> img rho (n_expr m) (n_expr m') -> img_core rho (PChoice n m) (PChoice n' m')
| I_opt rho n n' : img rho (n_expr n) (n_expr n') -> img_core rho (POpt n) (POpt n')
| I_rep rho n n' : img rho (n_expr n) (n_expr n') -> img_core rho (PRep n) (PRep n')
| I_once rho n n' : img rho (n_expr n) (n_expr n') -> img_core rho (PRepOnce n) (PRepOnce n')
| I_reprange rho n n' range : img rho (n_expr n) (n_expr n') -> img_core rho (PRepRange n range) (PRepRange n' range)
| I_separated rho n n' t : img rho (n_expr n) (n_expr n') -> img_core rho (PSeparated n t) (PSeparated n' t)
with img_nodes : list (text * closure) -> list parse_node -> list parse_node -> Prop :=
| Is_nil rho : img_nodes rho [] []
| Is_cons rho n l n' l' : img rho (n_expr n) (n_expr n') -> img_nodes rho l l' -> img_nodes rho (n :: l) (n' :: l').
Scheme img_mut := Minimality for img Sort Prop with img_core_mut := Minimality for img_core Sort Prop with img_nodes_mut := Minimality for img_nodes Sort Prop.
Combined Scheme img_mutind from img_mut, img_core_mut, img_nodes_mut.

Lemma img_sep : forall rho e0 e, img rho e0 e -> sep e0 = sep e.
Proof.
  fix Fx 4. intros rho e0 e H. destruct H as [rho y rho1 e1 e A J H|rho e0 e H].
  - cbn [sep]. rewrite <- (Fx _ _ _ H), (argument_sep e1 J). reflexivity.
  - destruct H; reflexivity.
Qed.
Lemma rep_same : forall n n' min max, repetition (PRep n) n min max <-> repetition (PRep n') n' min max.
Proof.
  intros n n' min max. split; intros [(E & A)|[(E & A)|(range & E & A)]]; try discriminate E; left; (split; [reflexivity|exact A]).
Qed.
Lemma once_same : forall n n' min max, repetition (PRepOnce n) n min max <-> repetition (PRepOnce n') n' min max.
Proof.
  intros n n' min max. split; intros [(E & A)|[(E & A)|(range & E & A)]]; try discriminate E; right; left; (split; [reflexivity|exact A]).
Qed.
Lemma range_same : forall n n' range min max, repetition (PRepRange n range) n min max <-> repetition (PRepRange n' range) n' min max.
Proof.
  intros n n' range min max. split; intros [(E & A)|[(E & A)|(ra & E & A)]]; try discriminate E; injection E as <-; right; right; exists range; (split; [reflexivity|exact A]).
Qed.
Lemma range_some : forall n range, exists min max, repetition (PRepRange n range) n min max.
Proof.
  intros n [s e]. exists (match s with Some s => s | None => 0%N end), (match e with Some e => e | None => usize_max end). right. right. exists (mkRange s e). cbn [r_start r_end].
  split; [reflexivity|]. destruct s, e; auto.
Qed.
Lemma rel_repeat : forall rho n e0 n' e', (e0 = PRep n /\ e' = PRep n') \/ (e0 = PRepOnce n /\ e' = PRepOnce n') \/ (exists range, e0 = PRepRange n range /\ e' = PRepRange n' range) ->
  sep (n_expr n) = sep (n_expr n') -> rel g rho (n_expr n) g' rho' (n_expr n') -> rel g rho e0 g' rho' e'.
Proof.
  intros rho n e0 n' e' Sh S R. apply R_core. apply (Q_repeat _ _ _ _ _ _ n _ _ _ n'); [left; split; reflexivity| | |apply sep_rounds, S|exact R].
  - destruct Sh as [(-> & ->)|[(-> & ->)|(range & -> & ->)]]; [apply rep_same|apply once_same|apply range_same].
  - destruct Sh as [(-> & _)|[(-> & _)|(range & -> & _)]]; [| |apply range_some]; do 2 eexists; [left|right; left]; repeat split.
Qed.

(** The name of no silent rule is left. *)
Definition no_macro (e : parse_expr) : Prop := well_named unicode g' (pr_args r) e.
Lemma no_macro_args : forall path l n, In n l -> no_param path rho' -> no_macro (PPath path (Some (PCall l))) -> no_macro (n_expr n).
Proof.
  intros path l n J Np W. inversion W as [x ar K|p ar ent N Nm Tk Ar|e N Al]; subst.
  - exfalso. destruct (Keys' x K) as (c & A). eapply Np; [reflexivity|exact A].
  - eapply Ar; [reflexivity|exact J].
  - exfalso. eapply N. reflexivity.
Qed.
Lemma no_macro_operand : forall e e1, operand_of e1 e -> (forall path args, e <> PPath path args) -> no_macro e -> no_macro e1.
Proof.
  intros e e1 O N W. inversion W as [x ar K|p ar ent Np Nm Tk Ar|e2 Np Al]; subst.
  - exfalso. eapply N. reflexivity.
  - exfalso. eapply N. reflexivity.
  - apply Al, O.
Qed.
Lemma no_macro_path : forall path args, no_macro (PPath path args) -> forall s, macro g s -> path <> [pr_name s].
Proof.
  intros path args W s M ->. inversion W as [x ar K|p ar ent Np Nm Tk Ar|e2 Np Al]; subst.
  - exact (tidy_hidden _ _ Td s r M Hr K).
  - exact (not_there s ent M Nm).
  - eapply Np. reflexivity.
Qed.
Lemma rel_own : forall rho x c c' e1 e2, assoc x rho c -> assoc x rho' c' -> rel_clo c c' -> rel g rho (PPath [x] e1) g' rho' (PPath [x] e2).
Proof. intros rho x [h1 rho1 f1] [h2 rho2 f2] e1 e2 A A' R. eapply R_left; [exact A|]. eapply R_right; [exact A'|exact R]. Qed.
(** An image without calls of silent rules has the meaning of the original. *)
Lemma img_rel :
  (forall rho e0 e, img rho e0 e -> no_macro e -> rel g rho e0 g' rho' e) /\
  (forall rho e0 e, img_core rho e0 e -> no_macro e -> rel g rho e0 g' rho' e) /\
  (forall rho l l', img_nodes rho l l' -> (forall n, In n l' -> no_macro (n_expr n)) -> rel_nodes unicode g g' g rho l g' rho' l').
Proof.
  apply img_mutind; intros;
    try (match goal with N : no_macro ?e, H : img _ _ (n_expr ?n) |- _ => assert (N1 : no_macro (n_expr n)) by (eapply no_macro_operand; [| |exact N]; [constructor|discriminate]) end);
    try (apply R_core; constructor; auto; fail); auto.
  - eapply R_left; [eassumption|auto].
  - eapply rel_own; eassumption.
  - apply R_core. apply Q_path; [left; repeat split; eapply no_macro_path; eassumption|assumption|assumption|constructor].
  - apply R_core. apply Q_path; [left; repeat split; eapply no_macro_path; eassumption|assumption|assumption|constructor].
  - apply R_core. apply Q_path; [left; repeat split; eapply no_macro_path; eassumption|assumption|assumption|constructor].
    apply H2. intros n J. eapply no_macro_args; [exact J| |eassumption]. assumption.
  - apply R_core, Q_seq; [left; split; reflexivity| |]; [apply H0|apply H2]; (eapply no_macro_operand; [| |exact H3]; [constructor|discriminate]).
  - apply R_core, Q_choice; [apply H0|apply H2]; (eapply no_macro_operand; [| |exact H3]; [constructor|discriminate]).
  - eapply rel_repeat; [left; split; reflexivity|eapply img_sep; eassumption|auto].
  - eapply rel_repeat; [right; left; split; reflexivity|eapply img_sep; eassumption|auto].
  - eapply rel_repeat; [right; right; eexists; split; reflexivity|eapply img_sep; eassumption|auto].
  - constructor.
  - constructor; [apply H0, H3; left; reflexivity|apply H2]. intros m J. apply H3. right. exact J.
Qed.

(** No parameter of a silent rule occurs. *)
Definition clean (e : parse_expr) : Prop := forall s x, macro g s -> In x (pr_args s) -> ~ In x (used_names e).
Lemma clean_operand : forall e e1, operand_of e1 e -> clean e -> clean e1.
Proof. intros e e1 O N s x M X J. apply (N s x M X). eapply used_names_operand; eassumption. Qed.
Lemma names_body : forall q x, In q (g_rules g) -> In x (used_names (n_expr (pr_node q))) -> In x (pr_args q) \/ exists ent, names unicode g [x] ent.
Proof.
  intros q x J K. apply used_names_spec in K. destruct K as (args & P). destruct (source_named q [x] args J P) as [(y & E & I & _)|(_ & ent & N & _)].
  - injection E as ->. left. exact I.
  - right. exists ent. exact N.
Qed.
Lemma macro_source : forall s, macro g s -> source (n_expr (pr_node s)).
Proof. intros s (J & _). exists s. split; [exact J|constructor]. Qed.

Lemma pair_there : forall rho xs l0 l, img_nodes rho l0 l -> length l0 = length xs ->
  (forall x a, assoc x (map (fun ax => (snd ax, fst ax)) (combine (map n_expr l) xs)) a ->
     exists n0, In n0 l0 /\ assoc x (combine xs (map (fun n => Clo g rho (n_expr n)) l0)) (Clo g rho (n_expr n0)) /\ img rho (n_expr n0) a) /\
  (forall x c, assoc x (combine xs (map (fun n => Clo g rho (n_expr n)) l0)) c ->
     exists a, assoc x (map (fun ax => (snd ax, fst ax)) (combine (map n_expr l) xs)) a).
Proof.
  intros rho xs. induction xs as [|x xs IH]; intros l0 l H L.
  - destruct l0; [|discriminate]. inversion H; subst. cbn. split; intros ? ? A; inversion A.
  - destruct l0 as [|n0 l0]; [discriminate|]. inversion H as [|? ? ? n' l' Hn Hl]; subst. cbn [length] in L. injection L as L. destruct (IH l0 l' Hl L) as (A & B).
    cbn [map combine snd fst]. split.
    + intros y a K. inversion K; subst.
      * exists n0. split; [left; reflexivity|]. split; [constructor|exact Hn].
      * destruct (A y a) as (m & J & As & Im); [assumption|]. exists m. split; [right; exact J|]. split; [constructor; assumption|exact Im].
    + intros y c K. inversion K; subst; [eexists; constructor|]. destruct (B y c) as (a & As); [assumption|]. exists a. constructor; assumption.
Qed.
Lemma substitutes_img : forall rho sigma rho1,
  (forall x a, assoc x sigma a -> exists e1, is_argument e1 /\ assoc x rho1 (Clo g rho e1) /\ img rho e1 a) ->
  (forall x c, assoc x rho1 c -> exists a, assoc x sigma a) ->
  (forall b b2, substitutes sigma b b2 -> (forall x a, assoc x sigma a -> once x b) -> (forall x c, In x (used_names b) -> ~ assoc x rho' c) -> img rho1 b b2) /\
  (forall l l2, substitutes_nodes sigma l l2 -> (forall x a, assoc x sigma a -> once_args x l) ->
     (forall n x c, In n l -> In x (used_names (n_expr n)) -> ~ assoc x rho' c) -> img_nodes rho1 l l2).
Proof.
  intros rho sigma rho1 A B. apply substitutes_mutind; intros;
    try (apply I_core; constructor; cbn [n_expr]; auto; fail).
  - destruct (A x a H) as (e1 & J & As & Im). eapply I_sub; eassumption.
  - apply I_core, I_path.
    + intros x c -> K. destruct (B x c K) as (a & K'). eapply H; [reflexivity|exact K'].
    + intros x c -> K. eapply H1; [left; reflexivity|exact K].
  - apply I_core, I_slice.
    + intros x c -> K. destruct (B x c K) as (a & K'). specialize (H x a K'). cbn [once] in H. destruct H as (Q & _). discriminate (Q eq_refl).
    + intros x c -> K. eapply H0; [left; reflexivity|exact K].
  - apply I_core, I_call.
    + intros x c -> K. destruct (B x c K) as (a & K'). apply (H1 x a) in K'. apply once_call in K'. destruct K' as (Q & _). apply Q. reflexivity.
    + intros x c -> K. eapply H2; [left; reflexivity|exact K].
    + apply H0.
      * intros x a K. apply (H1 x a) in K. apply once_call in K. apply K.
      * intros n x c J K. apply H2. cbn [used_names]. apply in_or_app. right. apply used_args_in. exists n. split; assumption.
  - cbn [once used_names used_names_node] in *. apply I_core, I_seq; cbn [n_expr]; [apply H0|apply H2].
    + intros x a K. apply (H3 x a K).
    + intros x c J. apply H4, in_or_app. left. exact J.
    + intros x a K. apply (H3 x a K).
    + intros x c J. apply H4, in_or_app. right. exact J.
  - cbn [once used_names used_names_node] in *. apply I_core, I_choice; cbn [n_expr]; [apply H0|apply H2].
    + intros x a K. apply (H3 x a K).
    + intros x c J. apply H4, in_or_app. left. exact J.
    + intros x a K. apply (H3 x a K).
    + intros x c J. apply H4, in_or_app. right. exact J.
  - constructor.
  - constructor; cbn [n_expr]; [apply H0|apply H2].
    + intros x a K. apply (H3 x a K).
    + intros x c J. apply (H4 (mkNode e s)); [left; reflexivity|exact J].
    + intros x a K. apply (H3 x a K).
    + intros n x c J. apply H4. right. exact J.
Qed.
Lemma substitutes_left : forall sigma,
  (forall e e', substitutes sigma e e' -> (forall x a, assoc x sigma a -> once x e) -> forall y, In y (used_names e') ->
     (In y (used_names e) /\ forall a, ~ assoc y sigma a) \/ exists x a, assoc x sigma a /\ In y (used_names a)) /\
  (forall l l', substitutes_nodes sigma l l' -> (forall x a, assoc x sigma a -> once_args x l) -> forall n' y, In n' l' -> In y (used_names (n_expr n')) ->
     (exists n, In n l /\ In y (used_names (n_expr n)) /\ forall a, ~ assoc y sigma a) \/ exists x a, assoc x sigma a /\ In y (used_names a)).
Proof.
  intro sigma. apply substitutes_mutind; intros; try contradiction; auto.
  - right. exists x, a. split; assumption.
  - left. split; [assumption|]. intros a K. destruct path as [|x [|? ?]]; try contradiction. destruct H1 as [<-|[]]. eapply H; [reflexivity|exact K].
  - left. split; [assumption|]. intros a K. destruct path as [|x [|? ?]]; try contradiction. destruct H0 as [<-|[]]. specialize (H _ _ K). cbn [once] in H. destruct H as (Q & _). discriminate (Q eq_refl).
  - cbn [used_names] in H2. apply in_app_or in H2. destruct H2 as [J|J].
    + left. split; [cbn [used_names]; apply in_or_app; left; exact J|]. intros a K. destruct path as [|x [|? ?]]; try contradiction. destruct J as [<-|[]].
      apply (H1 x a) in K. apply once_call in K. destruct K as (Q & _). apply Q. reflexivity.
    + apply used_args_in in J. destruct J as (n & J & K). destruct (H0) with (n' := n) (y := y) as [(m & Hm & Hy & Hz)|R]; [|exact J|exact K| |right; exact R].
      * intros x a Q. apply (H1 x a) in Q. apply once_call in Q. apply Q.
      * left. split; [|exact Hz]. cbn [used_names]. apply in_or_app. right. apply used_args_in. exists m. split; assumption.
  - cbn [once used_names used_names_node] in *. apply in_app_or in H4. destruct H4 as [J|J]; [destruct (H0 (fun x a K => proj1 (H3 x a K)) y J) as [(K & Z)|K]|destruct (H2 (fun x a K => proj2 (H3 x a K)) y J) as [(K & Z)|K]];
      auto; left; (split; [apply in_or_app|exact Z]); auto.
  - cbn [once used_names used_names_node] in *. apply in_app_or in H4. destruct H4 as [J|J]; [destruct (H0 (fun x a K => proj1 (H3 x a K)) y J) as [(K & Z)|K]|destruct (H2 (fun x a K => proj2 (H3 x a K)) y J) as [(K & Z)|K]];
      auto; left; (split; [apply in_or_app|exact Z]); auto.
  - destruct H4 as [<-|J].
    + cbn [n_expr] in *. destruct (H0 (fun x a K => proj1 (H3 x a K)) y H5) as [(K & Z)|K]; [|right; exact K]. left. exists (mkNode e s). split; [left; reflexivity|]. split; assumption.
    + destruct (H2 (fun x a K => proj2 (proj2 (H3 x a K))) n' y J H5) as [(m & Hm & Hy)|R]; [|right; exact R]. left. exists m. split; [right; exact Hm|exact Hy].
Qed.

(** Everything that is not a parameter of a silent rule has an image of the same form. *)
Lemma img_peel : forall rho e0 e, img rho e0 e -> source e0 ->
  exists rho2 e2, img_core rho2 e2 e /\ source e2 /\ forall X, rel g rho2 e2 g' rho' X -> rel g rho e0 g' rho' X.
Proof.
  fix Fx 4. intros rho e0 e H S. destruct H as [rho y rho1 e1 e A J H|rho e0 e H].
  - destruct (Fx _ _ _ H (argument_source _ J)) as (rho2 & e2 & C & S2 & R). exists rho2, e2. split; [exact C|]. split; [exact S2|]. intros X Q. eapply R_left; [exact A|apply R, Q].
  - exists rho, e0. split; [exact H|]. split; [exact S|]. intros; assumption.
Qed.
Lemma img_nodes_length : forall rho l l', img_nodes rho l l' -> length l = length l'.
Proof. intros rho l. induction l as [|n l IH]; intros l' H; inversion H; subst; cbn; [reflexivity|f_equal; apply IH; assumption]. Qed.
Lemma img_nodes_in : forall rho l l', img_nodes rho l l' -> forall n', In n' l' -> exists n, In n l /\ img rho (n_expr n) (n_expr n').
Proof.
  intros rho l. induction l as [|n l IH]; intros l' H n' J; inversion H; subst; [contradiction|]. destruct J as [<-|J]; [exists n; split; [left; reflexivity|assumption]|].
  destruct (IH l'0 ltac:(assumption) n' J) as (m & K & Im). exists m. split; [right; exact K|exact Im].
Qed.
Lemma snd_combine : forall {A B : Type} (l : list A) (l' : list B), length l = length l' -> map snd (combine l l') = l'.
Proof. intros A B l. induction l as [|a l IH]; intros [|b l'] E; try discriminate; [reflexivity|]. cbn. f_equal. apply IH. injection E as E. exact E. Qed.
Lemma swapped_in : forall (l : list (parse_expr * text)) x a, assoc x (map (fun ax => (snd ax, fst ax)) l) a -> In (a, x) l.
Proof. intros l x a H. apply assoc_in, in_map_iff in H. destruct H as ((a', x') & E & J). injection E as -> ->. exact J. Qed.
(** The call of a silent rule becomes its body with the parameters replaced. *)
Lemma macro_substitutes : forall s l, macro g s -> length (pr_args s) = length l -> (forall n, In n l -> clean (n_expr n)) ->
  let sigma := map (fun ax => (snd ax, fst ax)) (combine (map n_expr l) (pr_args s)) in
  let e2 := fst (replace_all (combine (map n_expr l) (pr_args s)) (n_expr (pr_node s))) in
  substitutes sigma (n_expr (pr_node s)) e2 /\ clean e2 /\ forall x a, assoc x sigma a -> once x (n_expr (pr_node s)) /\ exists n, In n l /\ a = n_expr n.
Proof.
  intros s l M L Cla sigma e2.
  destruct (tidy_params _ _ Td s M) as (Nd & Pa).
  assert (Sn : map snd (combine (map n_expr l) (pr_args s)) = pr_args s) by (apply snd_combine; rewrite map_length; symmetry; exact L).
  assert (On : forall x, In x (pr_args s) -> once x (n_expr (pr_node s))) by (intros x J; apply used_once_once, Pa, J).
  assert (S : substitutes sigma (n_expr (pr_node s)) e2).
  { apply replace_all_substitutes; rewrite ?Sn; [exact Nd|exact On|]. intros a x y J K. apply in_combine_l, in_map_iff in J. destruct J as (n & <- & J). apply (Cla n J s y M K). }
  assert (Ks : forall x a, assoc x sigma a -> In x (pr_args s) /\ exists n, In n l /\ a = n_expr n).
  { intros x a A. apply swapped_in in A. split; [eapply in_combine_r, A|]. apply in_combine_l, in_map_iff in A. destruct A as (n & <- & A). exists n. split; [exact A|reflexivity]. }
  split; [exact S|]. split.
  - intros s' x M' X J. destruct (proj1 (substitutes_left sigma) _ _ S (fun x a A => On x (proj1 (Ks x a A))) x J) as [(K & Na)|(y & a & A & K)].
    + destruct (names_body s x (proj1 M) K) as [K'|(ent & Nm)].
      * assert (Ex : exists a, assoc x sigma a).
        { clear - K' L. subst sigma. revert l L. induction (pr_args s) as [|z zs IH]; intros l L; [contradiction|]. destruct l as [|n l]; [discriminate|]. cbn [map combine snd fst].
          destruct (list_eq_dec N.eq_dec x z) as [->|N]; [eexists; constructor|]. destruct K' as [->|K']; [contradiction N; reflexivity|]. cbn in L. injection L as L. destruct (IH K' l L) as (a & A). exists a. constructor; assumption. }
        destruct Ex as (a & A). exact (Na a A).
      * exact (proj1 (proj2 (tidy_params _ _ Td s' M') x X) ent Nm).
    + destruct (Ks y a A) as (_ & n & Jn & ->). exact (Cla n Jn s' x M' X K).
  - intros x a A. destruct (Ks x a A) as (I & Q). split; [apply On, I|exact Q].
Qed.
(** It is an image of the body. *)
Lemma unfold_macro : forall rho s l0 l, macro g s -> source (PPath [pr_name s] (Some (PCall l0))) -> img_nodes rho l0 l -> length (pr_args s) = length l ->
  clean (PPath [pr_name s] (Some (PCall l))) ->
  let e2 := fst (replace_all (combine (map n_expr l) (pr_args s)) (n_expr (pr_node s))) in
  img (combine (pr_args s) (map (fun n => Clo g rho (n_expr n)) l0)) (n_expr (pr_node s)) e2 /\ clean e2.
Proof.
  intros rho s l0 l M So Im L Cl e2.
  assert (Cla : forall n, In n l -> clean (n_expr n)) by (intros n J; eapply clean_operand; [apply Op_arg, J|exact Cl]).
  destruct (macro_substitutes s l M L Cla) as (S & Cl2 & Ks). fold e2 in S, Cl2. split; [|exact Cl2].
  set (sigma := map (fun ax => (snd ax, fst ax)) (combine (map n_expr l) (pr_args s))) in *.
  assert (L0 : length l0 = length (pr_args s)) by (rewrite (img_nodes_length _ _ _ Im); symmetry; exact L).
  destruct (pair_there rho (pr_args s) l0 l Im L0) as (P1 & P2).
  apply (proj1 (substitutes_img rho sigma _
    (fun x a A => match P1 x a A with ex_intro _ n0 (conj J (conj As Ii)) => ex_intro _ (n_expr n0) (conj (ex_intro _ _ (ex_intro _ _ (ex_intro _ n0 (conj So (conj J eq_refl))))) (conj As Ii)) end) P2)); [exact S| |].
  - intros x a A. apply (Ks x a A).
  - intros x c J A. apply Keys in A. apply used_names_spec in J.
    assert (E := tidy_names _ _ Td s r x M Hr A (or_intror J)). subst s. apply is_macro_spec in M. destruct M as (_ & M). congruence.
Qed.

Lemma inline_here_other : forall k e, (forall path l, e <> PPath path (Some (PCall l))) -> inline_here macros (S k) e = Ret e.
Proof. intros k e N. destruct e as [| | |path [[l|range]|]| | | | | | | | |]; try reflexivity. exfalso. eapply N. reflexivity. Qed.
Lemma inline_here_img : forall k rho e0 e e1, inline_here macros k e = Ret e1 -> img rho e0 e -> source e0 -> clean e ->
  (forall s l, macro g s -> e1 <> PPath [pr_name s] (Some (PCall l))) ->
  exists rho2 e2, img_core rho2 e2 e1 /\ source e2 /\ clean e1 /\ sep e1 = sep e /\ forall X, rel g rho2 e2 g' rho' X -> rel g rho e0 g' rho' X.
Proof.
  induction k as [|k IH]; intros rho e0 e e1 H Im So Cl Nc; [discriminate|].
  destruct (img_peel _ _ _ Im So) as (rho2 & e2 & C & S2 & R).
  assert (Done : e1 = e -> exists rho2 e2, img_core rho2 e2 e1 /\ source e2 /\ clean e1 /\ sep e1 = sep e /\ forall X, rel g rho2 e2 g' rho' X -> rel g rho e0 g' rho' X).
  { intros ->. exists rho2, e2. split; [exact C|]. split; [exact S2|]. split; [exact Cl|]. split; [reflexivity|exact R]. }
  assert (D : (exists path l, e = PPath path (Some (PCall l))) \/ forall path l, e <> PPath path (Some (PCall l))).
  { destruct e as [| | |path [[l|range]|]| | | | | | | | |]; try (right; intros; discriminate). left. eauto. }
  destruct D as [(path & l & ->)|D]; [|rewrite inline_here_other in H by exact D; injection H as <-; apply Done; reflexivity].
  cbn [inline_here] in H. destruct path as [|p0 path]; [injection H as <-; apply Done; reflexivity|].
  destruct (find_macro macros (last (p0 :: path) [])) as [s|] eqn:F; [|injection H as <-; apply Done; reflexivity].
  destruct (find_macro_some _ _ _ F) as (Sm & En).
  inversion C; subst.
  match goal with Hn : img_nodes rho2 ?x l |- _ => rename Hn into Imn; rename x into l0 end.
  destruct S2 as (q & Jq & Pq). destruct (tidy_calls _ _ Td q _ l0 s Jq Pq Sm (eq_sym En)) as (s' & M & Ep).
  assert (Es : s' = s) by (rewrite Ep in F; cbn [last] in F; rewrite (find_macro_own s' M) in F; congruence). subst s'. clear F En.
  rewrite Ep in *. assert (S2 : source (PPath [pr_name s] (Some (PCall l0)))) by (exists q; split; assumption).
  destruct (Nat.eqb (length (pr_args s)) (length l)) eqn:L; [|discriminate]. apply Nat.eqb_eq in L.
  destruct (unfold_macro rho2 s l0 l M S2 Imn L Cl) as (Im2 & Cl2).
  destruct (replace_all (combine (map n_expr l) (pr_args s)) (n_expr (pr_node s))) as (e2, b). cbn [fst] in *.
  destruct b; [|injection H as <-; exfalso; eapply Nc; [exact M|reflexivity]].
  destruct (IH _ _ _ _ H Im2 (macro_source s M) Cl2 Nc) as (rho3 & e3 & C3 & S3 & Cl3 & Se & R3).
  exists rho3, e3. split; [exact C3|]. split; [exact S3|]. split; [exact Cl3|]. split.
  - rewrite Se, <- (img_sep _ _ _ Im2), (sep_none _ (tidy_body _ _ Td s M)). reflexivity.
  - intros X Q. apply R, R_macro; [exact M| |assumption|rewrite (img_nodes_length _ _ _ Imn); symmetry; exact L|apply R3, Q].
    destruct (source_named q _ _ Jq Pq) as [(x & _ & _ & Ea)|(_ & ent & Nm & _)]; [discriminate Ea|]. rewrite <- (macro_names s ent M Nm). exact Nm.
Qed.

Lemma inline_img : forall k rho e0 e e', inline_expr macros k e = Ret e' -> img rho e0 e -> source e0 -> clean e -> no_macro e' ->
  rel g rho e0 g' rho' e' /\ sep e' = sep e.
Proof.
  induction k as [|k IH]; intros rho e0 e e' H Im So Cl Nm; [discriminate|]. cbn [inline_expr] in H.
  destruct (inline_here macros (S k) e) as [e1| |] eqn:Ih; try discriminate. cbn [obind] in H.
  assert (Nc : forall s l, macro g s -> e1 <> PPath [pr_name s] (Some (PCall l))).
  { intros s l M ->. injection H as <-. eapply no_macro_path; [exact Nm|exact M|reflexivity]. }
  destruct (inline_here_img _ _ _ _ _ Ih Im So Cl Nc) as (rho2 & e2 & C & S2 & Cl1 & Se & R).
  rewrite <- Se. clear Ih Im So Cl Nc Se.
  assert (One : forall n n0 n', (let! x := inline_expr macros k (n_expr n) in Ret (mkNode x (n_span n))) = Ret n' -> img rho2 (n_expr n0) (n_expr n) ->
    source (n_expr n0) -> clean (n_expr n) -> no_macro (n_expr n') -> rel g rho2 (n_expr n0) g' rho' (n_expr n') /\ sep (n_expr n') = sep (n_expr n)).
  { intros n n0 n' Q Im So Cl Nn. destruct (inline_expr macros k (n_expr n)) as [x| |] eqn:Ei1; try discriminate. cbn [obind] in Q. injection Q as <-. cbn [n_expr] in *.
    eapply IH; eassumption. }
  assert (Leaf : e1 = e' -> rel g rho2 e2 g' rho' e').
  { intros ->. apply (proj1 img_rel); [apply I_core, C|exact Nm]. }
  assert (Unary : forall n n0, img rho2 (n_expr n0) (n_expr n) -> operand_of (n_expr n) e1 -> operand_of (n_expr n0) e2 ->
    forall n', (let! x := inline_expr macros k (n_expr n) in Ret (mkNode x (n_span n))) = Ret n' -> operand_of (n_expr n') e' ->
    (forall path args, e' <> PPath path args) ->
    rel g rho2 (n_expr n0) g' rho' (n_expr n') /\ sep (n_expr n0) = sep (n_expr n')).
  { intros n n0 Im O O0 n' Q O' Np. destruct (One n n0 n' Q Im (source_operand _ _ O0 S2) (clean_operand _ _ O Cl1) (no_macro_operand _ _ O' Np Nm)) as (A & B).
    split; [exact A|]. rewrite B. apply (img_sep _ _ _ Im). }
  destruct C; cbn [obind] in H; try (injection H as <-; split; [apply R, Leaf; reflexivity|reflexivity]);
    try (destruct (let! x := inline_expr macros k (n_expr n') in Ret (mkNode x (n_span n'))) as [y| |] eqn:Q; try discriminate; cbn [obind] in H; injection H as <-;
         destruct (Unary n' n ltac:(assumption) ltac:(constructor) ltac:(constructor) y Q ltac:(constructor) ltac:(discriminate)) as (A & B);
         split; [apply R; try (apply R_core; constructor; exact A)|reflexivity]).
  - destruct (let! x := inline_expr macros k (n_expr m') in Ret (mkNode x (n_span m'))) as [y| |] eqn:Q; try discriminate. cbn [obind] in H.
    destruct (let! x := inline_expr macros k (n_expr n') in Ret (mkNode x (n_span n'))) as [z| |] eqn:Q'; try discriminate. cbn [obind] in H. injection H as <-.
    split; [|reflexivity]. apply R, R_core, Q_seq; [left; split; reflexivity| |].
    + apply (Unary n' n); [assumption|constructor|constructor|exact Q'|constructor|discriminate].
    + apply (Unary m' m); [assumption|constructor|constructor|exact Q|constructor|discriminate].
  - destruct (let! x := inline_expr macros k (n_expr m') in Ret (mkNode x (n_span m'))) as [y| |] eqn:Q; try discriminate. cbn [obind] in H.
    destruct (let! x := inline_expr macros k (n_expr n') in Ret (mkNode x (n_span n'))) as [z| |] eqn:Q'; try discriminate. cbn [obind] in H. injection H as <-.
    split; [|reflexivity]. apply R, R_core, Q_choice.
    + apply (Unary n' n); [assumption|constructor|constructor|exact Q'|constructor|discriminate].
    + apply (Unary m' m); [assumption|constructor|constructor|exact Q|constructor|discriminate].
  - eapply rel_repeat; [left; split; reflexivity|exact B|exact A].
  - eapply rel_repeat; [right; left; split; reflexivity|exact B|exact A].
  - eapply rel_repeat; [right; right; eexists; split; reflexivity|exact B|exact A].
Qed.
End Image.

(** The body of a rule that is kept is its own image. *)
Lemma pair_own : forall xs cs cs', Forall2 rel_clo cs cs' ->
  (forall x c, assoc x (combine xs cs) c -> exists c', assoc x (combine xs cs') c' /\ rel_clo c c') /\
  (forall x c', assoc x (combine xs cs') c' -> exists c, assoc x (combine xs cs) c).
Proof.
  induction xs as [|x xs IH]; intros cs cs' F; [split; intros ? ? A; inversion A|]. inversion F as [|c c' l l' Rc F']; subst; [split; intros ? ? A; inversion A|].
  destruct (IH l l' F') as (A & B). cbn [combine]. split.
  - intros y d K. inversion K; subst; [exists c'; split; [constructor|exact Rc]|]. destruct (A y d) as (d' & K' & Q); [assumption|]. exists d'. split; [constructor; assumption|exact Q].
  - intros y d K. inversion K; subst; [exists c; constructor|]. destruct (B y d) as (d' & K'); [assumption|]. exists d'. constructor; assumption.
Qed.
Lemma assoc_combine_in : forall {A : Type} xs (cs : list A) x c, assoc x (combine xs cs) c -> In x xs.
Proof. intros A xs cs x c H. apply assoc_in, in_combine_l in H. exact H. Qed.
Lemma in_assoc_combine : forall {A : Type} xs (cs : list A) x, length cs = length xs -> In x xs -> exists c, assoc x (combine xs cs) c.
Proof.
  intros A xs. induction xs as [|z xs IH]; intros [|c cs] x L J; try contradiction; try discriminate. cbn [combine]. destruct (list_eq_dec N.eq_dec x z) as [->|N]; [eexists; constructor|].
  destruct J as [->|J]; [contradiction N; reflexivity|]. cbn in L. injection L as L. destruct (IH cs x L J) as (d & K). exists d. constructor; assumption.
Qed.
Lemma own_img : forall ps cs cs', length cs = length ps -> Forall2 rel_clo cs cs' ->
  forall e, (forall x args, In x ps -> part (PPath [x] args) e -> args = None) -> img (combine ps cs') (combine ps cs) e e.
Proof.
  intros ps cs cs' L F. destruct (pair_own ps cs cs' F) as (A & B).
  assert (Op : forall e e1, operand_of e1 e -> (forall x args, In x ps -> part (PPath [x] args) e -> args = None) -> forall x args, In x ps -> part (PPath [x] args) e1 -> args = None).
  { intros e e1 O Al x args J P. eapply Al; [exact J|]. eapply Part_in; eassumption. }
  assert (Np : forall path args, args <> None -> (forall x ar, In x ps -> part (PPath [x] ar) (PPath path args) -> ar = None) -> no_param path (combine ps cs) /\ no_param path (combine ps cs')).
  { intros path args Na Al. split; intros x c -> K; apply assoc_combine_in in K; apply Na; eapply Al; [exact K|constructor|exact K|constructor]. }
  apply (expr_rect (fun e => (forall x args, In x ps -> part (PPath [x] args) e -> args = None) -> img (combine ps cs') (combine ps cs) e e)); intros;
    try (apply I_core; constructor; try (match goal with IH : _ -> img _ _ (n_expr ?n) _ |- img _ _ (n_expr ?n) _ => apply IH; (eapply Op; [|eassumption]); constructor end); fail).
  - destruct path as [|x [|y p]]; try (apply I_core, I_path; intros ? ? E; discriminate E).
    destruct (in_dec_text x ps) as [J|J].
    + destruct (in_assoc_combine ps cs x L J) as (c & K). destruct (A x c K) as (c' & K' & R). apply I_core. eapply I_own; eassumption.
    + apply I_core, I_path; intros y c E K; injection E as <-; apply assoc_combine_in in K; contradiction.
  - apply I_core. destruct (Np path (Some (PSlice range)) ltac:(discriminate) H) as (P & P'). apply I_slice; assumption.
  - apply I_core. destruct (Np path (Some (PCall args)) ltac:(discriminate) H0) as (P & P'). apply I_call; [assumption|assumption|].
    assert (G : forall l, (forall n, In n l -> In n args) -> img_nodes (combine ps cs') (combine ps cs) l l).
    { induction l as [|n l IH]; intro S; constructor; [|apply IH; intros m J; apply S; right; exact J]. apply H; [apply S; left; reflexivity|].
      eapply Op; [|exact H0]. constructor. apply S. left. reflexivity. }
    apply G. auto.
Qed.
Lemma kept_rel : forall r r' cs cs', kept r r' -> length cs = length (pr_args r) -> Forall2 rel_clo cs cs' ->
  rel g (combine (pr_args r) cs) (n_expr (pr_node r)) g' (combine (pr_args r') cs') (n_expr (pr_node r')).
Proof.
  intros r r' cs cs' (J & K & J' & En & Ea & Ee & _) L F. rewrite <- Ea.
  assert (Al : forall x args, In x (pr_args r) -> part (PPath [x] args) (n_expr (pr_node r)) -> args = None) by (intros x args; apply (tidy_alone _ _ Td r x args J)).
  assert (L' : length cs' = length (pr_args r)) by (rewrite <- L; clear - F; induction F; cbn; congruence).
  eapply (inline_img r (combine (pr_args r) cs') J K).
  - intros x c A. eapply assoc_combine_in, A.
  - intros x I. apply in_assoc_combine; assumption.
  - exact Ee.
  - apply own_img; assumption.
  - exists r. split; [exact J|constructor].
  - intros s x M X Q. destruct (names_body r x J Q) as [I|(ent & Nm)].
    + assert (E := tidy_names _ _ Td s r x M J I (or_introl X)). subst s. apply is_macro_spec in M. destruct M. congruence.
    + exact (proj1 (proj2 (tidy_params _ _ Td s M) x X) ent Nm).
  - unfold no_macro. rewrite Ea. apply (complete_named _ _ Cg'), J'.
Qed.
Lemma kept_args : forall r r', kept r r' -> pr_args r = pr_args r'.
Proof. intros r r' (_ & _ & _ & _ & E & _). exact E. Qed.
Lemma kept_trivia : forall t name (r r' : parse_rule), kept r r' -> trivia_name t = Some name -> pr_name r = name -> pr_args r = [].
Proof. intros t name r r' (J & _) T E. apply (tidy_trivia _ _ Td r J). destruct t; try discriminate T; injection T as <-; [left|right]; exact E. Qed.

(** Everything is related to itself. *)
Lemma same_rel : forall h rho rho2 e, Forall2 (fun k k' : text * closure => fst k = fst k' /\ rel_clo (snd k) (snd k')) rho rho2 -> rel h rho e h rho2 e.
Proof.
  intros h rho rho2 e F. revert e.
  assert (A : forall x c, assoc x rho c -> exists c', assoc x rho2 c' /\ rel_clo c c').
  { clear - F. induction F as [|(k, c) (k', c') l l' (E & R) F IH]; intros x d K; [inversion K|]. cbn [fst snd] in *. subst k'.
    inversion K; subst; [exists c'; split; [constructor|exact R]|]. destruct (IH x d) as (d' & K' & Q); [assumption|]. exists d'. split; [constructor; assumption|exact Q]. }
  assert (B : forall x c', assoc x rho2 c' -> exists c, assoc x rho c).
  { clear - F. induction F as [|(k, c) (k', c') l l' (E & R) F IH]; intros x d K; [inversion K|]. cbn [fst snd] in *. subst k'.
    inversion K; subst; [exists c; constructor|]. destruct (IH x d) as (d' & K'); [assumption|]. exists d'. constructor; assumption. }
  assert (P : forall path args args', rel_args unicode g g' h rho args h rho2 args' -> rel h rho (PPath path args) h rho2 (PPath path args')).
  { intros path args args' R. assert (D : (exists x c, path = [x] /\ assoc x rho c) \/ no_param path rho).
    { destruct path as [|x [|y p]]; try (right; intros ? ? E; discriminate E). clear. induction rho as [|(k, c) l IH]; [right; intros ? ? _ K; inversion K|].
      destruct (list_eq_dec N.eq_dec x k) as [->|N]; [left; exists k, c; split; [reflexivity|constructor]|].
      destruct IH as [(y & d & E & K)|Np]; [left; injection E as <-; exists x, d; split; [reflexivity|constructor; assumption]|].
      right. intros y d E K. injection E as <-. inversion K; subst; [contradiction N; reflexivity|]. eapply Np; [reflexivity|eassumption]. }
    destruct D as [(x & [h1 rho1 e1] & -> & K)|Np].
    - destruct (A x _ K) as ([h2 rho3 e2] & K' & Q). eapply R_left; [exact K|]. eapply R_right; [exact K'|exact Q].
    - apply R_core, Q_path; [right; reflexivity|exact Np| |exact R]. intros x c -> K. destruct (B x c K) as (d & K'). eapply Np; [reflexivity|exact K']. }
  assert (Rp : forall n e, (exists min max, repetition e n min max) -> rel h rho (n_expr n) h rho2 (n_expr n) -> rel h rho e h rho2 e).
  { intros n e X R. apply R_core. apply (Q_repeat _ _ _ _ _ _ n _ _ _ n); [right; reflexivity|reflexivity|exact X|reflexivity|exact R]. }
  apply (expr_rect (fun e => rel h rho e h rho2 e)); intros; try (apply R_core; constructor; try assumption; try (right; reflexivity); fail).
  - apply P. constructor.
  - apply P. constructor.
  - apply P. constructor. induction args as [|n l IH]; constructor; [apply H; left; reflexivity|apply IH; intros m J; apply H; right; exact J].
  - eapply Rp; [|eassumption]. do 2 eexists. left. repeat split.
  - eapply Rp; [|eassumption]. do 2 eexists. right. left. repeat split.
  - eapply Rp; [|eassumption]. apply range_some.
Qed.

(** Names. *)
Lemma names_there : forall path ent, names unicode g path ent -> (forall s, macro g s -> path <> [pr_name s]) ->
  names unicode g' path ent \/ exists r r', ent = E_rule g r /\ names unicode g' path (E_rule g' r') /\ kept r r'.
Proof.
  intros path ent H N. inversion H as [p B|p x O Nb]; subst; [left; apply N_builtin, B|]. inversion O as [h r J T|h alias p rest I B|h alias h1 rest x I O1]; subst.
  - right. destruct (is_macro r) eqn:K; [exfalso; apply (N r); [apply is_macro_spec; split; assumption|reflexivity]|].
    destruct (kept_there r J K) as (r' & Kp). exists r, r'. split; [reflexivity|]. split; [|exact Kp]. destruct Kp as (_ & _ & J' & En & _). apply N_own; [|exact Nb].
    rewrite En. apply O_rule; [exact J'|]. unfold is_trivia_rule in *. rewrite <- En. exact T.
  - left. apply N_own; [|exact Nb]. apply O_builtin; [rewrite (proj1 result); exact I|exact B].
  - left. apply N_own; [|exact Nb]. eapply O_file; [rewrite (proj1 result); exact I|exact O1].
Qed.
Lemma names_back : forall path ent, names unicode g' path ent ->
  names unicode g path ent \/ exists r r', ent = E_rule g' r' /\ names unicode g path (E_rule g r) /\ kept r r'.
Proof.
  intros path ent H. inversion H as [p B|p x O Nb]; subst; [left; apply N_builtin, B|]. inversion O as [h r' J T|h alias p rest I B|h alias h1 rest x I O1]; subst.
  - right. destruct (kept_back r' J) as (r & Kp). exists r, r'. split; [reflexivity|]. split; [|exact Kp]. destruct Kp as (J' & _ & _ & En & _). apply N_own; [|exact Nb].
    rewrite <- En. apply O_rule; [exact J'|]. unfold is_trivia_rule in *. rewrite En. exact T.
  - left. apply N_own; [|exact Nb]. apply O_builtin; [rewrite <- (proj1 result); exact I|exact B].
  - left. apply N_own; [|exact Nb]. eapply O_file; [rewrite <- (proj1 result); exact I|exact O1].
Qed.
Lemma trivia_keeps : forall t name r, trivia_name t = Some name -> In r (g_rules g) -> pr_name r = name -> is_macro r = false.
Proof.
  intros t name r T J E. unfold is_macro. rewrite (tidy_trivia _ _ Td r J); [apply andb_false_r|]. destruct t; try discriminate T; injection T as <-; [left|right]; exact E.
Qed.
Lemma trivia_there : forall t name r, trivia_name t = Some name -> last_rule g name r -> exists r', last_rule g' name r' /\ kept r r'.
Proof.
  intros t name r T (a & b & E & En & Nb). assert (J : In r (g_rules g)) by (rewrite E; apply in_or_app; right; left; reflexivity).
  assert (K := trivia_keeps t name r T J En). assert (F := proj2 result). rewrite E, filter_app in F. cbn [filter] in F. rewrite K in F. cbn [negb] in F.
  apply Forall2_app_inv_l in F. destruct F as (a' & l & Fa & F & El). inversion F as [|? r' ? b' Br Fb]; subst. exists r'. split.
  - exists a', b'. split; [exact El|]. split; [symmetry; apply Br|]. intros q Q Eq. destruct (forall2_right _ _ _ Fb q Q) as (p & Jp & (Ep & _)).
    apply filter_In in Jp. apply (Nb p (proj1 Jp)). congruence.
  - apply becomes_kept; [apply filter_In; split; [exact J|rewrite K; reflexivity]| |exact Br]. rewrite El. apply in_or_app. right. left. reflexivity.
Qed.
Lemma last_exists : forall (l : list parse_rule) name r, In r l -> pr_name r = name -> exists a q b, l = a ++ q :: b /\ pr_name q = name /\ forall p, In p b -> pr_name p <> name.
Proof.
  intros l name r J E. induction l as [|x l IH]; [contradiction|].
  destruct (in_dec_text name (map pr_name l)) as [I|N].
  - apply in_map_iff in I. destruct I as (q & Eq & Jq).
    assert (Q : exists a q b, l = a ++ q :: b /\ pr_name q = name /\ forall p, In p b -> pr_name p <> name).
    { clear IH J E. revert q Eq Jq. induction l as [|y l IHl]; intros q Eq Jq; [contradiction|]. destruct (in_dec_text name (map pr_name l)) as [I|N].
      - apply in_map_iff in I. destruct I as (q' & Eq' & Jq'). destruct (IHl q' Eq' Jq') as (a & z & b & -> & Ez & Nz). exists (y :: a), z, b. repeat (split; [reflexivity || assumption|]). assumption.
      - destruct Jq as [->|Jq]; [|exfalso; apply N, in_map_iff; exists q; split; assumption]. exists [], q, l. split; [reflexivity|]. split; [exact Eq|].
        intros p Jp Ep. apply N, in_map_iff. exists p. split; assumption. }
    destruct Q as (a & z & b & -> & Ez & Nz). exists (x :: a), z, b. repeat (split; [reflexivity || assumption|]). assumption.
  - destruct J as [->|J]; [|exfalso; apply N, in_map_iff; exists r; split; assumption]. exists [], r, l. split; [reflexivity|]. split; [exact E|].
    intros p Jp Ep. apply N, in_map_iff. exists p. split; assumption.
Qed.
Lemma trivia_back : forall t name r', trivia_name t = Some name -> last_rule g' name r' -> exists r, last_rule g name r /\ kept r r'.
Proof.
  intros t name r' T L. assert (J' : In r' (g_rules g')) by (destruct L as (a & b & -> & _); apply in_or_app; right; left; reflexivity).
  destruct (kept_back r' J') as (q & Jq & _ & _ & En & _). assert (Eq : pr_name q = name) by (destruct L as (a & b & _ & E & _); congruence).
  destruct (last_exists _ _ _ Jq Eq) as (a & r & b & E & Er & Nb). assert (Lr : last_rule g name r) by (exists a, b; auto).
  destruct (trivia_there t name r T Lr) as (r2 & L2 & Kp). exists r. split; [exact Lr|]. rewrite (last_rule_unique g' name r' r2 L L2). exact Kp.
Qed.

(** The meaning of the rules that are kept. *)
Theorem inlined_same : forall r r', kept r r' -> forall pre post K res,
  pr_args r = [] -> gpeg unicode property g [] (n_expr (pr_node r)) pre post K res <-> gpeg unicode property g' [] (n_expr (pr_node r')) pre post K res.
Proof.
  intros r r' Kp pre post K res Na. apply (rel_same unicode property g g' kept); try assumption;
    [exact kept_rel|exact kept_args|exact kept_trivia|exact same_rel|exact names_there|exact names_back|exact macro_names|exact trivia_there|exact trivia_back|].
  assert (Q := kept_rel r r' [] [] Kp). rewrite <- (kept_args _ _ Kp), Na in Q. apply Q; [reflexivity|constructor].
Qed.
End Inlining.

(** * The order of the grammars *)
Lemma text_ltb_spec : forall a b, text_ltb a b = true <-> text_before a b.
Proof.
  induction a as [|c a IH]; intros [|d b]; cbn [text_ltb].
  - split; [discriminate|]. intros [(c & r & E)|(p & c & d & a' & b' & E & _)]; [discriminate|destruct p; discriminate].
  - split; [intros _; left; exists d, b; reflexivity|reflexivity].
  - split; [discriminate|]. intros [(x & r & E)|(p & x & d & a' & b' & _ & E & _)]; [discriminate|destruct p; discriminate].
  - rewrite orb_true_iff, andb_true_iff, IH, N.ltb_lt, N.eqb_eq. split.
    + intros [L|(-> & [(x & r & ->)|(p & x & y & a' & b' & -> & -> & L)])].
      * right. exists [], c, d, a, b. auto.
      * left. exists x, r. reflexivity.
      * right. exists (d :: p), x, y, a', b'. auto.
    + intros [(x & r & E)|(p & x & y & a' & b' & E1 & E2 & L)].
      * injection E as -> ->. right. split; [reflexivity|]. left. exists x, r. reflexivity.
      * destruct p as [|z p]; injection E1 as -> ->; injection E2 as -> ->; [left; exact L|right; split; [reflexivity|]]. right. exists p, x, y, a', b'. auto.
Qed.
Lemma text_ltb_trans : forall a b c, text_ltb a b = true -> text_ltb b c = true -> text_ltb a c = true.
Proof.
  induction a as [|x a IH]; intros [|y b] [|z c]; cbn [text_ltb]; try discriminate; try reflexivity.
  rewrite !orb_true_iff, !andb_true_iff, !N.ltb_lt, !N.eqb_eq. intros [A|(-> & A)] [B|(-> & B)]; [left; lia|left; lia|left; lia|]. right. split; [reflexivity|]. eapply IH; eassumption.
Qed.
Lemma text_ltb_total : forall a b, text_ltb a b = false -> text_ltb b a = false -> a = b.
Proof.
  induction a as [|x a IH]; intros [|y b]; cbn [text_ltb]; try discriminate; try reflexivity.
  rewrite !orb_false_iff, !andb_false_iff, !N.ltb_ge, !N.eqb_neq. intros (A & B) (C & D). assert (x = y) by lia. subst y. f_equal. apply IH; tauto.
Qed.
Lemma key_ltb_spec : forall a b, key_ltb a b = true <-> key_before a b.
Proof. intros [a|] [b|]; cbn; try apply text_ltb_spec; split; intro H; try reflexivity; try discriminate; try contradiction; exact I. Qed.
Lemma key_ltb_trans : forall a b c, key_ltb a b = true -> key_ltb b c = true -> key_ltb a c = true.
Proof. intros [a|] [b|] [c|]; cbn; try discriminate; try reflexivity. apply text_ltb_trans. Qed.
Lemma key_insert_sorted : forall {A : Type} k (v : A) l, StronglySorted (fun a b => key_ltb (fst a) (fst b) = true) l ->
  StronglySorted (fun a b => key_ltb (fst a) (fst b) = true) (key_insert k v l).
Proof.
  intros A k v l S. induction S as [|(k0, v0) l S IH F]; cbn [key_insert]; [repeat constructor|].
  destruct (key_ltb k k0) eqn:E1; [constructor; [constructor; assumption|]|].
  - constructor; [exact E1|]. rewrite Forall_forall in *. intros kv J. eapply key_ltb_trans; [exact E1|apply F, J].
  - destruct (key_ltb k0 k) eqn:E2.
    + constructor; [exact IH|]. apply Forall_forall. intros (k1, v1) J. apply key_insert_in in J. destruct J as [J|J]; [injection J as -> ->; exact E2|].
      rewrite Forall_forall in F. apply F, J.
    + constructor; [exact S|]. assert (k = k0) as ->; [|exact F]. destruct k as [k|], k0 as [k0|]; try discriminate; try reflexivity. f_equal. apply text_ltb_total; assumption.
Qed.
Lemma extend_sorted : forall {A : Type} (new l : list (option text * A)), StronglySorted (fun a b => key_ltb (fst a) (fst b) = true) l ->
  StronglySorted (fun a b => key_ltb (fst a) (fst b) = true) (fold_left (fun res kv => key_insert (fst kv) (snd kv) res) new l).
Proof. intros A new. induction new as [|(k, v) new IH]; intros l S; [exact S|]. cbn [fold_left fst snd]. apply IH, key_insert_sorted, S. Qed.
Lemma collect_sorted : forall g key, StronglySorted (fun a b => key_before (fst a) (fst b)) (collect_macros key g).
Proof.
  intros g key. assert (S : StronglySorted (fun a b => key_ltb (fst a) (fst b) = true) (collect_macros key g)).
  { destruct g as [deps rules doc imports]. cbn [collect_macros].
    assert (H : StronglySorted (fun a b => key_ltb (fst a) (fst b) = true) [(key, macro_map rules)]) by (repeat constructor).
    revert H. generalize [(key, macro_map rules)]. induction imports as [|[a p|a g'] l IH]; intros res H; [exact H|apply IH, H|]. apply IH, extend_sorted, H. }
  induction S as [|a l S IH F]; constructor; [exact IH|]. rewrite Forall_forall in *. intros b J. apply key_ltb_spec, F, J.
Qed.
Lemma key_insert_there : forall {A : Type} k (v : A) l, In (k, v) (key_insert k v l).
Proof.
  intros A k v l. induction l as [|(k0, v0) l IH]; cbn [key_insert]; [left; reflexivity|].
  destruct (key_ltb k k0); [left; reflexivity|]. destruct (key_ltb k0 k); [right; exact IH|left; reflexivity].
Qed.
Lemma key_insert_keeps : forall {A : Type} k (v : A) l k' v', In (k', v') l -> k' <> k -> In (k', v') (key_insert k v l).
Proof.
  intros A k v l k' v'. induction l as [|(k0, v0) l IH]; intros J N; [destruct J|]. cbn [key_insert].
  destruct (key_ltb k k0) eqn:E1; [right; exact J|]. destruct (key_ltb k0 k) eqn:E2; [destruct J as [J|J]; [left; exact J|right; apply IH; assumption]|].
  destruct J as [J|J]; [|right; exact J]. injection J as -> ->. exfalso. apply N. destruct k as [k|], k' as [k'|]; try discriminate; try reflexivity. f_equal. apply text_ltb_total; assumption.
Qed.
(** Files that import nothing. *)
Lemma collect_flat : forall g key, (forall alias h, In (File alias h) (g_imports g) -> g_imports h = []) -> NoDup (map import_alias (g_imports g)) -> key = None ->
  forall k m, In (k, m) (collect_macros key g) <->
    (k = None /\ m = macro_map (g_rules g)) \/ exists alias h, In (File alias h) (g_imports g) /\ k = Some alias /\ m = macro_map (g_rules h).
Proof.
  intros [deps rules doc imports] key Fl Nd -> k m. cbn [collect_macros g_imports g_rules] in *.
  assert (H : forall l res, NoDup (map import_alias l) -> (forall alias h, In (File alias h) l -> g_imports h = []) ->
    (forall i, In i l -> forall m, ~ In (Some (import_alias i), m) res) ->
    (In (k, m) ((fix go (l : list import) (res : list (option text * list (text * parse_rule))) :=
         match l with
         | [] => res
         | Builtin _ _ :: r => go r res
         | File alias g' :: r => go r (fold_left (fun res kv => key_insert (fst kv) (snd kv) res) (collect_macros (Some alias) g') res)
         end) l res) <->
     In (k, m) res \/ exists alias h, In (File alias h) l /\ k = Some alias /\ m = macro_map (g_rules h))).
  { clear. induction l as [|i l IH]; intros res Nd Fl Nr; [split; [intro J; left; exact J|intros [J|(a & h & [] & _)]; exact J]|].
    inversion Nd as [|? ? Ni Nd']; subst. destruct i as [a p|a h].
    - rewrite (IH res Nd' (fun a h J => Fl a h (or_intror J)) (fun i J => Nr i (or_intror J))). split; (intros [J|(b & h & J & E)]; [left; exact J|right; exists b, h]); [split; [right; exact J|exact E]|].
      destruct J as [J|J]; [discriminate|]. split; [exact J|exact E].
    - assert (Ec : collect_macros (Some a) h = [(Some a, macro_map (g_rules h))]).
      { assert (E := Fl a h (or_introl eq_refl)). destruct h as [d rs dc is]. cbn [g_imports] in E. subst is. reflexivity. }
      rewrite Ec. cbn [fold_left fst snd]. rewrite IH; [|exact Nd'|intros b h' J; apply (Fl b h'); right; exact J|].
      + split.
        * intros [J|(b & h' & J & E)]; [|right; exists b, h'; split; [right; exact J|exact E]]. apply key_insert_in in J. destruct J as [J|J]; [|left; exact J].
          injection J as -> ->. right. exists a, h. split; [left; reflexivity|split; reflexivity].
        * intros [J|(b & h' & [J|J] & E1 & E2)].
          -- left. apply key_insert_keeps; [exact J|]. intros ->. exact (Nr (File a h) (or_introl eq_refl) m J).
          -- injection J as -> ->. subst k m. left. apply key_insert_there.
          -- right. exists b, h'. split; [exact J|split; assumption].
      + intros i J m' K. apply key_insert_in in K. destruct K as [K|K]; [|exact (Nr i (or_intror J) m' K)].
        injection K as K _. apply Ni. cbn [import_alias]. rewrite <- K. apply in_map, J. }
  rewrite H; [|exact Nd|exact Fl|].
  - split; (intros [J|J]; [left|right; exact J]); [destruct J as [J|[]]; injection J as <- <-; split; reflexivity|destruct J as (-> & ->); left; reflexivity].
  - intros i _ m' [J|[]]. discriminate.
Qed.
Lemma macro_map_none : forall h name, (forall s, macro h s -> pr_name s <> name) <-> lookup name (macro_map (g_rules h)) = None.
Proof.
  intros h name. split.
  - intro N. destruct (lookup name (macro_map (g_rules h))) as [s|] eqn:E; [|reflexivity]. exfalso. apply macro_map_from in E. destruct E as [E|(J & E)]; [discriminate|].
    apply (N s); [|exact E]. apply is_macro_spec. apply filter_In in J. exact J.
  - intros E s M En. apply is_macro_spec in M. rewrite <- filter_In in M. subst name. unfold macro_map in E.
    assert (Q : forall rules l, lookup (pr_name s) (fold_left (fun l r => insert (pr_name r) r l) rules l) = None -> In s rules \/ lookup (pr_name s) l <> None -> False).
    { clear. induction rules as [|r rules IH]; intros l H D; cbn [fold_left] in H; [destruct D as [[]|D]; contradiction|]. apply (IH _ H). destruct D as [[->|J]|D].
      - right. rewrite lookup_insert_same. discriminate.
      - left. exact J.
      - right. destruct (list_eq_dec N.eq_dec (pr_name r) (pr_name s)) as [Q|Q]; [rewrite <- Q, lookup_insert_same; discriminate|rewrite lookup_insert_other; congruence]. }
    eapply Q; [exact E|]. left. exact M.
Qed.
Lemma find_first : forall macros name s, StronglySorted (fun a b => key_before (fst a) (fst b)) macros -> find_macro macros name = Some s ->
  exists k m, In (k, m) macros /\ lookup name m = Some s /\ forall k' m', In (k', m') macros -> key_before k' k -> lookup name m' = None.
Proof.
  intros macros name s S. induction S as [|(k, m) l S IH F]; intro H; [discriminate|]. cbn [find_macro] in H.
  assert (Ir : forall a b, key_before a b -> key_before b a -> False).
  { intros a b A B. apply key_ltb_spec in A, B. assert (C := key_ltb_trans _ _ _ A B). clear - C. destruct a as [a|]; [|discriminate]. cbn in C. induction a as [|c a IH]; [discriminate|].
    cbn [text_ltb] in C. rewrite N.ltb_irrefl, N.eqb_refl in C. apply IH, C. }
  destruct (lookup name m) as [s'|] eqn:E.
  - injection H as ->. exists k, m. split; [left; reflexivity|]. split; [exact E|]. intros k' m' [J|J] B.
    + injection J as -> ->. destruct (Ir _ _ B B).
    + rewrite Forall_forall in F. specialize (F _ J). destruct (Ir _ _ F B).
  - destruct (IH H) as (k1 & m1 & J & L & B). exists k1, m1. split; [right; exact J|]. split; [exact L|]. intros k' m' [K|K] Q; [injection K as -> ->; exact E|eapply B; eassumption].
Qed.
