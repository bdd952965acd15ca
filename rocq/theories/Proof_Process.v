(** What a run of the generator has done: the trackers grow, and the module system and the output hold
    what the grammar says. *)
From Coq Require Import String List NArith ZArith Arith Bool Lia.
From Verif Require Import Model_Text Model_Message Model_Meta Model_Import Model_Generator Model_Output
  Spec_Peg Spec_Grammar_Peg Spec_Occur Spec_Generator Proof_Text Proof_Emit Proof_Box.
Import ListNotations.
Open Scope list_scope.

Definition good_tracker (t : gtracker) : Prop :=
  tracker_ok t /\ forall n, In n (gt_seqs t) \/ In n (gt_choices t) -> 2 <= n.
Definition grows (t t' : gtracker) : Prop := good_tracker t -> good_tracker t' /\ extends t t'.
Lemma grows_refl : forall t, grows t t.
Proof. intros t G. split; [exact G|apply extends_refl]. Qed.
Lemma grows_trans : forall a b c, grows a b -> grows b c -> grows a c.
Proof. intros a b c H H' G. destruct (H G) as (G1 & E1). destruct (H' G1) as (G2 & E2). split; [exact G2|eapply extends_trans; eassumption]. Qed.
Lemma grows_string : forall s t p t', insert_string_wrapper s t = (p, t') -> grows t t'.
Proof.
  intros s t p t' H (O & A). destruct (insert_string_spec _ _ _ _ O H) as (O' & E & _). split; [|exact E]. split; [exact O'|].
  unfold insert_string_wrapper in H. destruct (lookup s (gt_counter t)); injection H as _ <-; exact A.
Qed.
Lemma grows_seq : forall n t, 2 <= n -> grows t (record_seq n t).
Proof.
  intros n t L (O & A). split; [|apply record_seq_extends]. split; [apply record_seq_ok, O|]. cbn. intros m [I|I]; [|apply A; right; exact I].
  apply arity_insert_only in I. destruct I as [->|I]; [exact L|apply A; left; exact I].
Qed.
Lemma grows_choice : forall n t, 2 <= n -> grows t (record_choice n t).
Proof.
  intros n t L (O & A). split; [|apply record_choice_extends]. split; [apply record_choice_ok, O|]. cbn. intros m [I|I]; [apply A; left; exact I|].
  apply arity_insert_only in I. destruct I as [->|I]; [exact L|apply A; right; exact I].
Qed.
Lemma good_new : good_tracker gt_new.
Proof. split; [apply tracker_ok_new|]. intros n [[]|[]]. Qed.

Lemma sequence_rest_length : forall e t, 1 <= length (sequence_rest t e).
Proof. intros e t. destruct e; cbn; try lia. destruct lhs, rhs. cbn. lia. Qed.
Lemma choices_rest_length : forall e, 1 <= length (choices_rest e).
Proof. intros e. destruct e; cbn; try lia. destruct lhs, rhs. cbn. lia. Qed.

Section Process.
Variable params : list text.
Variable sys : mod_system.
Variable root : list text.
Notation pe := (process_expr params sys root).

Lemma process_list_spec : forall process l tr is tr', process_list process l tr = Ret (is, tr') ->
  (forall e tr i tr', In e l -> process e tr = Ret (i, tr') -> grows tr tr') -> grows tr tr' /\ length is = length l.
Proof.
  intros process. induction l as [|e l IH]; intros tr is tr' H G; cbn [process_list] in H.
  - injection H as <- <-. split; [apply grows_refl|reflexivity].
  - destruct (process e tr) as [(i, t1)| |] eqn:E1; try discriminate. cbn [obind] in H.
    destruct (process_list process l t1) as [(is1, t2)| |] eqn:E2; try discriminate. cbn [obind] in H. injection H as <- <-.
    destruct (IH _ _ _ E2) as (G2 & L). { intros; eapply G; [right|]; eassumption. }
    split; [|cbn; rewrite L; reflexivity]. eapply grows_trans; [eapply G; [left; reflexivity|exact E1]|exact G2].
Qed.

Lemma process_expr_grows : forall fuel e tr i tr', pe fuel e tr = Ret (i, tr') -> grows tr tr'.
Proof.
  induction fuel as [|fuel IH]; intros e tr i tr' H; [discriminate|].
  assert (IHl : forall l tr is tr', process_list (pe fuel) l tr = Ret (is, tr') -> grows tr tr' /\ length is = length l).
  { intros. eapply process_list_spec; [eassumption|]. intros; eapply IH; eassumption. }
  destruct e; cbn [process_expr] in H;
    try (destruct (pe fuel (n_expr n) tr) as [(j, t1)| |] eqn:E; try discriminate; cbn [obind] in H; injection H as <- <-; eapply IH; eassumption).
  - destruct (insert_string_wrapper s tr) as (w, t1) eqn:E. injection H as <- <-. eapply grows_string; eassumption.
  - destruct (insert_string_wrapper s tr) as (w, t1) eqn:E. injection H as <- <-. eapply grows_string; eassumption.
  - injection H as <- <-. apply grows_refl.
  - destruct (match path with [x] => if text_in x params then Some x else None | _ => None end); [injection H as <- <-; apply grows_refl|].
    match type of H with obind ?o _ = _ => destruct o as [(a, t1)| |] eqn:E; try discriminate end. cbn [obind] in H.
    destruct (sys_resolve _ _ _); try discriminate. injection H as <- <-.
    destruct args as [[l|range]|]; try (injection E as _ <-; apply grows_refl).
    destruct (process_list (pe fuel) (map n_expr l) tr) as [(is, t2)| |] eqn:E2; try discriminate. cbn [obind] in E. injection E as _ <-.
    apply IHl in E2. apply E2.
  - destruct (process_list (pe fuel) _ tr) as [(is, t1)| |] eqn:E; try discriminate. cbn [obind] in H. injection H as <- <-.
    destruct (IHl _ _ _ _ E) as (G & L). eapply grows_trans; [exact G|]. apply grows_seq. rewrite L, map_length.
    unfold collect_sequence. cbn [length]. pose proof (sequence_rest_length (n_expr rhs) t). lia.
  - destruct (process_list (pe fuel) _ tr) as [(is, t1)| |] eqn:E; try discriminate. cbn [obind] in H. injection H as <- <-.
    destruct (IHl _ _ _ _ E) as (G & L). eapply grows_trans; [exact G|]. apply grows_choice. rewrite L.
    unfold collect_choices. cbn [length]. pose proof (choices_rest_length (n_expr rhs)). lia.
Qed.
End Process.

(** Induction over grammars and the grammars they import. *)
Definition on_file (P : gmodule -> Prop) (i : import) : Prop := match i with Builtin _ _ => True | File _ m => P m end.
Fixpoint gmodule_rect' (P : gmodule -> Prop)
  (H : forall g, (forall alias g', In (File alias g') (g_imports g) -> P g') -> P g) (g : gmodule) : P g :=
  H g (match g return forall alias g', In (File alias g') (g_imports g) -> P g' with
       | mkModule d r doc imports => fun alias g' J =>
           proj1 (Forall_forall (on_file P) imports)
             ((fix go (l : list import) : Forall (on_file P) l :=
                 match l with
                 | [] => Forall_nil _
                 | i :: rest =>
                     Forall_cons (P := on_file P) i
                       (match i as j return on_file P j with
                        | Builtin _ _ => I
                        | File _ m => gmodule_rect' P H m
                        end) (go rest)
                 end) imports) (File alias g') J
       end).

Definition root_of (depth : nat) : list text := Nat.iter depth (fun r => lit "super" :: lit "super" :: r) [lit "super"].

(** The loop over the imports. *)
Fixpoint imports_loop (process : gmodule -> gtracker -> outcome (output * list (text * mnode) * gtracker))
  (l : list import) (sys : mod_system) (tr : gtracker) : outcome (list (text * output) * mod_system * gtracker) :=
  match l with
  | [] => Ret ([], sys, tr)
  | Builtin name path :: rest =>
      let! sys := sys_alias sys path name in
      imports_loop process rest sys tr
  | File name g' :: rest =>
      let! (o, imported, tr) := process g' tr in
      let! (modules, sys, tr) := imports_loop process rest (sys_insert sys name (M_collection imported)) tr in
      Ret ((name, o) :: modules, sys, tr)
  end.
Lemma process_rules_eq : forall config fuel global root depth g tr,
  process_rules config fuel global root depth g tr =
  let! (modules, sys, tr) :=
    imports_loop (process_rules config fuel global ([lit "super"; lit "super"] ++ root) (S depth)) (g_imports g) (mkSys [] global) tr in
  let! reach := collect_reachability (g_rules g) in
  let! sys := insert_rules (g_rules g) sys in
  let! (o, tr) := process_all config fuel sys reach root depth (g_rules g) tr (mkOutput [] None None modules (rule_enum g)) in
  Ret (o, ms_root sys, tr).
Proof.
  intros. destruct g as [d rules doc imports]. cbn [process_rules g_imports g_rules].
  match goal with |- obind ?a _ = obind ?b _ => assert (E : a = b); [|rewrite E; reflexivity] end.
  generalize (mkSys [] global). revert tr. induction imports as [|[name path|name g'] imports IH]; intros tr sys; [reflexivity| |].
  - cbn [imports_loop]. destruct (sys_alias sys path name) as [s| |]; [apply IH|reflexivity|reflexivity].
  - cbn [imports_loop]. destruct (process_rules _ _ _ _ _ g' tr) as [((o, im), t)| |]; cbn [obind]; [|reflexivity|reflexivity].
    rewrite IH. reflexivity.
Qed.

Definition plain_rules (rules : list parse_rule) : list parse_rule := filter (fun r => negb (is_trivia_name (pr_name r))) rules.
Lemma is_trivia_spec : forall r, is_trivia_name (pr_name r) = true <-> is_trivia_rule r.
Proof. intro r. unfold is_trivia_name, is_trivia_rule. rewrite orb_true_iff, !text_eqb_eq. reflexivity. Qed.
Lemma plain_in : forall r rules, In r (plain_rules rules) <-> In r rules /\ ~ is_trivia_rule r.
Proof.
  intros r rules. unfold plain_rules. rewrite filter_In, negb_true_iff, <- is_trivia_spec.
  destruct (is_trivia_name (pr_name r)); intuition congruence.
Qed.

Section Made.
Variable config : gconfig.
Variable fuel : nat.
Variable unicode : list text.
Notation global := (make_global unicode).
(** The tracker at the end. *)
Variable T : gtracker.

(** The type made for the body of a rule. *)
Definition body_made (coll : list (text * mnode)) (depth : nat) (r : parse_rule) (i : intermediate) : Prop :=
  exists tr tr', process_expr (pr_args r) (mkSys coll global) (root_of depth) fuel (n_expr (pr_node r)) tr = Ret (i, tr') /\
    good_tracker tr /\ extends tr' T.
Definition trivia_made (coll : list (text * mnode)) (depth : nat) (g : gmodule) (t : trivia) (made : option ty) : Prop :=
  forall name r, trivia_name t = Some name -> last_rule g name r -> exists i, body_made coll depth r i /\ made = Some (i_type i).

Inductive Made : nat -> gmodule -> output -> list (text * mnode) -> Prop :=
| Made_intro depth g o coll reach :
    collect_reachability (g_rules g) = Ret reach ->
    (forall alias g', In (File alias g') (g_imports g) ->
       exists o' coll', In (alias, o') (o_modules o) /\ lookup alias coll = Some (M_collection coll') /\ Made (S depth) g' o' coll') ->
    (forall alias o', In (alias, o') (o_modules o) -> exists g', In (File alias g') (g_imports g)) ->
    (forall alias p, In (Builtin alias p) (g_imports g) ->
       exists n, m_resolve_node global p = inl n /\ lookup alias coll = Some n) ->
    (forall r, In r (g_rules g) -> ~ is_trivia_rule r -> lookup (pr_name r) coll = Some (M_generics (RG_rule (length (pr_args r))))) ->
    (forall k, lookup k coll <> None -> In k (map import_alias (g_imports g) ++ map pr_name (plain_rules (g_rules g)))) ->
    NoDup (map import_alias (g_imports g) ++ map pr_name (plain_rules (g_rules g))) ->
    NoDup (map fst (o_modules o)) ->
    Forall2 (fun r s => exists i, body_made coll depth r i /\ s = create_rule config reach depth r i) (plain_rules (g_rules g)) (o_content o) ->
    trivia_made coll depth g TriviaOptional (o_optional o) ->
    trivia_made coll depth g TriviaMandatory (o_mandatory o) ->
    o_variants o = rule_enum g /\
    ((forall r, In r (g_rules g) -> pr_name r <> lit "~") -> o_optional o = None) /\
    ((forall r, In r (g_rules g) -> pr_name r <> lit "^") -> o_mandatory o = None) ->
    Made depth g o coll.

(** The rules in the module system. *)
Lemma insert_rules_spec : forall rules sys sys', insert_rules rules sys = Ret sys' ->
  ms_pest sys' = ms_pest sys /\
  (forall k, ~ In k (map pr_name (plain_rules rules)) -> lookup k (ms_root sys') = lookup k (ms_root sys)) /\
  (forall r, In r (plain_rules rules) -> lookup (pr_name r) (ms_root sys') = Some (M_generics (RG_rule (length (pr_args r))))) /\
  (forall k, In k (map pr_name (plain_rules rules)) -> lookup k (ms_root sys) = None) /\
  NoDup (map pr_name (plain_rules rules)).
Proof.
  induction rules as [|r rules IH]; intros sys sys' H; cbn [insert_rules] in H.
  - injection H as <-. repeat split; try constructor; intros; contradiction.
  - unfold plain_rules. cbn [filter]. destruct (is_trivia_name (pr_name r)) eqn:E; cbn [negb]; [apply IH, H|].
    fold (plain_rules rules). unfold sys_insert_rule, m_insert in H.
    destruct (lookup (pr_name r) (ms_root sys)) eqn:L; [discriminate|]. cbn [obind] in H.
    destruct (IH _ _ H) as (P & O & I & N & D). cbn [ms_root ms_pest] in *.
    assert (Nr : ~ In (pr_name r) (map pr_name (plain_rules rules))).
    { intro J. apply N in J. rewrite lookup_insert_same in J. discriminate. }
    split; [exact P|]. split; [|split; [|split]].
    + intros k Nk. rewrite O by (intro J; apply Nk; right; exact J). apply lookup_insert_other. intros ->. apply Nk. left. reflexivity.
    + intros r' [<-|J]; [rewrite O by exact Nr; apply lookup_insert_same|apply I, J].
    + intros k [<-|J]; [exact L|]. destruct (teqb k (pr_name r)) as [->|Nk]; [exact L|].
      rewrite <- (N k J). symmetry. apply lookup_insert_other, Nk.
    + constructor; assumption.
Qed.

(** The imports in the module system. *)
Lemma imports_pest : forall process l s t m s' t', imports_loop process l s t = Ret (m, s', t') -> ms_pest s' = ms_pest s.
Proof.
  intros process. induction l as [|[name path|name g'] l IH]; intros s t m s' t' H; cbn [imports_loop] in H.
  - injection H as <- <- <-. reflexivity.
  - unfold sys_alias in H. destruct (sys_resolve_node s path); [|discriminate]. unfold m_insert in H.
    destruct (lookup name (ms_root s)); [discriminate|]. cbn [obind] in H. apply IH in H. exact H.
  - destruct (process g' t) as [((o, im), t1)| |]; try discriminate. cbn [obind] in H.
    destruct (imports_loop process l _ t1) as [((ms, s2), t2)| |] eqn:E; try discriminate. cbn [obind] in H. injection H as <- <- <-.
    apply IH in E. exact E.
Qed.

Lemma imports_spec : forall process l sys tr modules sys' tr',
  imports_loop process l sys tr = Ret (modules, sys', tr') ->
  (forall alias g' tr o coll tr', In (File alias g') l -> process g' tr = Ret (o, coll, tr') -> grows tr tr') ->
  (forall alias p, In (Builtin alias p) l -> exists n, forall sys, ms_pest sys = ms_pest sys' -> sys_resolve_node sys p = inl n) ->
  NoDup (map import_alias l) -> good_tracker tr -> (forall k, In k (map import_alias l) -> lookup k (ms_root sys) = None) ->
  ms_pest sys' = ms_pest sys /\ good_tracker tr' /\ extends tr tr' /\
  (forall k, ~ In k (map import_alias l) -> lookup k (ms_root sys') = lookup k (ms_root sys)) /\
  (forall alias g', In (File alias g') l -> exists o coll t t',
     In (alias, o) modules /\ lookup alias (ms_root sys') = Some (M_collection coll) /\ process g' t = Ret (o, coll, t') /\
     good_tracker t /\ extends t' tr') /\
  (forall alias o, In (alias, o) modules -> exists g', In (File alias g') l) /\
  (forall alias p, In (Builtin alias p) l -> exists n, lookup alias (ms_root sys') = Some n /\
     forall sys, ms_pest sys = ms_pest sys' -> sys_resolve_node sys p = inl n) /\
  NoDup (map fst modules).
Proof.
  intros process. induction l as [|[name path|name g'] l IH]; intros sys tr modules sys' tr' H G B D Tr A; cbn [imports_loop] in H.
  - injection H as <- <- <-. split; [reflexivity|]. split; [exact Tr|]. split; [apply extends_refl|]. split; [reflexivity|].
    repeat split; try constructor; intros; contradiction.
  - cbn [map import_alias] in D. inversion_clear D as [|? ? Nn D'].
    unfold sys_alias in H. destruct (sys_resolve_node sys path) as [n|] eqn:R; [|discriminate].
    unfold m_insert in H. rewrite (A name) in H by (left; reflexivity). cbn [obind] in H.
    destruct (IH _ _ _ _ _ H) as (P & Tr' & E & O & F & F' & Bu & Nd).
    + intros; eapply G; [right|]; eassumption.
    + intros a p I. apply (B a p). right. exact I.
    + exact D'.
    + exact Tr.
    + intros k I. cbn [ms_root]. rewrite lookup_insert_other by (intros ->; contradiction). apply A. right. exact I.
    + cbn [ms_root ms_pest] in *. split; [exact P|]. split; [exact Tr'|]. split; [exact E|]. split; [|split; [|split; [|split; [|exact Nd]]]].
      * intros k N. rewrite O by (intro J; apply N; right; exact J). apply lookup_insert_other. intros ->. apply N. left. reflexivity.
      * intros a g1 [X|I]; [discriminate|apply F, I].
      * intros a o I. destruct (F' a o I) as (g1 & J). exists g1. right. exact J.
      * intros a p [X|I]; [|apply Bu, I]. injection X as <- <-. exists n. split; [rewrite O by exact Nn; apply lookup_insert_same|].
        intros s Es. destruct (B name path) as (n' & Bn); [left; reflexivity|]. rewrite (Bn s Es).
        rewrite (Bn sys) in R by (symmetry; exact P). exact R.
  - cbn [map import_alias] in D. inversion_clear D as [|? ? Nn D'].
    destruct (process g' tr) as [((o, im), t1)| |] eqn:E1; try discriminate. cbn [obind] in H.
    destruct (imports_loop process l _ t1) as [((ms, s2), t2)| |] eqn:E2; try discriminate. cbn [obind] in H. injection H as <- <- <-.
    assert (G1 : grows tr t1) by (eapply G; [left; reflexivity|exact E1]). destruct (G1 Tr) as (Tr1 & Ext1).
    destruct (IH _ _ _ _ _ E2) as (P & Tr' & E & O & F & F' & Bu & Nd).
    + intros; eapply G; [right|]; eassumption.
    + intros a p I. apply (B a p). right. exact I.
    + exact D'.
    + exact Tr1.
    + intros k I. cbn [sys_insert m_insert ms_root fst]. rewrite lookup_insert_other by (intros ->; contradiction). apply A. right. exact I.
    + cbn [sys_insert m_insert ms_root ms_pest fst] in *. split; [exact P|]. split; [exact Tr'|]. split; [eapply extends_trans; eassumption|].
      split; [|split; [|split; [|split]]].
      * intros k N. rewrite O by (intro J; apply N; right; exact J). apply lookup_insert_other. intros ->. apply N. left. reflexivity.
      * intros a g1 [X|I].
        -- injection X as <- <-. exists o, im, tr, t1. split; [left; reflexivity|]. split; [rewrite O by exact Nn; apply lookup_insert_same|].
           split; [exact E1|]. split; [exact Tr|exact E].
        -- destruct (F a g1 I) as (o1 & c1 & t & t' & I1 & R). exists o1, c1, t, t'. split; [right; exact I1|exact R].
      * intros a o1 [X|I]; [injection X as <- <-; exists g'; left; reflexivity|].
        destruct (F' a o1 I) as (g1 & J). exists g1. right. exact J.
      * intros a p [X|I]; [discriminate|apply Bu, I].
      * cbn [map fst]. constructor; [|exact Nd]. intro I. apply in_map_iff in I. destruct I as ((a, o1) & X & I). cbn in X. subst a.
        destruct (F' name o1 I) as (g1 & J). apply Nn. apply (in_map import_alias) in J. exact J.
Qed.

(** The loop over the rules. *)
Lemma last_rule_cons : forall d doc im r rules name r',
  last_rule (mkModule d (r :: rules) doc im) name r' ->
  last_rule (mkModule d rules doc im) name r' \/ (r' = r /\ pr_name r = name /\ forall r1, In r1 rules -> pr_name r1 <> name).
Proof.
  intros d doc im r rules name r' (a & b & E & N & L). cbn in E. destruct a as [|x a]; cbn in E; injection E as -> ->.
  - right. split; [reflexivity|split; [exact N|exact L]].
  - left. exists a, b. split; [reflexivity|split; assumption].
Qed.

Lemma process_all_spec : forall coll reach depth rules tr o o' tr',
  process_all config fuel (mkSys coll global) reach (root_of depth) depth rules tr o = Ret (o', tr') -> good_tracker tr ->
  good_tracker tr' /\ extends tr tr' /\ o_modules o' = o_modules o /\ o_variants o' = o_variants o /\
  (extends tr' T ->
    (exists new, o_content o' = o_content o ++ new /\
       Forall2 (fun r s => exists i, body_made coll depth r i /\ s = create_rule config reach depth r i) (plain_rules rules) new) /\
    (forall d doc im, trivia_made coll depth (mkModule d rules doc im) TriviaOptional (o_optional o')) /\
    (forall d doc im, trivia_made coll depth (mkModule d rules doc im) TriviaMandatory (o_mandatory o'))) /\
  ((forall r, In r rules -> pr_name r <> lit "~") -> o_optional o' = o_optional o) /\
  ((forall r, In r rules -> pr_name r <> lit "^") -> o_mandatory o' = o_mandatory o).
Proof.
  intros coll reach depth. induction rules as [|r rules IH]; intros tr o o' tr' H G; cbn [process_all] in H.
  - injection H as <- <-. split; [exact G|]. split; [apply extends_refl|]. split; [reflexivity|]. split; [reflexivity|]. split; [|split; reflexivity].
    intros _. split; [exists []; rewrite app_nil_r; split; [reflexivity|constructor]|].
    split; intros d doc im name r _ (a & b & E & _); cbn in E; destruct a; discriminate.
  - unfold process_rule in H.
    destruct (process_expr (pr_args r) (mkSys coll global) (root_of depth) fuel (n_expr (pr_node r)) tr) as [(i, t1)| |] eqn:E; try discriminate.
    cbn [obind] in H. destruct o as [c a b m v].
    destruct (process_expr_grows _ _ _ _ _ _ _ _ E G) as (G1 & X1).
    set (o1 := if text_eqb (pr_name r) (lit "~") then mkOutput c (Some (i_type i)) b m v
               else if text_eqb (pr_name r) (lit "^") then mkOutput c a (Some (i_type i)) m v
               else mkOutput (c ++ [create_rule config reach depth r i]) a b m v) in *.
    destruct (IH _ _ _ _ H G1) as (G2 & X2 & Mo & Va & S & Op & Ma).
    split; [exact G2|]. split; [eapply extends_trans; eassumption|].
    assert (M1 : o_modules o1 = m /\ o_variants o1 = v) by (unfold o1; destruct (text_eqb (pr_name r) (lit "~")), (text_eqb (pr_name r) (lit "^")); split; reflexivity).
    split; [rewrite Mo; apply M1|]. split; [rewrite Va; apply M1|].
    split; [|split].
    + intros XT. destruct (S XT) as ((new & Cn & Fn) & So & Sm).
      assert (Mk : body_made coll depth r i) by (exists tr, t1; split; [exact E|split; [exact G|eapply extends_trans; eassumption]]).
      split; [|split].
      * unfold plain_rules. cbn [filter]. unfold is_trivia_name. destruct (text_eqb (pr_name r) (lit "~")) eqn:T1; cbn [orb negb].
        -- exists new. split; [rewrite Cn; reflexivity|exact Fn].
        -- destruct (text_eqb (pr_name r) (lit "^")) eqn:T2; cbn [orb negb].
           ++ exists new. split; [rewrite Cn; reflexivity|exact Fn].
           ++ exists (create_rule config reach depth r i :: new). split.
              ** rewrite Cn. unfold o1. cbn [o_content]. rewrite <- app_assoc. reflexivity.
              ** constructor; [exists i; split; [exact Mk|reflexivity]|exact Fn].
      * intros d doc im name r' Tn La. apply last_rule_cons in La. destruct La as [La|(-> & Nr & N)]; [eapply So; eassumption|].
        injection Tn as <-. exists i. split; [exact Mk|]. rewrite Op by exact N. unfold o1. rewrite Nr. reflexivity.
      * intros d doc im name r' Tn La. apply last_rule_cons in La. destruct La as [La|(-> & Nr & N)]; [eapply Sm; eassumption|].
        injection Tn as <-. exists i. split; [exact Mk|]. rewrite Ma by exact N. unfold o1. rewrite Nr. reflexivity.
    + intro N. rewrite Op by (intros r1 I; apply N; right; exact I). unfold o1.
      rewrite (teqb_ne (pr_name r) (lit "~")) by (apply N; left; reflexivity). destruct (text_eqb (pr_name r) (lit "^")); reflexivity.
    + intro N. rewrite Ma by (intros r1 I; apply N; right; exact I). unfold o1.
      rewrite (teqb_ne (pr_name r) (lit "^")) by (apply N; left; reflexivity). destruct (text_eqb (pr_name r) (lit "~")); reflexivity.
Qed.
End Made.

(** The global node. *)
Definition pest_node (unicode : list text) : mnode :=
  match make_global unicode with M_collection ((_, n) :: _) => n | n => n end.
Lemma global_pest : forall unicode k rest,
  m_resolve_node (make_global unicode) (k :: rest) =
  if text_eqb k (lit "pest") then m_descend (pest_node unicode) rest else inr NodeNotFound.
Proof. intros. cbn [m_resolve_node make_global m_child lookup]. destruct (text_eqb k (lit "pest")); reflexivity. Qed.

Lemma nodup_app_intro : forall {A : Type} (a b : list A), NoDup a -> NoDup b -> (forall x, In x b -> ~ In x a) -> NoDup (a ++ b).
Proof.
  induction a as [|x a IH]; intros b Da Db H; [exact Db|]. inversion_clear Da. cbn. constructor.
  - intro I. apply in_app_or in I. destruct I as [I|I]; [contradiction|]. apply (H x I). left. reflexivity.
  - apply IH; [assumption|exact Db|]. intros y I J. apply (H y I). right. exact J.
Qed.

(** Built-in paths of a fine grammar resolve in the global node. *)
Definition builtin_resolves (unicode : list text) : Prop :=
  forall q, builtin unicode q \/ builtin_group q -> exists n, m_descend (pest_node unicode) q = inl n.

Section Run.
Variable config : gconfig.
Variable fuel : nat.
Variable unicode : list text.
Hypothesis Res : builtin_resolves unicode.

Lemma process_rules_spec : forall g depth tr o coll tr',
  process_rules config fuel (make_global unicode) (root_of depth) depth g tr = Ret (o, coll, tr') -> fine unicode g -> good_tracker tr ->
  good_tracker tr' /\ extends tr tr' /\ (forall T, extends tr' T -> Made config fuel unicode T depth g o coll).
Proof.
  intro g. induction g as [g IH] using gmodule_rect'. intros depth tr o coll tr' H F G.
  rewrite process_rules_eq in H.
  destruct (imports_loop _ (g_imports g) (mkSys [] (make_global unicode)) tr) as [((modules, sys1), t1)| |] eqn:E1; try discriminate. cbn [obind] in H.
  destruct (collect_reachability (g_rules g)) as [reach| |] eqn:E2; try discriminate. cbn [obind] in H.
  destruct (insert_rules (g_rules g) sys1) as [sys2| |] eqn:E3; try discriminate. cbn [obind] in H.
  destruct (process_all _ _ _ _ _ _ _ _ _) as [(o1, t2)| |] eqn:E4; try discriminate. cbn [obind] in H. injection H as <- <- <-.
  inversion F as [g0 Nd _ Bu _ _ _ _ _ Fi]. subst g0.
  change ([lit "super"; lit "super"] ++ root_of depth) with (root_of (S depth)) in E1.
  destruct (imports_spec _ _ _ _ _ _ _ E1) as (P1 & G1 & X1 & O1 & Fl & Fl' & Bl & Nm).
  { intros alias g' t o c t' I Hp Gt. eapply IH in Hp; [|exact I|eapply Fi; exact I|exact Gt]. split; apply Hp. }
  { intros alias p I. destruct (Bu alias p I) as (q & -> & Q).
    destruct (Res q) as (n & Rn); [destruct Q as [Q|(Q & _)]; [right; exact Q|left; exact Q]|].
    exists n. intros sys Es. unfold sys_resolve_node. rewrite Es.
    assert (Ps : ms_pest sys1 = make_global unicode).
    { apply imports_pest in E1. exact E1. }
    rewrite Ps, global_pest, teqb_refl, Rn. reflexivity. }
  { exact Nd. }
  { exact G. }
  { reflexivity. }
  cbn [ms_root ms_pest] in *.
  destruct (insert_rules_spec _ _ _ E3) as (P2 & O2 & I2 & N2 & D2).
  assert (Es : sys2 = mkSys (ms_root sys2) (make_global unicode)) by (destruct sys2 as [rt ps]; cbn in *; congruence).
  rewrite Es in E4.
  destruct (process_all_spec config fuel unicode t2 _ _ _ _ _ _ _ _ E4 G1) as (G2 & X2 & _).
  split; [exact G2|]. split; [eapply extends_trans; eassumption|]. intros T XT.
  destruct (process_all_spec config fuel unicode T _ _ _ _ _ _ _ _ E4 G1) as (_ & _ & Mo & Va & S & No & Nm').
  destruct (S XT) as ((new & Cn & Fn) & So & Sm). cbn [o_modules o_variants o_content app] in *.
  assert (Sep : forall k, In k (map pr_name (plain_rules (g_rules g))) -> ~ In k (map import_alias (g_imports g))).
  { intros k I J. apply N2 in I. apply in_map_iff in J. destruct J as ([a p|a g'] & Ek & J); cbn in Ek; subst a.
    - destruct (Bl _ _ J) as (n & L & _). congruence.
    - destruct (Fl _ _ J) as (o' & c' & t & t' & _ & L & _). congruence. }
  apply (Made_intro config fuel unicode T depth g o1 (ms_root sys2) reach).
  - exact E2.
  - intros alias g' I. destruct (Fl alias g' I) as (o' & c' & t & t' & Im & L & Hp & Gt & Xt).
    exists o', c'. rewrite Mo. split; [exact Im|].
    assert (Ia : In alias (map import_alias (g_imports g))) by (apply (in_map import_alias) in I; exact I).
    split; [rewrite O2; [exact L|intro J; exact (Sep _ J Ia)]|].
    destruct (IH alias g' I _ _ _ _ _ Hp (Fi _ _ I) Gt) as (_ & _ & Mk). apply Mk.
    eapply extends_trans; [exact Xt|]. eapply extends_trans; eassumption.
  - intros alias o' I. rewrite Mo in I. apply Fl' in I. exact I.
  - intros alias p I. destruct (Bl alias p I) as (n & L & Rn). exists n.
    assert (Ia : In alias (map import_alias (g_imports g))) by (apply (in_map import_alias) in I; exact I).
    split; [|rewrite O2; [exact L|intro J; exact (Sep _ J Ia)]].
    specialize (Rn (mkSys [] (make_global unicode)) (eq_sym P1)). unfold sys_resolve_node in Rn. cbn [ms_pest ms_root] in Rn.
    destruct (m_resolve_node (make_global unicode) p) as [m|]; [exact Rn|]. destruct p; discriminate.
  - intros r I N. apply I2. apply plain_in. split; assumption.
  - intros k L. apply in_or_app. destruct (in_dec (list_eq_dec N.eq_dec) k (map pr_name (plain_rules (g_rules g)))) as [J|J]; [right; exact J|left].
    rewrite O2 in L by exact J. destruct (in_dec (list_eq_dec N.eq_dec) k (map import_alias (g_imports g))) as [J'|J']; [exact J'|].
    rewrite O1 in L by exact J'. cbn in L. congruence.
  - apply nodup_app_intro; [exact Nd|exact D2|exact Sep].
  - rewrite Mo. exact Nm.
  - rewrite Cn. exact Fn.
  - destruct g as [d rules doc im]. apply So.
  - destruct g as [d rules doc im]. apply Sm.
  - split; [rewrite Va; reflexivity|]. split; [exact No|exact Nm'].
Qed.
End Run.
