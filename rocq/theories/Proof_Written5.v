(** Proofs about loading grammar files: what is written is what is loaded. *)
From Coq Require Import String List NArith ZArith Arith Bool Lia.
From Verif Require Import Model_Text Model_Message Model_Meta Model_Import Model_Pest2 Spec_Unescape Spec_Message Spec_Grammar Spec_Import
  Spec_Pest2 Spec_Written Proof_Pest2 Proof_Syntax Proof_Regular Proof_Unescape Proof_Import Proof_Reading Proof_Load Proof_First Proof_Tokens Proof_Written4.
Import ListNotations.
Open Scope list_scope.

Scheme w_loads_min := Minimality for w_loads Sort Prop
with w_parts_min := Minimality for w_parts Sort Prop.
Combined Scheme loads_min from w_loads_min, w_parts_min.

Definition is_expression (p : ppair) : bool := match pp_rule p with R_expression => true | _ => false end.
Lemma filter_none : forall l, Forall (fun p => pp_rule p <> R_expression) l -> filter is_expression l = [].
Proof.
  intros l H. induction H as [|p l N H IH]; [reflexivity|]. cbn [filter]. unfold is_expression at 1. destruct (pp_rule p); try exact IH. contradiction.
Qed.
Lemma rule_expression : forall p ds name ns silent e, rule_syntax p ds name ns silent e -> filter is_expression (pp_inner p) = [e].
Proof.
  intros p ds name ns silent e [s a b docs ds' name' args ns' asg body silent' e' D N A G _ B]. cbn [pp_inner].
  rewrite filter_app, filter_none.
  2:{ clear - D. induction D as [|p d docs ds (R & _) D IH]; constructor; [rewrite R; discriminate|exact IH]. }
  cbn [app filter]. unfold is_expression at 1. replace (match pp_rule name' with R_expression => true | _ => false end) with false by (destruct N as [<-|[<-|[<-|[]]]]; reflexivity).
  rewrite filter_app, filter_none by (destruct A; [constructor|constructor; [discriminate|constructor]]). cbn [app filter]. unfold is_expression at 1. rewrite G.
  induction B as [x R|o x c R1 R R2|m k x R _ IH]; cbn [filter]; unfold is_expression at 1; rewrite ?R, ?R1; [reflexivity| |apply IH].
  unfold is_expression at 1. rewrite R. unfold is_expression at 1. rewrite R2. reflexivity.
Qed.
Lemma read_rule_syn : forall p ds name l silent e, rule_syntax p ds name l silent e -> any_item p -> tame p -> syn_expression e /\ tame e.
Proof.
  intros p ds name l silent e R A T. split.
  - pose proof (rule_expression _ _ _ _ _ _ R) as E. destruct A as [p ds' name' ns' silent' e' R' S|p U|p d D|p D].
    + rewrite (rule_expression _ _ _ _ _ _ R') in E. injection E as <-. exact S.
    + apply rule_syntax_rule in R. destruct U. discriminate.
    + apply rule_syntax_rule in R. destruct D as (D & _). rewrite D in R. discriminate.
    + apply rule_syntax_rule in R. rewrite D in R. discriminate.
  - destruct R as [s a b docs ds name args ns asg body silent e D N A' G I B]. eapply tame_in; [exact T|]. cbn [pp_inner].
    apply in_or_app. right. right. apply in_or_app. right. right. eapply body_in, B.
Qed.

(** * Texts have one reading. *)
Lemma segments_one : forall l ns, segments l ns -> forall ns', segments l ns' -> ns = ns'.
Proof.
  intros l ns H. induction H as [p R|p q l ns R1 R2 H IH]; intros ns' H'; inversion H'; subst; [reflexivity|f_equal; apply IH; assumption].
Qed.
Lemma documented_one : forall s r r', documented s r -> documented s r' -> r = r'.
Proof.
  intros s r r' D D'. apply documented_quoted, (unescape_iff) in D. apply documented_quoted, (unescape_iff) in D'. rewrite D in D'. injection D' as <-. reflexivity.
Qed.
Lemma file_one : forall l f, opt_file l f -> forall f', opt_file l f' -> f = f'.
Proof.
  intros l f H f' H'. destruct H as [|s a b l I]; inversion H'; subst; [reflexivity|].
  match goal with X : _ ++ [_] = _ ++ [_] |- _ => apply app_inv_tail in X; subst end. reflexivity.
Qed.
Lemma alias_one : forall l f, opt_alias l f -> forall f', opt_alias l f' -> f = f'.
Proof. intros l f H f' H'. destruct H; inversion H'; subst; reflexivity. Qed.
Lemma file_alias : forall fs als f a, opt_file fs f -> opt_alias als a -> filter (fun p => match pp_rule p with R_string => true | _ => false end) (fs ++ als) = fs /\
  filter (fun p => match pp_rule p with R_string => false | _ => true end) (fs ++ als) = als.
Proof. intros fs als f a [|s i j l I] [|p R]; cbn [app filter pp_rule]; rewrite ?R; split; reflexivity. Qed.
Lemma read_one : forall p i i', item_read p i -> item_read p i' -> any_item p -> tame p -> i = i'.
Proof.
  intros p i i' H H' A T. destruct H as [p ds name l silent t e R D|p names f file alias a b R M]; destruct H' as [p ds' name' l' silent' t' e' R' D'|p names' f' file' alias' a' b' R' M'].
  - destruct (read_rule_syn _ _ _ _ _ _ R A T) as (S1 & T1). destruct (read_rule_syn _ _ _ _ _ _ R' A T) as (S2 & T2).
    destruct (D []) as (n & Dn & <-). destruct (D' []) as (n' & Dn' & <-).
    pose proof (rule_value [] _ _ _ _ _ _ _ R S1 T1 Dn) as V. rewrite (rule_value [] _ _ _ _ _ _ _ R' S2 T2 Dn') in V. injection V as -> -> -> -> ->. reflexivity.
  - apply rule_syntax_rule in R. apply import_syntax_rule in R'. congruence.
  - apply rule_syntax_rule in R'. apply import_syntax_rule in R. congruence.
  - destruct R as [s a b sp ap bp l names fs f als alias Sg _ F L]. inversion R' as [? ? ? ? ? ? ? ? fs' ? als' ? Sg' _ F' L']; subst.
    pose proof (segments_one _ _ Sg _ Sg') as <-. destruct (file_alias _ _ _ _ F L) as (E1 & E2). destruct (file_alias _ _ _ _ F' L') as (E1' & E2').
    match goal with X : fs' ++ als' = fs ++ als |- _ => rewrite X in E1', E2' end. rewrite E1 in E1'. rewrite E2 in E2'. subst fs' als'.
    pose proof (file_one _ _ F _ F') as <-. pose proof (alias_one _ _ L _ L') as <-. f_equal.
    destruct f as [((u & c) & d)|], file as [r|], file' as [r'|]; try contradiction; [|reflexivity]. f_equal. eapply documented_one; eassumption.
Qed.
Lemma docs_one : forall m dps docs docs', Forall2 (doc_pair R_grammar_doc m) dps docs -> Forall2 (doc_pair R_grammar_doc m) dps docs' -> docs = docs'.
Proof.
  intros m dps docs docs' D. revert docs'. induction D as [|p d dps docs (_ & s & E & H) D IH]; intros docs' D'; inversion D' as [|? d' ? ds' X Y]; subst; [reflexivity|].
  f_equal; [|apply IH; assumption]. destruct X as (_ & s' & E' & H'). rewrite E in E'. apply app_inv_head in E' as <-. apply trim_spec in H, H'. congruence.
Qed.
Lemma items_one : forall ips items items', Forall2 item_read ips items -> Forall2 item_read ips items' -> calm ips -> Forall any_item ips -> items = items'.
Proof.
  intros ips items items' H. revert items'. induction H as [|p i ips items R H IH]; intros items' H' C A; inversion H' as [|? i' ? it' R' X]; subst; [reflexivity|].
  inversion C; inversion A; subst. f_equal; [eapply read_one; eassumption|apply IH; assumption].
Qed.
Definition is_doc (p : ppair) : bool := match pp_rule p with R_grammar_doc => true | _ => false end.
Definition is_item (p : ppair) : bool := match pp_rule p with R_grammar_rule | R_import => true | _ => false end.
Lemma filter_all : forall (f : ppair -> bool) l, Forall (fun p => f p = true) l -> filter f l = l.
Proof. intros f l H. induction H as [|p l E H IH]; [reflexivity|]. cbn [filter]. rewrite E, IH. reflexivity. Qed.
Lemma filter_no : forall (f : ppair -> bool) l, Forall (fun p => f p = false) l -> filter f l = [].
Proof. intros f l H. induction H as [|p l E H IH]; [reflexivity|]. cbn [filter]. rewrite E, IH. reflexivity. Qed.
Lemma pairs_split : forall dps docs ips items s a b l, Forall2 (doc_pair R_grammar_doc (lit "//!")) dps docs -> Forall2 item_read ips items ->
  filter is_doc (dps ++ ips ++ [mkPPair R_eoi s a b l]) = dps /\ filter is_item (dps ++ ips ++ [mkPPair R_eoi s a b l]) = ips.
Proof.
  intros dps docs ips items s a b l D I. assert (Forall (fun p => pp_rule p = R_grammar_doc) dps) as D' by (clear I; induction D as [|p d dps docs (R & _) D IH]; constructor; assumption).
  assert (Forall (fun p => pp_rule p = R_grammar_rule \/ pp_rule p = R_import) ips) as I'.
  { clear D D'. induction I as [|p i ips items R I IH]; constructor; [|exact IH]. destruct R as [? ? ? ? ? ? ? R _|? ? ? ? ? ? ? R _]; [left; eapply rule_syntax_rule, R|right; eapply import_syntax_rule, R]. }
  rewrite !filter_app. split.
  - rewrite (filter_all _ dps), (filter_no _ ips); [apply app_nil_r| |]; (eapply Forall_impl; [|eassumption]); intros p R; unfold is_doc; [destruct R as [-> | ->]; reflexivity|rewrite R; reflexivity].
  - rewrite (filter_no _ dps), (filter_all _ ips); [apply app_nil_r| |]; (eapply Forall_impl; [|eassumption]); intros p R; unfold is_item; [destruct R as [-> | ->]; reflexivity|rewrite R; reflexivity].
Qed.
Lemma file_unique : forall input docs items docs' items', w_file input docs items -> w_file input docs' items' -> docs = docs' /\ items = items'.
Proof.
  intros input docs items docs' items' W W'.
  destruct (file_read input docs items W) as (s1 & dps & ips & s & a & b & l & A & D & I & C1 & C2). destruct (file_read input docs' items' W') as (s2 & dps' & ips' & s' & a' & b' & l' & A' & D' & I' & _ & _).
  pose proof (parse_reads (fun _ => 0%N) input _ _ A) as E. pose proof (ans_same _ _ _ _ _ A A') as X. injection X as _ X.
  destruct (pairs_split _ _ _ _ s a b l D I) as (P1 & P2). destruct (pairs_split _ _ _ _ s' a' b' l' D' I') as (P1' & P2'). rewrite X, P1' in P1. rewrite X, P2' in P2. subst dps' ips'.
  split; [eapply docs_one; eassumption|]. eapply items_one; [exact I|exact I'|exact C2|].
  apply text_items in E as (s3 & E). apply file_items in E. apply Forall_app in E as (_ & E). apply Forall_app in E as (E & _). exact E.
Qed.

Section Files.
Variable report : text -> N.
Variable read_file : path -> text + text.
Variable path_text : path -> text.
Variable debug_path : path -> text.
Notation file_means := (file_means (parse_text report) read_file path_text debug_path).
Notation items_mean := (items_mean (parse_text report) read_file path_text debug_path).
Notation item_means := (item_means (parse_text report) read_file path_text debug_path).

Definition file_goal (root : path) (input : text) (t : wtree) : Prop := exists m, file_means root input (Loaded m) /\ forget m = t.
Definition parts_goal (root : path) (items : list w_item) (rules : list w_entry) (imports : list wimport) : Prop :=
  forall ips s a b l, Forall2 item_read ips items -> calm ips -> Forall any_item ips ->
    exists m, items_mean root (ips ++ [mkPPair R_eoi s a b l]) (Loaded m) /\ forget m = WTree rules [] imports.
Lemma forget_import : forall i m rules docs imports, forget m = WTree rules docs imports ->
  forget (add_item (I_import i) m) = WTree rules docs ((match i with M_builtin a n => WI_builtin a n | M_file a t => WI_file a (forget t) end) :: imports).
Proof. intros i [r d im] rules docs imports E. cbn [forget] in E. injection E as <- <- <-. reflexivity. Qed.
Lemma forget_docs : forall root dps docs, Forall2 (doc_pair R_grammar_doc (lit "//!")) dps docs -> forall ps m rules imports,
  items_mean root ps (Loaded m) -> forget m = WTree rules [] imports -> exists m', items_mean root (dps ++ ps) (Loaded m') /\ forget m' = WTree rules docs imports.
Proof.
  intros root dps docs D ps m rules imports M F. induction D as [|p d dps docs D _ (m' & M' & F')]; [exists m; auto|].
  exists (add_item (I_doc d) m'). split; [cbn [app]; apply ITM_more; [apply IT_doc, D|exact M']|].
  destruct m' as [r' d' i']. cbn [forget] in F'. injection F' as <- <- <-. reflexivity.
Qed.
Lemma written_loads : (forall root input t, w_loads read_file root input t -> file_goal root input t) /\
  (forall root items rules imports, w_parts read_file root items rules imports -> parts_goal root items rules imports).
Proof.
  apply loads_min.
  - intros root input docs items rules imports W _ IH. destruct (file_read input docs items W) as (s' & dps & ips & s & a & b & l & A & D & I & C1 & C2).
    pose proof (parse_reads report input s' _ A) as E.
    assert (Forall any_item ips) as An.
    { pose proof E as E'. apply text_items in E' as (s1 & E'). apply file_items in E'. apply Forall_app in E' as (_ & E'). apply Forall_app in E' as (E' & _). exact E'. }
    destruct (IH ips s a b l I C2 An) as (m & M & F). destruct (forget_docs root dps docs D _ m rules imports M F) as (m' & M' & F'). exists m'.
    split; [eapply FM_items; [exact E|exact M']|exact F'].
  - intros root ips s a b l I _ _. inversion I; subst. exists (MTree [] [] []). split; [|reflexivity]. apply (ITM_more _ _ _ _ root _ I_nothing [] (MTree [] [] [])); [apply IT_eoi; reflexivity|constructor].
  - intros root ds n k silent t items rules imports _ IH ips s a b l I C A. inversion I as [|p ? ips' ? R I']; subst. inversion C as [|? ? C0 C']; subst. inversion A as [|? ? A0 A']; subst.
    destruct (IH ips' s a b l I' C' A') as (m & M & F). inversion R as [? ? ? ? ? ? e R0 De|]; subst. destruct (De (path_text root)) as (x & Dx & Tx). destruct (read_rule_syn _ _ _ _ _ _ R0 A0 C0) as (Sx & Te).
    eexists. split; [cbn [app]; eapply ITM_more; [eapply IT_rule; eassumption|exact M]|]. destruct m as [r' d' i']. cbn [forget] in F. injection F as <- Ed <-. subst d'.
    cbn [add_item forget map]. f_equal. f_equal. unfold forget_rule. cbn [pr_doc pr_name pr_args pr_silent pr_node]. rewrite Tx. reflexivity.
  - intros root names file alias x items rules imports P X _ IH ips s a b l I C A. inversion I as [|p ? ips' ? R I']; subst. inversion C as [|? ? C0 C']; subst. inversion A as [|? ? A0 A']; subst.
    destruct (IH ips' s a b l I' C' A') as (m & M & F). inversion R as [|? ? f ? ? i j R0 Mf]; subst.
    eexists. split; [cbn [app]; eapply ITM_more; [eapply IT_builtin, IM_builtin; [exact R0| |exact P|exact X]|exact M]|apply forget_import, F].
    intros u c d ->. destruct file as [r|]; [exists r; exact Mf|contradiction].
  - intros root names r alias x q c t items rules imports P X W Rd _ (mt & Mt & Ft) _ IH ips s a b l I C A. inversion I as [|p ? ips' ? R I']; subst. inversion C as [|? ? C0 C']; subst. inversion A as [|? ? A0 A']; subst.
    destruct (IH ips' s a b l I' C' A') as (m & M & F). inversion R as [|? ? f ? ? i j R0 Mf]; subst. destruct f as [((u & i1) & j1)|]; [|contradiction].
    eexists. split; [cbn [app]; eapply ITM_more; [eapply IT_file; [eapply IM_file; eassumption|exact Rd|exact Mt]|exact M]|apply (forget_import (M_file x mt)), F].
  - intros root names alias x d q c t items rules imports P X B Lo Rd _ (mt & Mt & Ft) _ IH ips s a b l I C A. inversion I as [|p ? ips' ? R I']; subst. inversion C as [|? ? C0 C']; subst. inversion A as [|? ? A0 A']; subst.
    destruct (IH ips' s a b l I' C' A') as (m & M & F). inversion R as [|? ? f ? ? i j R0 Mf]; subst. destruct f as [((u & i1) & j1)|]; [contradiction|].
    eexists. split; [cbn [app]; eapply ITM_more; [eapply IT_file; [eapply IM_beside; eassumption|exact Rd|exact Mt]|exact M]|apply (forget_import (M_file x mt)), F].
Qed.
End Files.
